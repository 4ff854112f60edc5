(** Property C112: complex smoothing of a spectrum over fractions of an octave. *)
From Coq Require Import List Arith Lia ZArith Bool Reals Lra Psatz.
From Verif Require Import Alg Spec Dft M_arrays M_signal M_level M_spectrum P_spectrum M_minphase P_minphase M_groupdelay Claims_fvec Claims_minphase Claims_transforms Claims_average M_csmooth.
Import ListNotations.
Local Open Scope R_scope.
Notation rs := (sum (HA := CRing_R)).

(** ** Specification *)
(** a window prototype: not negative, and positive except perhaps at its ends *)
Definition bell (win : list R) : Prop :=
  (3 <= length win)%nat /\ (forall k, (k < length win)%nat -> 0 <= nth k win 0) /\ (forall k, (0 < k)%nat -> (S k < length win)%nat -> 0 < nth k win 0).
(** the band of 1 / frac octaves around bin i, up to half a bin *)
Definition near_band (frac : R) (i j : nat) : Prop :=
  INR i / Rpower 2 (1 / (2 * frac)) - 1 / 2 <= INR j <= INR i * Rpower 2 (1 / (2 * frac)) + 1 / 2.
Definition well_in_band (frac : R) (i j : nat) : Prop :=
  INR i / Rpower 2 (1 / (2 * frac)) + 1 / 2 < INR j < INR i * Rpower 2 (1 / (2 * frac)) - 1 / 2.
(** a weighted mean over the band of bin i among K bins *)
Definition band_mean (frac : R) (K i : nat) (a : nat -> R) : Prop :=
  (forall j, (j < K)%nat -> 0 <= a j) /\ rs K a = 1 /\ (forall j, (j < K)%nat -> a j <> 0 -> near_band frac i j) /\
  (forall j, (S j < K)%nat -> well_in_band frac i j -> 0 < a j).
Definition mean_of (K : nat) (a : nat -> R) (v : nat -> R) : R := rs K (fun j => a j * v j).

(** ** Window *)
Lemma lin_len m : length (linspace (-1) 1 m) = m.
Proof. destruct m as [|[|m]]; try reflexivity. cbn [linspace]. apply mk_length. Qed.
Lemma lin_nth m k : (2 <= m)%nat -> (k < m)%nat -> nth k (linspace (-1) 1 m) 0 = -1 + INR k * (2 / INR (m - 1)).
Proof. intros M K. destruct m as [|[|m]]; try lia. unfold linspace. rewrite nth_mk by auto. do 2 f_equal. lra. Qed.
Lemma lin_asc m : (2 <= m)%nat -> asc (linspace (-1) 1 m).
Proof.
  intros M i j I J. rewrite lin_len in J. rewrite !lin_nth by lia. assert (0 < 2 / INR (m - 1)) by (apply Rdiv_lt_0_compat; [lra|apply lt_0_INR; lia]). apply lt_INR in I. nra.
Qed.
Lemma lin_range m t : (2 <= m)%nat -> -1 <= t <= 1 -> in_range (linspace (-1) 1 m) t.
Proof.
  intros M T. unfold in_range. rewrite lin_len, !lin_nth by lia. assert (0 < INR (m - 1)) by (apply lt_0_INR; lia). cbn [INR]. replace (-1 + INR (m - 1) * (2 / INR (m - 1))) with 1 by (field; lra). lra.
Qed.
Lemma interp_bell win t : bell win -> -1 <= t <= 1 ->
  0 <= np_interp (linspace (-1) 1 (length win)) win (nth 0 win 0) (last win 0) t /\
  (-1 < t < 1 -> 0 < np_interp (linspace (-1) 1 (length win)) win (nth 0 win 0) (last win 0) t).
Proof.
  intros (L & N & P) T. set (m := length win) in *.
  destruct (np_interp_in (linspace (-1) 1 m) win (nth 0 win 0) (last win 0) t) as (j & J & [(E & ->)|(J' & B & ->)]).
  - apply lin_asc; lia.
  - now rewrite lin_len.
  - intros E. apply (f_equal (@length R)) in E. rewrite lin_len in E. simpl in E. lia.
  - apply lin_range; auto; lia.
  - rewrite lin_len in J. split; [auto|]. intros T'. rewrite lin_nth in E by lia. assert (0 < INR (m - 1)) by (apply lt_0_INR; lia).
    apply P.
    + destruct j; [|lia]. cbn [INR] in E. lra.
    + apply Nat.nle_gt. intros Q. assert (j = m - 1)%nat by lia. subst j. replace (-1 + INR (m - 1) * (2 / INR (m - 1))) with 1 in E by (field; lra). lra.
  - rewrite lin_len in J'. set (g := linspace (-1) 1 m) in *. assert (G : nth j g 0 < nth (S j) g 0) by (apply lin_asc; [lia|lia|rewrite lin_len; lia]).
    set (u := (t - nth j g 0) / (nth (S j) g 0 - nth j g 0)). assert (U : 0 <= u < 1).
    { unfold u. split. apply Rmult_le_pos; [lra|apply Rlt_le, Rinv_0_lt_compat; lra]. apply (Rmult_lt_reg_r (nth (S j) g 0 - nth j g 0)); [lra|]. unfold Rdiv. rewrite Rmult_assoc, Rinv_l by lra. lra. }
    pose proof (N j ltac:(lia)). pose proof (N (S j) ltac:(lia)). replace (nth j win 0 + (nth (S j) win 0 - nth j win 0) * u) with ((1 - u) * nth j win 0 + u * nth (S j) win 0) by ring.
    split; [nra|]. intros T'. destruct j as [|j].
    + assert (0 < nth 1 win 0) by (apply P; lia). assert (0 < u). { unfold u. apply Rdiv_lt_0_compat; [|lra]. unfold g. rewrite lin_nth by lia. cbn [INR]. lra. } nra.
    + assert (0 < nth (S j) win 0) by (apply P; lia). nra.
Qed.
Lemma log_form n j : (1 < n)%Z -> log_point n j = Rpower 3 (1 - INR j / IZR (n - 1)) - 2.
Proof.
  intros H. unfold log_point. f_equal. unfold Rpower. f_equal. rewrite ln_1. assert (ln 10 <> 0) by (apply Rgt_not_eq; rewrite <- ln_1; apply ln_increasing; lra).
  assert (IZR (n - 1) <> 0) by (apply not_0_IZR; lia). field. auto.
Qed.
Lemma log_range n j : (1 < n)%Z -> (Z.of_nat j <= n - 1)%Z -> -1 <= log_point n j <= 1 /\ ((0 < j)%nat -> (Z.of_nat j < n - 1)%Z -> -1 < log_point n j < 1).
Proof.
  intros H J. rewrite log_form by auto. assert (P : 0 < IZR (n - 1)) by (apply IZR_lt; lia).
  assert (Q : IZR (n - 1) * (INR j / IZR (n - 1)) = INR j) by (field; lra). set (u := INR j / IZR (n - 1)) in *. clearbody u.
  assert (0 <= INR j <= IZR (n - 1)). { rewrite INR_IZR_INZ. split; apply IZR_le; lia. } assert (U : 0 <= u <= 1) by nra.
  assert (E1 : Rpower 3 1 = 3) by (apply Rpower_1; lra). assert (E0 : Rpower 3 0 = 1) by (apply Rpower_O; lra).
  split.
  - assert (Rpower 3 (1 - u) <= Rpower 3 1) by (apply Rle_Rpower; lra). assert (Rpower 3 0 <= Rpower 3 (1 - u)) by (apply Rle_Rpower; lra). lra.
  - intros J0 J1. assert (0 < INR j < IZR (n - 1)). { rewrite INR_IZR_INZ. split; apply IZR_lt; lia. } assert (0 < u < 1) by nra.
    assert (Rpower 3 (1 - u) < Rpower 3 1) by (apply Rpower_lt; lra). assert (Rpower 3 0 < Rpower 3 (1 - u)) by (apply Rpower_lt; lra). lra.
Qed.
Lemma window_ok win n j : bell win -> (1 < n)%Z -> (Z.of_nat j <= n - 1)%Z ->
  0 <= window_at win n j /\ ((0 < j)%nat -> (Z.of_nat j < n - 1)%Z -> 0 < window_at win n j).
Proof.
  intros B N J. destruct (log_range n j N J) as [R1 R2]. destruct (interp_bell win _ B R1) as [A1 A2]. unfold window_at. auto.
Qed.

(** ** Limits *)
Lemma factor_form frac : 0 < frac -> width_factor frac = Rpower 2 (1 / (2 * frac)).
Proof. intros H. unfold width_factor. f_equal. field. lra. Qed.
Lemma factor_gt frac : 0 < frac -> 1 < Rpower 2 (1 / (2 * frac)).
Proof. intros H. rewrite <- (Rpower_O 2) at 1 by lra. apply Rpower_lt; [lra|]. apply Rdiv_lt_0_compat; lra. Qed.
Lemma limits frac df i : 0 < frac -> 0 < df -> let F := Rpower 2 (1 / (2 * frac)) in
  (0 <= raw_low frac df i <= Z.of_nat i)%Z /\ (Z.of_nat i < raw_high frac df i)%Z /\
  INR i / F - 1 / 2 <= IZR (raw_low frac df i) < INR i / F + 1 / 2 /\ INR i * F - 1 / 2 < IZR (raw_high frac df i) - 1 <= INR i * F + 1 / 2.
Proof.
  intros Hf Hd F. assert (F1 : 1 < F) by (now apply factor_gt). unfold raw_low, raw_high. rewrite factor_form by auto. fold F. clearbody F.
  replace ((INR i * df - INR i * df / F) / df) with (INR i - INR i / F) by (field; lra). replace ((INR i * df * F - INR i * df) / df) with (INR i * F - INR i) by (field; lra).
  pose proof (Int_part_bounds (INR i - INR i / F + 1 / 2)) as [A1 A2]. pose proof (Int_part_bounds (INR i * F - INR i + 1 / 2)) as [B1 B2].
  set (p := Int_part (INR i - INR i / F + 1 / 2)) in *. set (q := Int_part (INR i * F - INR i + 1 / 2)) in *. clearbody p q.
  pose proof (pos_INR i) as I0. assert (D : 0 <= INR i / F <= INR i). { assert (F * (INR i / F) = INR i) by (field; lra). set (d := INR i / F) in *. clearbody d. split; nra. }
  set (d := INR i / F) in *. clearbody d.
  assert (P0 : (0 <= p)%Z). { apply Z.lt_succ_r. apply lt_IZR. rewrite succ_IZR. lra. }
  assert (Q0 : (0 <= q)%Z). { apply Z.lt_succ_r. apply lt_IZR. rewrite succ_IZR. nra. }
  assert (P1 : (p <= Z.of_nat i)%Z).
  { destruct (Z_le_gt_dec p (Z.of_nat i)) as [L|L]; auto. exfalso. assert (X : (Z.of_nat i + 1 <= p)%Z) by lia. apply IZR_le in X. rewrite plus_IZR, <- INR_IZR_INZ in X. lra. }
  split; [lia|]. split; [lia|]. rewrite minus_IZR, !plus_IZR, <- INR_IZR_INZ. split; lra.
Qed.
(** ** One bin *)
Definition weight (frac df : R) (win : list R) (K i j : nat) : R :=
  let lo := raw_low frac df i in let hi := raw_high frac df i in let n := (hi - lo)%Z in let h := Z.min hi (Z.of_nat K) in let m := Z.to_nat (h - lo) in
  if (h <=? lo + 2)%Z then if (j =? i)%nat then 1 else 0 else
  if (Z.of_nat j <? lo)%Z then 0 else if (Z.of_nat j <? h)%Z then window_at win n (j - Z.to_nat lo) / rs m (window_at win n) else 0.
Lemma sum_window {A} {H : CRing A} K lo m (f g : nat -> A) : (lo + m <= K)%nat -> (forall j, (j < m)%nat -> f (lo + j)%nat = g j) ->
  (forall j, (j < K)%nat -> (j < lo)%nat \/ (lo + m <= j)%nat -> f j = r0) -> sum K f = sum m g.
Proof.
  intros L E Z. replace K with (lo + (m + (K - lo - m)))%nat by lia. rewrite sum_split. rewrite (sum_zero' lo). 2:{ intros. apply Z; lia. }
  rewrite sum_split. rewrite (sum_zero' (K - lo - m)). 2:{ intros. apply Z; lia. } rewrite (sum_ext m _ g) by auto.
  pose proof (Radd_0_l (rth (A := A))) as A0. rewrite A0. rewrite (Radd_comm (rth (A := A))). apply A0.
Qed.
Lemma rs_pos n f : (forall j, (j < n)%nat -> 0 <= f j) -> (exists j, (j < n)%nat /\ 0 < f j) -> 0 < rs n f.
Proof.
  induction n; intros P (j & J & Q); [lia|]. cbn [sum radd CRing_R]. assert (0 <= rs n f). { clear - P. induction n; cbn [sum r0 radd CRing_R]; [lra|]. pose proof (P n ltac:(lia)). assert (0 <= rs n f) by (apply IHn; intros; apply P; lia). lra. }
  destruct (Nat.eq_dec j n) as [->|]. lra. pose proof (P n ltac:(lia)). assert (0 < rs n f). { apply IHn. intros. apply P. lia. exists j. split; [lia|auto]. } lra.
Qed.
Section Bin.
  Variables (frac df : R) (win : list R) (K i : nat).
  Hypotheses (B : bell win) (Hf : 0 < frac) (Hd : 0 < df) (Hi : (i < K)%nat).
  Let lo := raw_low frac df i.
  Let hi := raw_high frac df i.
  Let h := Z.min hi (Z.of_nat K).
  Let m := Z.to_nat (h - lo).
  Let total := rs m (window_at win (hi - lo)).
  Lemma lims : (0 <= lo <= Z.of_nat i)%Z /\ (Z.of_nat i < h)%Z /\ (h <= hi)%Z /\ (h <= Z.of_nat K)%Z.
  Proof. destruct (limits frac df i Hf Hd) as (A & C & _). fold lo in A; fold hi in C. unfold h. lia. Qed.
  Lemma total_pos : (lo + 2 < h)%Z -> 0 < total.
  Proof.
    intros L. pose proof lims. apply rs_pos.
    - intros j J. apply window_ok; auto; unfold m in J; lia.
    - exists 1%nat. unfold m. split; [lia|]. apply window_ok; auto; lia.
  Qed.
  Lemma weight_in j : (lo + 2 < h)%Z -> (j < m)%nat -> weight frac df win K i (Z.to_nat lo + j) = window_at win (hi - lo) j / total.
  Proof.
    intros L J. pose proof lims. unfold weight. fold lo hi. fold h. fold m. fold total. destruct (Z.leb_spec h (lo + 2)); [lia|]. unfold m in J.
    destruct (Z.ltb_spec (Z.of_nat (Z.to_nat lo + j)) lo); [lia|]. destruct (Z.ltb_spec (Z.of_nat (Z.to_nat lo + j)) h); [|lia]. do 2 f_equal. lia.
  Qed.
  Lemma weight_out j : (lo + 2 < h)%Z -> (j < Z.to_nat lo)%nat \/ (Z.to_nat lo + m <= j)%nat -> weight frac df win K i j = 0.
  Proof.
    intros L J. pose proof lims. unfold weight. fold lo hi. fold h. destruct (Z.leb_spec h (lo + 2)); [lia|]. unfold m in J.
    destruct (Z.ltb_spec (Z.of_nat j) lo); auto. destruct (Z.ltb_spec (Z.of_nat j) h); auto. lia.
  Qed.
  Lemma weight_short j : (h <= lo + 2)%Z -> weight frac df win K i j = if (j =? i)%nat then 1 else 0.
  Proof. intros L. unfold weight. fold lo hi. fold h. destruct (Z.leb_spec h (lo + 2)); [auto|lia]. Qed.
  Lemma bin_value x : length x = K -> smooth_bin frac df win x i = Some (csum K (fun j => cmul (rc (weight frac df win K i j)) (nth j x (rc 0)))).
  Proof.
    intros L. pose proof lims. unfold smooth_bin. rewrite L. fold lo hi. rewrite (Z.max_l lo 0) by lia. fold h. fold m. fold total.
    destruct (Z.leb_spec h (lo + 2)).
    - f_equal. symmetry. etransitivity; [apply (sum_single (HA := CRing_C) K i); auto|]; cbn beta.
      + intros j J N. rewrite weight_short by auto. apply Nat.eqb_neq in N. rewrite N. apply c_ext; cbn; ring.
      + rewrite weight_short, Nat.eqb_refl by auto. apply c_ext; cbn; ring.
    - pose proof (total_pos ltac:(lia)). destruct (Req_EM_T total 0); [lra|]. f_equal. symmetry. apply (sum_window K (Z.to_nat lo) m).
      + unfold m. lia.
      + intros j J. now rewrite weight_in by (auto; lia).
      + intros j J N. rewrite weight_out by (auto; lia). apply c_ext; cbn; ring.
  Qed.
  Lemma weight_mean : band_mean frac K i (weight frac df win K i).
  Proof.
    pose proof lims as LM. destruct (limits frac df i Hf Hd) as (_ & _ & RL & RH). fold lo hi in RL, RH. set (F := Rpower 2 (1 / (2 * frac))) in *. assert (F1 : 1 < F) by (now apply factor_gt).
    assert (NI : near_band frac i i).
    { unfold near_band. fold F. pose proof (pos_INR i). assert (F * (INR i / F) = INR i) by (field; lra). set (d := INR i / F) in *. clearbody d. split; nra. }
    destruct (Z_le_gt_dec h (lo + 2)) as [S|S].
    - split; [|split; [|split]].
      + intros j J. rewrite weight_short by auto. destruct (j =? i)%nat; lra.
      + etransitivity; [apply (sum_single (HA := CRing_R) K i); auto|]; cbn beta.
        * intros j J N. rewrite weight_short by auto. apply Nat.eqb_neq in N. now rewrite N.
        * now rewrite weight_short, Nat.eqb_refl by auto.
      + intros j J N. rewrite weight_short in N by auto. destruct (Nat.eqb_spec j i) as [->|]; [auto|lra].
      + intros j J [W1 W2]. fold F in W1, W2. exfalso. rewrite (INR_IZR_INZ j) in W1, W2.
        assert (A1 : (lo < Z.of_nat j)%Z) by (apply lt_IZR; lra). assert (A2 : (Z.of_nat j < hi - 1)%Z) by (apply lt_IZR; rewrite minus_IZR; lra). unfold h in S. lia.
    - assert (S' : (lo + 2 < h)%Z) by lia. pose proof (total_pos S') as T. assert (WI : forall j, (j < K)%nat -> weight frac df win K i j <> 0 -> (Z.to_nat lo <= j < Z.to_nat lo + m)%nat).
      { intros j J N. destruct (Nat.lt_ge_cases j (Z.to_nat lo)); [exfalso; apply N; apply weight_out; auto|]. destruct (Nat.lt_ge_cases j (Z.to_nat lo + m)); [lia|exfalso; apply N; apply weight_out; auto]. }
      split; [|split; [|split]].
      + intros j J. destruct (Req_dec (weight frac df win K i j) 0) as [->|N]; [lra|]. apply WI in N; auto. replace j with (Z.to_nat lo + (j - Z.to_nat lo))%nat by lia. rewrite weight_in by (auto; lia).
        apply Rmult_le_pos; [apply window_ok; auto; unfold m in N; lia|apply Rlt_le, Rinv_0_lt_compat; auto].
      + transitivity (rs m (fun j => window_at win (hi - lo) j / total)).
        * apply (sum_window (H := CRing_R) K (Z.to_nat lo) m); [unfold m; lia|intros j J; apply weight_in; auto|intros j J N; apply weight_out; auto].
        * transitivity (total * / total); [apply (sum_scal_r (HA := CRing_R))|field; lra].
      + intros j J N. apply WI in N; auto. unfold near_band. fold F. assert (A1 : (lo <= Z.of_nat j)%Z) by lia. assert (A2 : (Z.of_nat j <= hi - 1)%Z) by (unfold m in N; lia).
        apply IZR_le in A1, A2. rewrite minus_IZR in A2. rewrite <- INR_IZR_INZ in A1, A2. lra.
      + intros j J [W1 W2]. fold F in W1, W2. rewrite (INR_IZR_INZ j) in W1, W2.
        assert (A1 : (lo < Z.of_nat j)%Z) by (apply lt_IZR; lra). assert (A2 : (Z.of_nat j < hi - 1)%Z) by (apply lt_IZR; rewrite minus_IZR; lra).
        assert (JM : (j - Z.to_nat lo < m)%nat) by (unfold m, h; lia). replace j with (Z.to_nat lo + (j - Z.to_nat lo))%nat by lia. rewrite weight_in by auto.
        apply Rdiv_lt_0_compat; auto. apply window_ok; auto; lia.
  Qed.
  Lemma weight_shape : (lo + 2 < h)%Z -> forall j, (lo <= Z.of_nat j < h)%Z ->
    polygon (linspace (-1) 1 (length win)) win (Rpower 3 (1 - (INR j - IZR lo) / (IZR hi - 1 - IZR lo)) - 2) (weight frac df win K i j * total).
  Proof.
    intros S j J. pose proof lims. pose proof (total_pos S). destruct B as (B3 & _). replace j with (Z.to_nat lo + (j - Z.to_nat lo))%nat at 2 by lia. rewrite weight_in by (auto; unfold m; lia).
    replace (window_at win (hi - lo) (j - Z.to_nat lo) / total * total) with (window_at win (hi - lo) (j - Z.to_nat lo)) by (field; lra).
    replace (Rpower 3 (1 - (INR j - IZR lo) / (IZR hi - 1 - IZR lo)) - 2) with (log_point (hi - lo) (j - Z.to_nat lo)).
    - unfold window_at. apply np_interp_in.
      + apply lin_asc. lia.
      + now rewrite lin_len.
      + intros E. apply (f_equal (@length R)) in E. rewrite lin_len in E. simpl in E. lia.
      + apply lin_range; [lia|]. apply log_range; lia.
    - rewrite log_form by lia. do 4 f_equal.
      + rewrite minus_INR by lia. f_equal. rewrite INR_IZR_INZ. f_equal. lia.
      + rewrite !minus_IZR. ring.
  Qed.
End Bin.

(** ** Theorems *)
(** Smoothing of real and imaginary part: every bin is a weighted mean of the bins in its band, with weights that depend only on the bin, the width and
    the window, sum to 1, vanish more than half a bin outside the band and are positive inside. A band of at most two bins is left alone. Otherwise the
    weights follow the window, read backwards on a logarithmic scale from the lowest bin (3) to the highest (1), and cut at the last bin. *)
Theorem C112_mean frac df win K i : bell win -> 0 < frac -> 0 < df -> (i < K)%nat ->
  exists a, band_mean frac K i a /\
    (forall x, length x = K -> complex_smoothing frac df win RealImaginary x i = Some (csum K (fun j => cmul (rc (a j)) (nth j x (rc 0))))) /\
    exists lo hi, INR i / Rpower 2 (1 / (2 * frac)) - 1 / 2 <= IZR lo < INR i / Rpower 2 (1 / (2 * frac)) + 1 / 2 /\
      INR i * Rpower 2 (1 / (2 * frac)) - 1 / 2 < IZR hi <= INR i * Rpower 2 (1 / (2 * frac)) + 1 / 2 /\
      ((Z.min hi (Z.of_nat K - 1) <= lo + 1)%Z -> a i = 1) /\
      ((lo + 2 <= Z.min hi (Z.of_nat K - 1))%Z -> exists total, 0 < total /\ forall j, (lo <= Z.of_nat j <= Z.min hi (Z.of_nat K - 1))%Z ->
         polygon (mk (length win) (fun k => -1 + 2 * INR k / (INR (length win) - 1))) win (Rpower 3 (1 - (INR j - IZR lo) / (IZR hi - IZR lo)) - 2) (a j * total)).
Proof.
  intros B Hf Hd Hi. exists (weight frac df win K i). split; [now apply weight_mean|]. split; [intros x L; now apply bin_value|].
  destruct (limits frac df i Hf Hd) as (_ & _ & RL & RH). exists (raw_low frac df i), (raw_high frac df i - 1)%Z. split; [exact RL|]. rewrite minus_IZR. split; [exact RH|]. split.
  - intros S. rewrite weight_short by lia. now rewrite Nat.eqb_refl.
  - intros S. eexists. split; [apply (total_pos frac df win K i); auto; lia|]. intros j J.
    replace (mk (length win) (fun k => -1 + 2 * INR k / (INR (length win) - 1))) with (linspace (-1) 1 (length win)).
    + apply weight_shape; auto; lia.
    + destruct B as (B3 & _). apply list_eq_nth with (d := 0); [now rewrite lin_len, mk_length|]. intros k Hk. rewrite lin_len in Hk. rewrite lin_nth, nth_mk by lia. rewrite minus_INR by lia. cbn [INR]. unfold Rdiv. ring.
Qed.
Print Assumptions C112_mean.

(** ** Other domains *)
Lemma map_col (g : C -> C) x j : (j < length x)%nat -> nth j (map g x) (rc 0) = g (nth j x (rc 0)).
Proof. intros H. now rewrite (nth_map' g x j (rc 0) (rc 0)). Qed.
Lemma real_mean K a v : csum K (fun j => cmul (rc (a j)) (rc (v j))) = rc (mean_of K a v).
Proof. unfold mean_of. rewrite <- csum_rc. apply sum_ext. intros j _. apply c_ext; cbn; ring. Qed.
Lemma mod_polar r t : cmod (cmul (rc r) (cis t)) = Rabs r.
Proof.
  rewrite cmod_mul. replace (cmod (cis t)) with 1. 2:{ unfold cmod, cabs2, cis. cbn [fst snd]. pose proof (sin2_cos2 t). unfold Rsqr in *. replace (cos t * cos t + sin t * sin t) with 1 by lra. now rewrite sqrt_1. }
  unfold cmod, cabs2, rc. cbn [fst snd]. replace (r * r + 0 * 0) with (Rsqr r) by (unfold Rsqr; ring). rewrite sqrt_Rsqr_abs. ring.
Qed.
Lemma polar' z : z = cmul (rc (cmod z)) (cis (angle z)).
Proof. rewrite (polar z (angle z)) at 1 by (exists 0%Z; ring). unfold M_scaling.cmulr. apply c_ext; cbn; ring. Qed.
Lemma cmod_nonneg z : 0 <= cmod z.
Proof. apply sqrt_pos. Qed.
Lemma mean_pos K a v : (forall j, (j < K)%nat -> 0 <= a j) -> (forall j, (j < K)%nat -> 0 <= v j) -> 0 <= mean_of K a v.
Proof.
  unfold mean_of. intros A V. induction K; cbn [sum r0 radd CRing_R]; [lra|]. pose proof (A K ltac:(lia)). pose proof (V K ltac:(lia)). assert (0 <= rs K (fun j => a j * v j)) by (apply IHK; intros; [apply A|apply V]; lia). nra.
Qed.
(** the same direction in the complex plane *)
Definition aligned (z w : C) : Prop := cmul z (rc (cmod w)) = cmul w (rc (cmod z)).
Lemma polar_aligned r w : 0 <= r -> aligned (cmul (rc r) (cis (angle w))) w.
Proof.
  intros H. unfold aligned. rewrite mod_polar, Rabs_pos_eq by auto. transitivity (cmul (cmul (rc (cmod w)) (cis (angle w))) (rc r)); [apply c_ext; cbn; ring|]. now rewrite <- polar'.
Qed.
(** Magnitude and power smoothing keep the phase of every bin and give the mean magnitude and the root of the mean power of the same weights. *)
Theorem C112_magnitude frac df win K i : bell win -> 0 < frac -> 0 < df -> (i < K)%nat ->
  exists a, band_mean frac K i a /\ forall x, length x = K ->
    (exists z, complex_smoothing frac df win Magnitude x i = Some z /\ cmod z = mean_of K a (fun j => cmod (nth j x (rc 0))) /\ aligned z (nth i x (rc 0))) /\
    (exists z, complex_smoothing frac df win Power x i = Some z /\ cmod z ^ 2 = mean_of K a (fun j => cmod (nth j x (rc 0)) ^ 2) /\ aligned z (nth i x (rc 0))).
Proof.
  intros B Hf Hd Hi. exists (weight frac df win K i). pose proof (weight_mean frac df win K i B Hf Hd Hi) as M. split; [exact M|]. intros x L. pose proof (proj1 M) as A.
  split.
  - unfold complex_smoothing. rewrite (bin_value frac df win K) by (auto; now rewrite map_length).
    rewrite (sum_ext (HA := CRing_C) K _ (fun j => cmul (rc (weight frac df win K i j)) (rc (cmod (nth j x (rc 0)))))). 2:{ intros j J. now rewrite map_col by lia. }
    rewrite real_mean. cbn [option_map fst rc]. eexists. split; [reflexivity|]. assert (0 <= mean_of K (weight frac df win K i) (fun j => cmod (nth j x (rc 0)))) by (apply mean_pos; auto; intros; apply cmod_nonneg).
    split; [rewrite mod_polar; now apply Rabs_pos_eq|now apply polar_aligned].
  - unfold complex_smoothing. rewrite (bin_value frac df win K) by (auto; now rewrite map_length).
    rewrite (sum_ext (HA := CRing_C) K _ (fun j => cmul (rc (weight frac df win K i j)) (rc (cmod (nth j x (rc 0)) ^ 2)))). 2:{ intros j J. now rewrite map_col by lia. }
    rewrite real_mean. cbn [option_map fst rc]. eexists. split; [reflexivity|]. assert (0 <= mean_of K (weight frac df win K i) (fun j => cmod (nth j x (rc 0)) ^ 2)) by (apply mean_pos; auto; intros; apply pow2_ge_0).
    split; [rewrite mod_polar, Rabs_pos_eq by apply sqrt_pos; rewrite <- Rsqr_pow2; now apply Rsqr_sqrt|apply polar_aligned, sqrt_pos].
Qed.
Print Assumptions C112_magnitude.

(** Equivalent complex smoothing has the power of the power smoothing and the phase of the complex mean. It is never smaller than the complex mean. *)
Lemma jensen K a v : (forall j, (j < K)%nat -> 0 <= a j) -> rs K a = 1 -> mean_of K a v ^ 2 <= mean_of K a (fun j => v j ^ 2).
Proof.
  intros A S. set (c := mean_of K a v). assert (P : 0 <= mean_of K a (fun j => (v j - c) ^ 2)) by (apply mean_pos; auto; intros; apply pow2_ge_0).
  assert (E : mean_of K a (fun j => (v j - c) ^ 2) = mean_of K a (fun j => v j ^ 2) - 2 * c * mean_of K a v + c ^ 2 * rs K a).
  { clear. unfold mean_of. clearbody c. induction K; cbn [sum r0 radd CRing_R]; [ring|]. rewrite IHK. ring. }
  rewrite S in E. fold c in E. nra.
Qed.
Theorem C112_equivalent frac df win K i : bell win -> 0 < frac -> 0 < df -> (i < K)%nat ->
  exists a, band_mean frac K i a /\ forall x, length x = K ->
    let m := csum K (fun j => cmul (rc (a j)) (nth j x (rc 0))) in
    exists z, complex_smoothing frac df win EquivalentComplex x i = Some z /\ cmod z ^ 2 = mean_of K a (fun j => cmod (nth j x (rc 0)) ^ 2) /\ aligned z m /\ cmod m <= cmod z.
Proof.
  intros B Hf Hd Hi. exists (weight frac df win K i). pose proof (weight_mean frac df win K i B Hf Hd Hi) as M. split; [exact M|]. intros x L m. destruct M as (A & S & _).
  unfold complex_smoothing. rewrite !(bin_value frac df win K) by (auto; now rewrite map_length). fold m.
  rewrite (sum_ext (HA := CRing_C) K _ (fun j => cmul (rc (weight frac df win K i j)) (rc (cmod (nth j x (rc 0)) ^ 2)))). 2:{ intros j J. now rewrite map_col by lia. }
  rewrite real_mean. cbn [fst rc]. eexists. split; [reflexivity|]. set (q := mean_of K (weight frac df win K i) (fun j => cmod (nth j x (rc 0)) ^ 2)).
  assert (Q : 0 <= q) by (apply mean_pos; auto; intros; apply pow2_ge_0). rewrite mod_polar, Rabs_pos_eq by apply sqrt_pos.
  split; [rewrite <- Rsqr_pow2; now apply Rsqr_sqrt|]. split; [apply polar_aligned, sqrt_pos|].
  unfold cmod at 1. apply sqrt_le_1_alt. unfold cabs2.
  assert (F1 : fst m = mean_of K (weight frac df win K i) (fun j => fst (nth j x (rc 0)))) by (unfold m, mean_of; rewrite csum_fst; apply sum_ext; intros j _; cbn; ring).
  assert (F2 : snd m = mean_of K (weight frac df win K i) (fun j => snd (nth j x (rc 0)))) by (unfold m, mean_of; rewrite csum_snd; apply sum_ext; intros j _; cbn; ring).
  pose proof (jensen K _ (fun j => fst (nth j x (rc 0))) A S) as J1. pose proof (jensen K _ (fun j => snd (nth j x (rc 0))) A S) as J2.
  assert (E : q = mean_of K (weight frac df win K i) (fun j => fst (nth j x (rc 0)) ^ 2) + mean_of K (weight frac df win K i) (fun j => snd (nth j x (rc 0)) ^ 2)).
  { unfold q, mean_of. etransitivity; [|apply (sum_add (HA := CRing_R))]. apply sum_ext. intros j _. cbn [radd CRing_R]. rewrite <- Rsqr_pow2. unfold Rsqr. rewrite cmod_sq. unfold cabs2. ring. }
  rewrite E, F1, F2. nra.
Qed.
Print Assumptions C112_equivalent.

(** Magnitude-phase and power-phase smoothing: magnitude or power and a continuous phase of the spectrum are averaged apart, with the same weights. *)
Definition continuous_phase (x : list C) (p : nat -> R) : Prop :=
  (forall j, (j < length x)%nat -> nth j x (rc 0) = cmul (rc (cmod (nth j x (rc 0)))) (cis (p j))) /\
  (forall j, (S j < length x)%nat -> Rabs (p (S j) - p j) <= PI) /\ (nth 0 x (rc 0) <> rc 0 -> - PI < p 0%nat <= PI).
Lemma unwrap_len l : length (unwrap l) = length l.
Proof.
  destruct l as [|v t]; auto. cbn [unwrap length]. f_equal. generalize v at 1 as acc. revert v. induction t; intros; cbn [unwrap_from length]; auto.
Qed.
Lemma phases_ok x : continuous_phase x (fun j => nth j (unwrap (map angle x)) 0).
Proof.
  destruct (unwrap_spec (map angle x)) as (U1 & U2 & U3). split; [|split].
  - intros j J. destruct (U1 j ltac:(now rewrite map_length)) as (m & E). rewrite (nth_map' angle x j (rc 0) 0) in E by auto.
    rewrite (polar (nth j x (rc 0)) (nth j (unwrap (map angle x)) 0)) at 1 by (exists m; exact E). unfold M_scaling.cmulr. apply c_ext; cbn; ring.
  - intros j J. replace (S j) with (j + 1)%nat by lia. apply U2. rewrite map_length. lia.
  - intros N. cbn beta. rewrite U3. destruct x as [|v t]; [now cbn in N|]. cbn [map nth] in *. now apply Claims_minphase.angle_spec.
Qed.
Lemma pair_mean K a u v : csum K (fun j => cmul (rc (a j)) (u j, v j)) = (mean_of K a u, mean_of K a v).
Proof. unfold mean_of. apply c_ext; [rewrite csum_fst|rewrite csum_snd]; apply sum_ext; intros j _; cbn; ring. Qed.
Lemma phase_bin frac df win K i (g : C -> R) x : bell win -> 0 < frac -> 0 < df -> (i < K)%nat -> length x = K ->
  smooth_bin frac df win (map (fun p => (g (fst p), snd p)) (combine x (unwrap (map angle x)))) i =
  Some (mean_of K (weight frac df win K i) (fun j => g (nth j x (rc 0))), mean_of K (weight frac df win K i) (fun j => nth j (unwrap (map angle x)) 0)).
Proof.
  intros B Hf Hd Hi L. assert (LC : length (combine x (unwrap (map angle x))) = K) by (rewrite combine_length, unwrap_len, map_length; lia).
  rewrite (bin_value frac df win K) by (auto; now rewrite map_length). f_equal. rewrite <- pair_mean. apply sum_ext. intros j J.
  rewrite (nth_map' _ _ j (rc 0, 0) (rc 0)) by lia. rewrite combine_nth by (now rewrite unwrap_len, map_length). reflexivity.
Qed.
Theorem C112_phase frac df win K i : bell win -> 0 < frac -> 0 < df -> (i < K)%nat ->
  exists a, band_mean frac K i a /\ forall x, length x = K -> exists p, continuous_phase x p /\
    complex_smoothing frac df win MagnitudePhase x i = Some (cmul (rc (mean_of K a (fun j => cmod (nth j x (rc 0))))) (cis (mean_of K a p))) /\
    complex_smoothing frac df win PowerPhase x i = Some (cmul (rc (sqrt (mean_of K a (fun j => cmod (nth j x (rc 0)) ^ 2)))) (cis (mean_of K a p))).
Proof.
  intros B Hf Hd Hi. exists (weight frac df win K i). split; [now apply weight_mean|]. intros x L. exists (fun j => nth j (unwrap (map angle x)) 0). split; [apply phases_ok|].
  unfold complex_smoothing. cbv zeta beta. split.
  - rewrite (phase_bin frac df win K i cmod) by auto. reflexivity.
  - rewrite (phase_bin frac df win K i (fun z => cmod z ^ 2)) by auto. reflexivity.
Qed.
Print Assumptions C112_phase.

(** A constant spectrum is left alone in the domains that average the values, the magnitudes or the powers. *)
Theorem C112_constant frac df win K i dom z : bell win -> 0 < frac -> 0 < df -> (i < K)%nat ->
  In dom [RealImaginary; Magnitude; Power; EquivalentComplex] -> complex_smoothing frac df win dom (repeat z K) i = Some z.
Proof.
  intros B Hf Hd Hi D. destruct (weight_mean frac df win K i B Hf Hd Hi) as (_ & S & _). set (a := weight frac df win K i) in *.
  assert (N : forall (w : C) j, (j < K)%nat -> nth j (repeat w K) (rc 0) = w). { intros w j J. rewrite (nth_indep _ (rc 0) w) by (now rewrite repeat_length). apply nth_repeat. }
  assert (V : forall w, smooth_bin frac df win (repeat w K) i = Some w).
  { intros w. rewrite (bin_value frac df win K) by (auto; now rewrite repeat_length). f_equal. fold a.
    transitivity (csum K (fun j => rmul (rc (a j)) w)). apply sum_ext. intros j J. now rewrite N. etransitivity; [apply (sum_scal_r (HA := CRing_C))|]. pose proof (csum_rc K a) as Cr. rewrite S in Cr. rewrite Cr. apply c_ext; cbn; ring. }
  assert (Mp : forall (g : C -> C), map g (repeat z K) = repeat (g z) K). { intros g. clear. induction K; cbn; congruence. }
  pose proof (cmod_nonneg z) as Z0. assert (Q : sqrt (cmod z ^ 2) = cmod z) by (rewrite <- Rsqr_pow2; now apply sqrt_Rsqr).
  unfold complex_smoothing. cbn [In] in D. destruct D as [<-|[<-|[<-|[<-|[]]]]]; rewrite ?Mp, ?V; cbn [option_map fst rc]; rewrite ?N, ?Q by auto; auto; f_equal; symmetry; apply polar'.
Qed.
Print Assumptions C112_constant.

(** ** A case: a triangular window of three points, octaves, bin 4 of 9 sees bins 3 to 6. *)
Lemma triangle_bell : bell [0; 1; 0].
Proof.
  split; [cbn; lia|]. split; intros k; [intros K|intros K0 K1]; cbn [length] in *.
  - destruct k as [|[|[|k]]]; cbn; try lra; lia.
  - destruct k as [|[|k]]; cbn; try lra; lia.
Qed.
Example C112_bin_four : exists a, band_mean 1 9 4 a /\ 0 < a 4%nat /\ a 0%nat = 0 /\ complex_smoothing 1 10 [0; 1; 0] RealImaginary (repeat (rc 1) 9) 4 = Some (rc 1).
Proof.
  destruct (C112_mean 1 10 [0; 1; 0] 9 4 triangle_bell) as (a & M & _ & _); try lra; try lia. exists a. split; [exact M|]. destruct M as (_ & _ & M3 & M4).
  assert (F : 14 / 10 < Rpower 2 (1 / (2 * 1)) < 15 / 10).
  { replace (1 / (2 * 1)) with (/ 2) by field. rewrite Rpower_sqrt by lra. split.
    - replace (14 / 10) with (sqrt (Rsqr (14 / 10))) by (apply sqrt_Rsqr; lra). apply sqrt_lt_1_alt. unfold Rsqr. lra.
    - replace (15 / 10) with (sqrt (Rsqr (15 / 10))) by (apply sqrt_Rsqr; lra). apply sqrt_lt_1_alt. unfold Rsqr. lra. }
  assert (G : INR 4 / Rpower 2 (1 / (2 * 1)) * Rpower 2 (1 / (2 * 1)) = 4) by (replace (INR 4) with 4 by (cbn; lra); field; lra).
  set (f := Rpower 2 (1 / (2 * 1))) in *. split; [|split].
  - apply M4; [lia|]. unfold well_in_band. fold f. set (d := INR 4 / f) in *. clearbody d f. replace (INR 4) with 4 by (cbn; lra). nra.
  - destruct (Req_dec (a 0%nat) 0) as [|N]; auto. apply M3 in N; [|lia]. unfold near_band in N. fold f in N. set (d := INR 4 / f) in *. clearbody d f. cbn [INR] in N. nra.
  - apply C112_constant; try lra; try lia; try apply triangle_bell. cbn; auto.
Qed.
