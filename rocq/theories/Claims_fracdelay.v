(** C71: fractional delays. *)
From Coq Require Import List Arith Lia ZArith Bool Reals Lra Psatz.
From Verif Require Import Alg Spec Dft M_arrays M_delay M_latency M_fracdelay P_arrays P_arrays2 M_filter P_filter P_ar Claims_delay Claims_signal Claims_steering.
Import ListNotations.
Local Open Scope R_scope.

(** ** Specification *)
(** The channel [c] of [k] is in the selection, counted from the start or from the end. *)
Definition chosen (k : nat) (sel : list Z) (c : nat) : Prop := In (Z.of_nat c) sel \/ In (Z.of_nat c - Z.of_nat k)%Z sel.
(** The windowed sinc at the distance [u] (samples) from its centre; [b] is the modified Bessel function of order zero, as a function of the square. *)
Definition kernel (b : R -> R) (beta : R) (order : nat) (u : R) : R := sinc u * (b (Rsqr beta * (1 - Rsqr (u / (INR order / 2)))) / b (Rsqr beta)).
(** Interpolation at the time [k] - [d] with the [order] + 1 input samples at the lags [lo], ..., [lo + order]. *)
Definition interpolated (b : R -> R) (beta : R) (order : nat) (lo : Z) (d : R) (x : list R) (k : nat) : R :=
  rsum (length x) (fun j => let lag := (Z.of_nat k - Z.of_nat j)%Z in
    if ((lo <=? lag) && (lag <=? lo + Z.of_nat order))%Z then get x j * kernel b beta order (IZR lag - d) else 0).

(** The lags lie around the delay: their centre is at most half a sample away; of two such places odd orders take the later and even orders the earlier one. *)
Definition centred (order : nat) (lo : Z) (d : R) : Prop :=
  let c := IZR lo + INR order / 2 in if Nat.odd order then - (1 / 2) <= d - c < 1 / 2 else - (1 / 2) < d - c <= 1 / 2.

(** ** Lemmas *)
Lemma int_part_bounds d : 0 <= d -> 0 <= d - IZR (Int_part d) < 1 /\ (0 <= Int_part d)%Z.
Proof.
  intros H. pose proof (base_Int_part d) as [A B]. split; [lra|]. apply Z.lt_succ_r, lt_IZR. rewrite succ_IZR. lra.
Qed.
Lemma np_round_frac f : 0 <= f < 1 -> np_round f = if Rlt_dec (1 / 2) f then 1%Z else 0%Z.
Proof.
  intros H. unfold np_round. assert (E : Int_part f = 0%Z). { unfold Int_part. replace (up f) with 1%Z; auto. apply tech_up; simpl; lra. }
  rewrite E. replace (f - 0) with f by lra. destruct (Rlt_dec f (1 / 2)), (Rlt_dec (1 / 2) f); auto; lra.
Qed.
Lemma half_even order : Nat.odd order = false -> INR (order / 2) = INR order / 2.
Proof. intros H. destruct (Nat.Even_or_Odd order) as [[m ->]|[m ->]]. rewrite Nat.mul_comm, Nat.div_mul, mult_INR by lia. simpl. lra. exfalso. rewrite Nat.odd_add, Nat.odd_mul in H. simpl in H. discriminate. Qed.
Lemma half_odd order : Nat.odd order = true -> INR ((order - 1) / 2) = (INR order - 1) / 2.
Proof. intros H. apply Nat.odd_spec in H as [m ->]. replace (2 * m + 1 - 1)%nat with (m * 2)%nat by lia. rewrite Nat.div_mul by lia. rewrite plus_INR, mult_INR. simpl. lra. Qed.
Lemma first_tap_value order d : 0 <= d -> IZR (first_tap order d) = (if Nat.odd order then 1 / 2 else if Rlt_dec (1 / 2) (d - IZR (Int_part d)) then 1 else 0) - INR order / 2.
Proof.
  intros H. destruct (int_part_bounds d H) as [F _]. unfold first_tap. destruct (Nat.odd order) eqn:O.
  - rewrite opp_IZR, <- INR_IZR_INZ, half_odd by auto. lra.
  - rewrite np_round_frac by auto. rewrite minus_IZR, <- INR_IZR_INZ, half_even by auto. destruct (Rlt_dec _ _); simpl; lra.
Qed.
Lemma first_tap_centre order d : 0 <= d -> centred order (Int_part d + first_tap order d) d.
Proof.
  intros H. destruct (int_part_bounds d H) as [F _]. unfold centred. rewrite plus_IZR, first_tap_value by auto. destruct (Nat.odd order). lra. destruct (Rlt_dec _ _); lra.
Qed.
Lemma centred_unique order lo lo' d : centred order lo d -> centred order lo' d -> lo = lo'.
Proof.
  unfold centred. intros A B. assert (- 1 < IZR (lo - lo') < 1) by (rewrite minus_IZR; destruct (Nat.odd order); lra). assert (-1 < lo - lo' < 1)%Z by (split; apply lt_IZR; lra). lia.
Qed.
Lemma first_tap_bound order d : 0 <= d -> (0 <= Int_part d + first_tap order d + Z.of_nat order)%Z.
Proof.
  intros H.  destruct (int_part_bounds d H) as [F P]. unfold first_tap. destruct (Nat.odd order) eqn:O.
  - apply Nat.odd_spec in O as [m ->]. replace (2 * m + 1 - 1)%nat with (m * 2)%nat by lia. rewrite Nat.div_mul by lia. lia.
  - rewrite np_round_frac by auto. assert (order / 2 <= order)%nat by (apply Nat.div_le_upper_bound; lia). destruct (Rlt_dec _ _); lia.
Qed.
Lemma filter_at b order a d i : 0 <= d -> (i <= order)%nat ->
  nth i (snd (frac_filter b order a d)) 0 = kernel b (kaiser_beta a) order (INR i + IZR (first_tap order d) - (d - IZR (Int_part d))).
Proof.
  intros H Hi. unfold frac_filter. cbn [snd]. rewrite nth_mk by lia. unfold kernel, kaiser. pose proof (first_tap_value order d H) as T. set (corr := if Nat.odd order then _ else _) in *.
  replace (INR i - (d - IZR (Int_part d)) + corr - INR order / 2) with (INR i + IZR (first_tap order d) - (d - IZR (Int_part d))) by lra. reflexivity.
Qed.
Lemma conv_by_input (h x : list R) n : conv (HA := CRing_R) h x n = rsum (length x) (fun j => if (j <=? n)%nat then get x j * get h (n - j) else 0).
Proof.
  unfold conv. rewrite (sum_rev (HA := CRing_R)). destruct (Nat.le_ge_cases (S n) (length x)) as [L|L].
  - replace (length x) with (S n + (length x - S n))%nat by lia. rewrite (sum_split (HA := CRing_R)). rewrite (sum_zero' (HA := CRing_R) (length x - S n)).
    + change (@radd R CRing_R) with Rplus. change (@r0 R CRing_R) with 0. rewrite Rplus_0_r. apply sum_ext. intros j Hj. destruct (Nat.leb_spec j n); [|lia]. change (@rmul R CRing_R) with Rmult. rewrite Rmult_comm. replace (n - (S n - 1 - j))%nat with j by lia. replace (S n - 1 - j)%nat with (n - j)%nat by lia. reflexivity.
    + intros j Hj. destruct (Nat.leb_spec (S n + j) n); [lia|reflexivity].
  - replace (S n) with (length x + (S n - length x))%nat at 1 by lia. rewrite (sum_split (HA := CRing_R)). rewrite (sum_zero' (HA := CRing_R) (S n - length x)).
    + change (@radd R CRing_R) with Rplus. change (@r0 R CRing_R) with 0. rewrite Rplus_0_r. apply sum_ext. intros j Hj. destruct (Nat.leb_spec j n); [|lia]. change (@rmul R CRing_R) with Rmult. rewrite Rmult_comm. replace (n - (S n - 1 - j))%nat with j by lia. replace (S n - 1 - j)%nat with (n - j)%nat by lia. reflexivity.
    + intros j Hj. rewrite (get_out x) by lia. change (@rmul R CRing_R) with Rmult. change (@r0 R CRing_R) with 0. ring.
Qed.
(** The delayed column. *)
Lemma delayed_column b order a d x k : 0 <= d -> x <> [] ->
  let '(dint, h) := frac_filter b order a d in let total := Z.to_nat (dint + Z.of_nat (length x + order)) in (k < total)%nat ->
  get (pad_trim_col total false (conv_full x h)) k = interpolated b (kaiser_beta a) order dint d x k.
Proof.
  intros H Hx. destruct (frac_filter b order a d) as [dint h] eqn:E. cbv zeta. intros Hk. assert (Ed : dint = (Int_part d + first_tap order d)%Z) by (unfold frac_filter in E; congruence).
  assert (Lh : length h = (order + 1)%nat) by (unfold frac_filter in E; injection E as _ <-; apply mk_length).
  assert (Hh : forall i, (i <= order)%nat -> get h i = kernel b (kaiser_beta a) order (INR i + IZR (first_tap order d) - (d - IZR (Int_part d)))). { intros i Hi. unfold get. change (@r0 R CRing_R) with 0. rewrite <- (filter_at b) by auto. now rewrite E. }
  pose proof (first_tap_bound order d H) as B. rewrite <- Ed in B. assert (Lv : length (conv_full x h) = (length x + order)%nat) by (rewrite conv_full_length; [lia|auto|destruct h; [simpl in Lh; lia|discriminate]]).
  assert (Hz : get (pad_trim_col (Z.to_nat (dint + Z.of_nat (length x + order))) false (conv_full x h)) k = if (dint <=? Z.of_nat k)%Z then get (conv_full x h) (Z.to_nat (Z.of_nat k - dint)) else 0).
  { destruct (Z.leb_spec 0 dint) as [P|P].
    - rewrite pad_trim_start_pad by lia. destruct (Z.leb_spec dint (Z.of_nat k)).
      + rewrite get_app_r by (rewrite repeat_length; lia). rewrite repeat_length. f_equal. lia.
      + rewrite get_app_l by (rewrite repeat_length; lia). apply (get_repeat0 (HA := CRing_R)).
    - rewrite pad_trim_start_trim by lia. rewrite get_skipn. destruct (Z.leb_spec dint (Z.of_nat k)); [|lia]. f_equal. lia. }
  rewrite Hz. unfold interpolated. destruct (Z.leb_spec dint (Z.of_nat k)) as [P|P].
  - rewrite get_conv_full, conv_by_input. apply sum_ext. intros j Hj. cbv zeta. destruct (Nat.leb_spec j (Z.to_nat (Z.of_nat k - dint))) as [Q|Q].
    + destruct (Z.leb_spec dint (Z.of_nat k - Z.of_nat j)); [|lia]. cbn [andb]. destruct (Z.leb_spec (Z.of_nat k - Z.of_nat j) (dint + Z.of_nat order)).
      * rewrite Hh by lia. do 2 f_equal. rewrite (INR_IZR_INZ (_ - _)). rewrite Nat2Z.inj_sub, Z2Nat.id by lia. rewrite !minus_IZR, Ed, plus_IZR. lra.
      * rewrite (get_out h) by lia. change (@r0 R CRing_R) with 0. ring.
    + destruct (Z.leb_spec dint (Z.of_nat k - Z.of_nat j)); [lia|]. reflexivity.
  - symmetry. apply (sum_zero' (HA := CRing_R)). intros j Hj. cbv zeta. destruct (Z.leb_spec dint (Z.of_nat k - Z.of_nat j)); [lia|]. reflexivity.
Qed.

(** ** The law of the delay *)
(** The output at the time k is the windowed sinc interpolation of the input at the time k minus the delay with the order + 1 input samples
    nearest to it; channels which are not chosen are padded with zeros. *)
Theorem C71_interpolation :
  forall b fs delay_s chs keep order a td len, 0 < delay_s -> 0 < fs -> td <> [] -> (0 < len)%nat -> Forall (fun col => length col = len) td -> (keep = true -> delay_s * fs < INR len) ->
  let k := length td in let sel := match chs with None => map Z.of_nat (seq 0 k) | Some l => l end in
  sel <> [] -> NoDup sel -> (forall z, In z sel -> (- Z.of_nat k <= z < Z.of_nat k)%Z) ->
  exists out lo, fractional_td b fs delay_s chs keep order a td = Ok out /\ length out = k /\
    centred order lo (delay_s * fs) /\ (0 <= lo + Z.of_nat order)%Z /\
    forall c, (c < k)%nat -> length (nth c out []) = (if keep then len else Z.to_nat (Z.of_nat len + Z.of_nat order + lo)) /\
      forall i, (i < length (nth c out []))%nat ->
        (chosen k sel c -> get (nth c out []) i = interpolated b (kaiser_beta a) order lo (delay_s * fs) (nth c td []) i) /\
        (~ chosen k sel c -> get (nth c out []) i = get (nth c td []) i).
Proof.
  intros b fs delay_s chs keep order a td len Hd Hf Hne Hl HF Hk k sel Hs HN HR. unfold fractional_td. set (D := delay_s * fs) in *. assert (HD : 0 < D) by (unfold D; now apply Rmult_lt_0_compat).
  destruct (Rlt_dec delay_s 0); [lra|]. destruct (Req_EM_T delay_s 0); [lra|].
  assert (Elen : length (hd [] td) = len) by (destruct td; [easy|]; simpl; now inversion HF). rewrite Elen. fold k. fold sel. fold D.
  assert (Ek : (keep && (if Rlt_dec D (INR len) then false else true))%bool = false). { destruct keep; auto. specialize (Hk eq_refl). destruct (Rlt_dec D (INR len)); [reflexivity|lra]. } rewrite Ek. clearbody sel.
  assert (E1 : forallb (fun z => (z <? Z.of_nat k)%Z) sel = true) by (apply forallb_forall; intros z Hz; apply Z.ltb_lt; apply HR in Hz; lia). rewrite E1. assert (E2 : znodup sel = true) by now apply znodup_spec. rewrite E2. cbn [andb negb].
  destruct sel as [|z0 sel'] eqn:Esel; [easy|]. rewrite <- Esel in *. destruct (resolve_all k sel) as [ks|] eqn:ER.
  2:{ apply resolve_all_none in ER. destruct ER as [z [Hz E]]. apply HR in Hz. unfold py_index in E. destruct (Z.leb_spec 0 z). destruct (Z.ltb_spec z (Z.of_nat k)); [discriminate|lia]. destruct (Z.leb_spec (- Z.of_nat k) z); [discriminate|lia]. }
  apply resolve_all_spec in ER. assert (Hks : forall q, In q ks -> (q < k)%nat). { clear - ER. induction ER as [|z q zs ks E ER IH]; [easy|]. intros q' [<-|Hq]; auto. now apply py_index_lt in E. }
  assert (Hin : forall c, (c < k)%nat -> (In c ks <-> chosen k sel c)). { intros c Hc. rewrite (resolve_in k sel ks c ER Hc). unfold chosen. split. intros (z & Hz & [->| E]); [now left|right]. replace (Z.of_nat c - Z.of_nat k)%Z with z by lia. auto. intros [Hc'|Hc']; eexists; split; eauto. right. lia. }
  pose proof (fun x i => delayed_column b order a D x i (Rlt_le _ _ HD)) as DC. pose proof (first_tap_centre order D (Rlt_le _ _ HD)) as CT. pose proof (first_tap_bound order D (Rlt_le _ _ HD)) as BT.
  destruct (frac_filter b order a D) as [dint h] eqn:EF. assert (Ed : dint = (Int_part D + first_tap order D)%Z) by (unfold frac_filter in EF; congruence). rewrite <- Ed in CT, BT.
  assert (Lh : length h = (order + 1)%nat) by (unfold frac_filter in EF; injection EF as _ <-; apply mk_length). rewrite Lh. replace (len + (order + 1) - 1)%nat with (len + order)%nat by lia.
  set (total := Z.to_nat (dint + Z.of_nat (len + order))). cbv zeta in DC.
  set (padded := map _ td). set (filtered := fold_left _ _ padded). set (out := fold_left _ _ _).
  assert (Lp : length padded = k) by (unfold padded; now rewrite map_length). assert (Lf : length filtered = k) by (unfold filtered; now rewrite fold_upd_length).
  assert (Lo : length out = k) by (unfold out; rewrite fold_upd_length, map_length; auto).
  assert (Cf : forall c, (c < k)%nat -> nth c filtered [] = if in_dec Nat.eq_dec c ks then conv_full (nth c td []) h else pad_trim_col (len + order) true (nth c td [])).
  { intros c Hc. unfold filtered. rewrite (fold_upd_map (A := R) (fun q => conv_full (nth q td []) h)) by (intros; rewrite Lp; auto). destruct (in_dec _ _ _); auto. unfold padded. now rewrite (nth_map' _ td c []). }
  assert (Co : forall c, (c < k)%nat -> length (nth c out []) = total /\ forall i, (i < total)%nat -> get (nth c out []) i = if in_dec Nat.eq_dec c ks then interpolated b (kaiser_beta a) order dint D (nth c td []) i else get (nth c td []) i).
  { intros c Hc. pose proof (nth_default_in td c len HF Hc) as Hlc. unfold out. rewrite (fold_upd_map (A := R) (fun q => pad_trim_col total false (nth q filtered []))) by (intros; rewrite map_length, Lf; auto).
    destruct (in_dec Nat.eq_dec c ks) as [Hi|Hi].
    - split. apply pad_trim_length. intros i Hi'. rewrite Cf by auto. destruct (in_dec Nat.eq_dec c ks); [|easy]. unfold total. rewrite <- Hlc. apply DC. destruct (nth c td []); [simpl in Hlc; lia|discriminate]. rewrite Hlc. exact Hi'.
    - rewrite (nth_map' _ filtered c []) by lia. split. apply pad_trim_length. intros i Hi'. rewrite pad_trim_end by auto. rewrite Cf by auto. destruct (in_dec Nat.eq_dec c ks); [easy|].
      destruct (Nat.lt_ge_cases i (len + order)). now rewrite pad_trim_end. rewrite !get_out; auto. lia. rewrite pad_trim_length. lia. }
  assert (TL : keep = true -> (len <= total)%nat). { intros _. unfold total. lia. }
  exists (if keep then map (firstn len) out else out), dint. split; [reflexivity|]. split; [destruct keep; rewrite ?map_length; auto|]. split; [exact CT|]. split; [exact BT|]. intros c Hc. destruct (Co c Hc) as [L1 G1].
  assert (Lc : length (nth c (if keep then map (firstn len) out else out) []) = (if keep then len else Z.to_nat (Z.of_nat len + Z.of_nat order + dint))).
  { destruct keep. rewrite (nth_map' _ out c []) by lia. rewrite firstn_length, L1. specialize (TL eq_refl). lia. rewrite L1. unfold total. f_equal. lia. }
  split; auto. rewrite Lc. intros i Hi. assert (It : (i < total)%nat) by (destruct keep; [specialize (TL eq_refl); lia|unfold total; lia]).
  assert (Gi : get (nth c (if keep then map (firstn len) out else out) []) i = get (nth c out []) i). { destruct keep; auto. rewrite (nth_map' _ out c []) by lia. rewrite get_firstn. destruct (Nat.ltb_spec i len); auto; lia. }
  rewrite Gi, G1 by auto. rewrite <- (Hin c Hc). destruct (in_dec Nat.eq_dec c ks); split; intros; easy.
Qed.
Print Assumptions C71_interpolation.

(** ** Whole delays *)
Lemma sin_int_PI z : sin (PI * IZR z) = 0.
Proof.
  assert (P : forall n, sin (PI * INR n) = 0). { induction n. simpl. now rewrite Rmult_0_r, sin_0. rewrite S_INR. replace (PI * (INR n + 1)) with (PI * INR n + PI) by ring. rewrite neg_sin, IHn. ring. }
  destruct z. simpl. now rewrite Rmult_0_r, sin_0. rewrite <- positive_nat_Z, <- INR_IZR_INZ. apply P. rewrite <- Pos2Z.opp_pos, opp_IZR, <- positive_nat_Z, <- INR_IZR_INZ. replace (PI * - INR (Pos.to_nat p)) with (- (PI * INR (Pos.to_nat p))) by ring. rewrite sin_neg, P. ring.
Qed.
Lemma sinc_int z : sinc (IZR z) = if (z =? 0)%Z then 1 else 0.
Proof.
  unfold sinc. destruct (Req_EM_T (IZR z) 0) as [E|E]; destruct (Z.eqb_spec z 0) as [->|N]; auto. apply eq_IZR_R0 in E. easy. easy. rewrite sin_int_PI. unfold Rdiv. ring.
Qed.
Lemma interpolated_whole b beta order lo (m : nat) x k : b (Rsqr beta) <> 0 -> centred order lo (INR m) -> (1 <= order)%nat ->
  interpolated b beta order lo (INR m) x k = if (k <? m)%nat then 0 else get x (k - m).
Proof.
  intros B C O. assert (Lo : (lo <= Z.of_nat m <= lo + Z.of_nat order)%Z).
  { assert (1 <= INR order) by (change 1 with (INR 1); apply le_INR; auto). assert (A : - (1 / 2) <= INR m - (IZR lo + INR order / 2) <= 1 / 2) by (unfold centred in C; destruct (Nat.odd order); lra).
    rewrite INR_IZR_INZ in A. split; apply le_IZR; rewrite ?plus_IZR, <- ?INR_IZR_INZ in *; lra. }
  unfold interpolated. assert (T : forall j, (let lag := (Z.of_nat k - Z.of_nat j)%Z in if ((lo <=? lag) && (lag <=? lo + Z.of_nat order))%Z then get x j * kernel b beta order (IZR lag - INR m) else 0) = if (k =? j + m)%nat then get x j else 0).
  { intros j. cbv zeta. destruct (Nat.eqb_spec k (j + m)) as [->|N].
    - replace (Z.of_nat (j + m) - Z.of_nat j)%Z with (Z.of_nat m) by lia. destruct (Z.leb_spec lo (Z.of_nat m)); [|lia]. destruct (Z.leb_spec (Z.of_nat m) (lo + Z.of_nat order)); [|lia]. cbn [andb]. rewrite <- INR_IZR_INZ, Rminus_diag_eq by reflexivity.
      unfold kernel. rewrite (sinc_int 0). cbn [Z.eqb]. unfold Rdiv at 2. rewrite Rmult_0_l, Rsqr_0, Rminus_0_r, Rmult_1_r. field. auto.
    - destruct (_ && _)%bool; auto. rewrite (INR_IZR_INZ m), <- minus_IZR. unfold kernel. rewrite sinc_int. destruct (Z.eqb_spec (Z.of_nat k - Z.of_nat j - Z.of_nat m) 0); [lia|]. ring. }
  rewrite (sum_ext _ _ _ (fun j _ => T j)). destruct (Nat.ltb_spec k m).
  - apply (sum_zero' (HA := CRing_R)). intros j Hj. destruct (Nat.eqb_spec k (j + m)); [lia|reflexivity].
  - destruct (Nat.lt_ge_cases (k - m) (length x)).
    + rewrite (sum_single (HA := CRing_R) _ (k - m)); auto. destruct (Nat.eqb_spec k (k - m + m)); [reflexivity|lia]. intros j Hj N. destruct (Nat.eqb_spec k (j + m)); [lia|reflexivity].
    + rewrite get_out by lia. apply (sum_zero' (HA := CRing_R)). intros j Hj. destruct (Nat.eqb_spec k (j + m)); [lia|reflexivity].
Qed.
(** A whole number of samples delays exactly. *)
Theorem C71_whole_delay :
  forall b fs delay_s m chs keep order a td len, (0 < m)%nat -> 0 < fs -> delay_s * fs = INR m -> b (Rsqr (kaiser_beta a)) <> 0 -> (1 <= order)%nat -> td <> [] -> (0 < len)%nat -> Forall (fun col => length col = len) td -> (keep = true -> (m < len)%nat) ->
  let k := length td in let sel := match chs with None => map Z.of_nat (seq 0 k) | Some l => l end in
  sel <> [] -> NoDup sel -> (forall z, In z sel -> (- Z.of_nat k <= z < Z.of_nat k)%Z) ->
  exists out, fractional_td b fs delay_s chs keep order a td = Ok out /\ length out = k /\
    forall c, (c < k)%nat -> length (nth c out []) = (if keep then len else len + m + (order + 1) / 2)%nat /\
      forall i, (i < length (nth c out []))%nat -> (chosen k sel c -> get (nth c out []) i = if (i <? m)%nat then 0 else get (nth c td []) (i - m)) /\ (~ chosen k sel c -> get (nth c out []) i = get (nth c td []) i).
Proof.
  intros b fs delay_s m chs keep order a td len Hm Hf HD B O Hne Hl HF Hk k sel Hs HN HR. assert (M0 : 0 < INR m) by (apply lt_0_INR; auto). assert (Hd : 0 < delay_s) by (destruct (Rle_or_lt delay_s 0); auto; nra).
  destruct (C71_interpolation b fs delay_s chs keep order a td len) as (out & lo & E & Lo & C & Bd & V); auto. { intros K. rewrite HD. apply lt_INR; auto. } fold k sel in V, Lo. rewrite HD in C.
  assert (El : (lo + Z.of_nat order = Z.of_nat m + Z.of_nat ((order + 1) / 2))%Z).
  { unfold centred in C. destruct (Nat.Even_or_Odd order) as [[q ->]|[q Eq]].
    - replace ((2 * q + 1) / 2)%nat with q by (rewrite Nat.mul_comm, Nat.add_comm, Nat.div_add by lia; reflexivity). assert (Oq : Nat.odd (2 * q) = false) by (rewrite Nat.odd_mul; reflexivity). rewrite Oq, mult_INR in C. simpl (INR 2) in C. assert (- 1 < IZR (Z.of_nat m - lo - Z.of_nat q) < 1) by (rewrite !minus_IZR, <- !INR_IZR_INZ; lra).
      assert (-1 < Z.of_nat m - lo - Z.of_nat q < 1)%Z by (split; apply lt_IZR; lra). lia.
    - assert (Oq : Nat.odd order = true) by (apply Nat.odd_spec; now exists q). rewrite Oq in C. subst order. replace ((2 * q + 1 + 1) / 2)%nat with (q + 1)%nat by (replace (2 * q + 1 + 1)%nat with ((q + 1) * 2)%nat by lia; rewrite Nat.div_mul; lia).
      rewrite plus_INR, mult_INR in C. simpl (INR 2) in C. simpl (INR 1) in C. assert (- 1 < IZR (Z.of_nat m - lo - Z.of_nat q) < 1) by (rewrite !minus_IZR, <- !INR_IZR_INZ; lra).
      assert (-1 < Z.of_nat m - lo - Z.of_nat q < 1)%Z by (split; apply lt_IZR; lra). lia. }
  exists out. split; auto. split; auto. intros c Hc. destruct (V c Hc) as [L1 G1]. split. { rewrite L1. destruct keep; auto. lia. }
  intros i Hi. destruct (G1 i Hi) as [H1 H2]. split; auto. intros Ch. rewrite (H1 Ch), HD. now apply interpolated_whole.
Qed.
Print Assumptions C71_whole_delay.
(** Keeping the length it is the function delay. *)
Theorem C71_equals_delay :
  forall b fs delay_s m chs order a td len, (0 < m)%nat -> 0 < fs -> delay_s * fs = INR m -> b (Rsqr (kaiser_beta a)) <> 0 -> (1 <= order)%nat -> td <> [] -> Forall (fun col => length col = len) td -> (m < len)%nat ->
  let k := length td in let sel := match chs with None => map Z.of_nat (seq 0 k) | Some l => l end in
  sel <> [] -> NoDup sel -> (forall z, In z sel -> (- Z.of_nat k <= z < Z.of_nat k)%Z) -> fractional_td b fs delay_s chs true order a td = delay_td m chs true td.
Proof.
  intros b fs delay_s m chs order a td len Hm Hf HD B O Hne HF Hk k sel Hs HN HR. destruct (C71_whole_delay b fs delay_s m chs true order a td len) as (out & E & Lo & V); auto; try lia. fold k sel in V, Lo.
  destruct (Claims_signal.C25_delay_samples R CRing_R m chs true td len) as (out' & E' & L' & V'); auto. rewrite E, E'. f_equal. apply (list_eq_nth []). lia. intros c Hc. rewrite Lo in Hc. destruct (V c Hc) as [L1 G1]. destruct (V' c Hc) as [L2 G2]. apply (get_ext (HA := CRing_R)). lia.
  intros i Hi. rewrite L1 in Hi. destruct (G1 i ltac:(lia)) as [H1 H2]. rewrite G2 by lia. fold k sel. destruct (existsb _ sel) eqn:X.
  - apply H1. apply existsb_exists in X as (z & Hz & X). apply orb_true_iff in X. rewrite !Z.eqb_eq in X. destruct X as [->|X]; [now left|right]. replace (Z.of_nat c - Z.of_nat k)%Z with z by lia. auto.
  - apply H2. intros [H|H]. assert (existsb (fun z => ((z =? Z.of_nat c) || (z + Z.of_nat k =? Z.of_nat c))%Z) sel = true); [|congruence]. apply existsb_exists. exists (Z.of_nat c). split; auto. now rewrite Z.eqb_refl.
    assert (existsb (fun z => ((z =? Z.of_nat c) || (z + Z.of_nat k =? Z.of_nat c))%Z) sel = true); [|congruence]. apply existsb_exists. eexists. split; eauto. apply orb_true_iff. right. apply Z.eqb_eq. lia.
Qed.
Print Assumptions C71_equals_delay.
(** No delay returns the signal as it is; the refused arguments. *)
Theorem C71_limits :
  forall b fs delay_s chs keep order a td, 0 < fs ->
  (delay_s = 0 -> fractional_td b fs delay_s chs keep order a td = Ok td) /\ (delay_s < 0 -> fractional_td b fs delay_s chs keep order a td = Err AssertionError) /\
  (0 < delay_s -> keep = true -> INR (length (hd [] td)) <= delay_s * fs -> fractional_td b fs delay_s chs keep order a td = Err AssertionError) /\
  (0 < delay_s -> forall l, chs = Some l -> (exists z, In z l /\ (Z.of_nat (length td) <= z)%Z) \/ ~ NoDup l -> fractional_td b fs delay_s chs keep order a td = Err AssertionError).
Proof.
  intros b fs delay_s chs keep order a td Hf. unfold fractional_td. repeat split.
  - intros ->. destruct (Rlt_dec 0 0); [lra|]. destruct (Req_EM_T 0 0); [auto|lra].
  - intros H. destruct (Rlt_dec delay_s 0); [auto|lra].
  - intros H -> K. destruct (Rlt_dec delay_s 0); [lra|]. destruct (Req_EM_T delay_s 0); [lra|]. destruct (Rlt_dec _ _); [lra|]. reflexivity.
  - intros H l -> K. destruct (Rlt_dec delay_s 0); [lra|]. destruct (Req_EM_T delay_s 0); [lra|]. destruct (keep && _)%bool; auto. destruct (forallb _ l && znodup l)%bool eqn:E; auto. exfalso. apply andb_true_iff in E as [E1 E2]. rewrite forallb_forall in E1. destruct K as [(z & Hz & K)|K].
    apply E1, Z.ltb_lt in Hz. lia. apply K. now apply znodup_spec.
Qed.
Print Assumptions C71_limits.

(** ** Linearity and time invariance *)
Lemma interpolated_linear b beta order lo d x y u v k : length x = length y ->
  interpolated b beta order lo d (mk (length x) (fun j => u * get x j + v * get y j)) k = u * interpolated b beta order lo d x k + v * interpolated b beta order lo d y k.
Proof.
  intros L. unfold interpolated. rewrite mk_length, <- L. rewrite <- !rsum_mul_l. rewrite <- (sum_add (HA := CRing_R)). apply sum_ext. intros j Hj. cbv zeta. rewrite get_mk by auto. change (@radd R CRing_R) with Rplus. destruct (_ && _)%bool; ring.
Qed.
Lemma interpolated_shift b beta order lo d x s k : interpolated b beta order lo d (repeat 0 s ++ x) (k + s) = interpolated b beta order lo d x k.
Proof.
  unfold interpolated. rewrite app_length, repeat_length. rewrite (sum_split (HA := CRing_R)). rewrite (sum_zero' (HA := CRing_R) s). change (@radd R CRing_R) with Rplus. change (@r0 R CRing_R) with 0. rewrite Rplus_0_l.
  - apply sum_ext. intros j Hj. cbv zeta. rewrite get_app_r by (rewrite repeat_length; lia). rewrite repeat_length. replace (s + j - s)%nat with j by lia. replace (Z.of_nat (k + s) - Z.of_nat (s + j))%Z with (Z.of_nat k - Z.of_nat j)%Z by lia. reflexivity.
  - intros j Hj. cbv zeta. rewrite get_app_l by (rewrite repeat_length; lia). change (repeat 0 s) with (repeat (@r0 R CRing_R) s). rewrite (get_repeat0 (HA := CRing_R)). change (@r0 R CRing_R) with 0. destruct (_ && _)%bool; ring.
Qed.
Lemma one_channel b fs delay_s keep order a x : 0 < delay_s -> 0 < fs -> x <> [] -> (keep = true -> delay_s * fs < INR (length x)) ->
  exists y lo, fractional_td b fs delay_s None keep order a [x] = Ok [y] /\ centred order lo (delay_s * fs) /\ (0 <= lo + Z.of_nat order)%Z /\ length y = (if keep then length x else Z.to_nat (Z.of_nat (length x) + Z.of_nat order + lo)) /\
    forall i, (i < length y)%nat -> get y i = interpolated b (kaiser_beta a) order lo (delay_s * fs) x i.
Proof.
  intros Hd Hf Hx Hk. destruct (C71_interpolation b fs delay_s None keep order a [x] (length x)) as (out & lo & E & Lo & C & Bd & V); auto. discriminate. destruct x; [easy|simpl; lia]. discriminate. repeat constructor; auto. intros z [<-|[]]. simpl. lia.
  destruct out as [|y [|]]; try discriminate. destruct (V 0%nat) as [L G]; [simpl; lia|]. cbn [nth] in *. exists y, lo. repeat split; auto. intros i Hi. apply (G i Hi). left. now left.
Qed.
Lemma interpolated_after b beta order lo d x i : (Z.of_nat (length x) + Z.of_nat order + lo <= Z.of_nat i)%Z -> interpolated b beta order lo d x i = 0.
Proof. intros H. apply (sum_zero' (HA := CRing_R)). intros j Hj. cbv zeta. destruct (Z.leb_spec (Z.of_nat i - Z.of_nat j) (lo + Z.of_nat order)); [lia|]. now rewrite andb_false_r. Qed.
(** The delay of a weighted sum is the weighted sum of the delays, and a signal that starts later by s samples is delayed to the same output, later by s samples. *)
Theorem C71_linear :
  forall b fs delay_s keep order a x y u v, 0 < fs -> 0 <= delay_s -> x <> [] -> length x = length y -> (keep = true -> delay_s * fs < INR (length x)) ->
  exists dx dy dz, fractional_td b fs delay_s None keep order a [x] = Ok [dx] /\ fractional_td b fs delay_s None keep order a [y] = Ok [dy] /\
    fractional_td b fs delay_s None keep order a [mk (length x) (fun j => u * get x j + v * get y j)] = Ok [dz] /\ length dx = length dz /\ length dy = length dz /\
    forall i, get dz i = u * get dx i + v * get dy i.
Proof.
  intros b fs delay_s keep order a x y u v Hf Hd Hx L Hk. destruct (Req_EM_T delay_s 0) as [Z|Z].
  - exists x, y, (mk (length x) (fun j => u * get x j + v * get y j)). split; [|split; [|split]]; try (apply C71_limits; auto). rewrite mk_length. split; auto. split; auto. intros i. destruct (Nat.lt_ge_cases i (length x)). now rewrite get_mk. rewrite !get_out; rewrite ?mk_length; auto; try lia. change (@r0 R CRing_R) with 0. ring.
  - destruct (one_channel b fs delay_s keep order a x) as (dx & lx & E1 & C1 & _ & L1 & G1); auto. lra. destruct (one_channel b fs delay_s keep order a y) as (dy & ly & E2 & C2 & _ & L2 & G2); auto. lra. destruct y; [destruct x; [easy|discriminate]|discriminate]. now rewrite <- L.
    set (z := mk (length x) (fun j => u * get x j + v * get y j)). assert (Lz : length z = length x) by apply mk_length. destruct (one_channel b fs delay_s keep order a z) as (dz & lz & E3 & C3 & _ & L3 & G3); auto. lra. intros N. rewrite N in Lz. destruct x; [easy|discriminate]. now rewrite Lz.
    pose proof (centred_unique _ _ _ _ C1 C3) as U1. pose proof (centred_unique _ _ _ _ C2 C3) as U2. subst lx ly. rewrite Lz in L3. rewrite <- L in L2. exists dx, dy, dz. do 3 (split; auto). split; [congruence|]. split; [congruence|]. intros i. destruct (Nat.lt_ge_cases i (length dz)).
    + rewrite G1, G2, G3 by congruence. now apply interpolated_linear.
    + rewrite !get_out by (rewrite ?L1, ?L2, <- ?L3; auto). change (@r0 R CRing_R) with 0. ring.
Qed.
Print Assumptions C71_linear.
Theorem C71_time_invariant :
  forall b fs delay_s order a x s, 0 < fs -> 0 <= delay_s -> x <> [] ->
  exists y y', fractional_td b fs delay_s None false order a [x] = Ok [y] /\ fractional_td b fs delay_s None false order a [repeat 0 s ++ x] = Ok [y'] /\
    length y' = (s + length y)%nat /\ forall i, get y' (i + s) = get y i.
Proof.
  intros b fs delay_s order a x s Hf Hd Hx. destruct (Req_EM_T delay_s 0) as [Z|Z].
  - exists x, (repeat 0 s ++ x). split; [|split]; try (apply C71_limits; auto). rewrite app_length, repeat_length. split; auto. intros i. rewrite get_app_r by (rewrite repeat_length; lia). rewrite repeat_length. f_equal. lia.
  - destruct (one_channel b fs delay_s false order a x) as (y & lo & E1 & C1 & B1 & L1 & G1); auto. lra. discriminate. destruct (one_channel b fs delay_s false order a (repeat 0 s ++ x)) as (y' & lo' & E2 & C2 & B2 & L2 & G2); auto. lra. intros N. apply app_eq_nil in N. easy. discriminate.
    pose proof (centred_unique _ _ _ _ C1 C2). subst lo'. exists y, y'. split; auto. split; auto. rewrite app_length, repeat_length in L2. cbv iota in L1, L2. assert (LL : length y' = (s + length y)%nat) by lia. split; auto. intros i. destruct (Nat.lt_ge_cases i (length y)).
    + rewrite G1, G2 by lia. apply interpolated_shift.
    + rewrite !get_out by lia. reflexivity.
Qed.
Print Assumptions C71_time_invariant.

(** *** Cases *)
Example C71_case_half : centred 30 (-15) (1 / 2) /\ centred 31 (-15) (1 / 2) /\ centred 30 (-13) (10 / 4) /\ centred 30 (-12) (14 / 4).
Proof. unfold centred. change (Nat.odd 30) with false. change (Nat.odd 31) with true. cbv iota. simpl INR. repeat split; lra. Qed.
Example C71_case_delay : fractional_td (fun t => 1 + t / 4) 1 2 (Some [(-1)%Z]) true 3 60 [[1; 2; 3]; [4; 5; 6]] = delay_td (HA := CRing_R) 2 (Some [(-1)%Z]) true [[1; 2; 3]; [4; 5; 6]] /\
  delay_td (HA := CRing_R) 2 (Some [(-1)%Z]) true [[1; 2; 3]; [4; 5; 6]] = Ok [[1; 2; 3]; [0; 0; 4]].
Proof.
  split; [|reflexivity]. apply (C71_equals_delay _ 1 2 2 (Some [(-1)%Z]) 3 60 _ 3); try lia; try lra; try discriminate. simpl. lra. pose proof (Rle_0_sqr (kaiser_beta 60)). lra. repeat constructor. constructor; [easy|constructor]. intros z [<-|[]]. simpl. lia.
Qed.

(** The shape parameter of the window for the side lobe attenuation a in dB: Kaiser's formula. The sign of the attenuation does not matter; more
    attenuation never gives a smaller parameter on either side of 50 dB; the values at 21 dB (no window) and at the default of 60 dB. *)
Theorem C71_attenuation : forall a, kaiser_beta (- a) = kaiser_beta a /\ 0 <= kaiser_beta a /\ (Rabs a <= 21 -> kaiser_beta a = 0) /\
  (forall a', 0 <= a <= a' -> a' <= 50 \/ 50 < a -> kaiser_beta a <= kaiser_beta a' /\ (21 <= a < a' -> kaiser_beta a < kaiser_beta a')) /\
  kaiser_beta 60 = 565326 / 100000.
Proof.
  intros a. assert (N : forall a, 0 <= kaiser_beta a).
  { intros u. unfold kaiser_beta. destruct (Rlt_dec 50 (Rabs u)). lra. destruct (Rle_dec 21 (Rabs u)); [|lra]. destruct (Req_EM_T (Rabs u - 21) 0). lra.
    pose proof (exp_pos (4 / 10 * ln (Rabs u - 21))). unfold Rpower. lra. }
  split. { unfold kaiser_beta. now rewrite Rabs_Ropp. } split; [apply N|]. split.
  { intros H. unfold kaiser_beta. destruct (Rlt_dec 50 (Rabs a)); [lra|]. destruct (Rle_dec 21 (Rabs a)); [|reflexivity]. destruct (Req_EM_T (Rabs a - 21) 0); lra. }
  split. 2: { unfold kaiser_beta. rewrite Rabs_pos_eq by lra. destruct (Rlt_dec 50 60); lra. }
  intros a' H H'. assert (St : 21 <= a < a' -> kaiser_beta a < kaiser_beta a').
  { intros H2. unfold kaiser_beta. rewrite !Rabs_pos_eq by lra. destruct (Rlt_dec 50 a), (Rlt_dec 50 a'); try lra. destruct (Rle_dec 21 a), (Rle_dec 21 a'); try lra.
    destruct (Req_EM_T (a' - 21) 0); [lra|]. destruct (Req_EM_T (a - 21) 0). { pose proof (exp_pos (4 / 10 * ln (a' - 21))). unfold Rpower. lra. }
    assert (Rpower (a - 21) (4 / 10) < Rpower (a' - 21) (4 / 10)) by (apply Rlt_Rpower_l; lra). lra. }
  split; auto. destruct (Req_EM_T a a'). { subst. lra. } destruct (Rle_dec 21 a). { apply Rlt_le. apply St. lra. }
  replace (kaiser_beta a) with 0. apply N. unfold kaiser_beta. rewrite Rabs_pos_eq by lra. destruct (Rlt_dec 50 a); [lra|]. destruct (Rle_dec 21 a); [lra|reflexivity].
Qed.
Print Assumptions C71_attenuation.
Example C71_attenuation_case : kaiser_beta 20 = 0 /\ kaiser_beta 60 < kaiser_beta 80.
Proof.
  destruct (C71_attenuation 20) as (_ & _ & A & _). split. apply A. rewrite Rabs_pos_eq; lra.
  destruct (C71_attenuation 60) as (_ & _ & _ & B & _). destruct (B 80 ltac:(lra) ltac:(lra)) as (_ & D). apply D. lra.
Qed.
