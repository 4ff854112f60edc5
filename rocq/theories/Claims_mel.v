(** Property C78: mel filter bank, pitch and chroma bands, frequency weighting. *)
From Coq Require Import List Arith Lia ZArith Bool Reals Lra Psatz.
From Verif Require Import Alg Spec Dft M_arrays M_signal M_latency M_dynamics M_level M_distances Claims_level M_mel.
From Verif Require Claims_das Claims_minphase.
Import ListNotations.
Local Open Scope R_scope.

(** ** The mel scale *)
Lemma ln10_pos : 0 < ln 10.
Proof. rewrite <- ln_1. apply ln_increasing; lra. Qed.
Lemma mel_hz f : -700 < f -> mel2hz (hz2mel f) = f.
Proof.
  intros H. unfold mel2hz, hz2mel, log10. replace (2595 * (ln (1 + f / 700) / ln 10) / 2595) with (ln (1 + f / 700) / ln 10) by (pose proof ln10_pos; field; lra).
  unfold Rpower. replace (ln (1 + f / 700) / ln 10 * ln 10) with (ln (1 + f / 700)) by (pose proof ln10_pos; field; lra). rewrite exp_ln by lra. field.
Qed.
Lemma hz_mel m : hz2mel (mel2hz m) = m.
Proof.
  unfold mel2hz, hz2mel, log10. replace (1 + 700 * (Rpower 10 (m / 2595) - 1) / 700) with (Rpower 10 (m / 2595)) by field. unfold Rpower. rewrite ln_exp. pose proof ln10_pos. field. lra.
Qed.
Lemma mel_incr f g : -700 < f -> f < g -> hz2mel f < hz2mel g.
Proof.
  intros Hf H. unfold hz2mel, log10. pose proof ln10_pos. apply Rmult_lt_compat_l; [lra|]. apply Rmult_lt_compat_r; [now apply Rinv_0_lt_compat|]. apply ln_increasing; lra.
Qed.
Lemma quot_lt (a b d : R) : 0 < b -> (d * b < a -> d < a / b) /\ (a < d * b -> a / b < d).
Proof. intros H. split; intros L; apply (Rmult_lt_reg_r b); auto; replace (a / b * b) with a by (field; lra); lra. Qed.
Lemma pow_quot a b n : (0 < b)%Z -> (IZR a / IZR b) ^ n = IZR (a ^ Z.of_nat n) / IZR (b ^ Z.of_nat n).
Proof. intros H. rewrite <- !pow_IZR. unfold Rdiv. rewrite Rpow_mult_distr, pow_inv. reflexivity. Qed.
Lemma log_pow_lt a b n k : (0 < a)%Z -> (0 < b)%Z ->
  ((10 ^ Z.of_nat k * b ^ Z.of_nat n < a ^ Z.of_nat n)%Z -> INR k < INR n * log10 (IZR a / IZR b)) /\
  ((a ^ Z.of_nat n < 10 ^ Z.of_nat k * b ^ Z.of_nat n)%Z -> INR n * log10 (IZR a / IZR b) < INR k).
Proof.
  intros Ha Hb. pose proof ln10_pos as L. apply IZR_lt in Ha as Ha'. apply IZR_lt in Hb as Hb'. assert (Q : 0 < IZR a / IZR b) by (apply Rdiv_lt_0_compat; lra).
  assert (E : INR n * log10 (IZR a / IZR b) = ln ((IZR a / IZR b) ^ n) / ln 10) by (rewrite <- (Rpower_pow n) by lra; unfold Rpower, log10; rewrite ln_exp; field; lra).
  assert (D : INR k * ln 10 = ln (10 ^ k)) by (rewrite <- (Rpower_pow k) by lra; unfold Rpower; now rewrite ln_exp).
  assert (T : 10 ^ k = IZR (10 ^ Z.of_nat k)) by (now rewrite <- pow_IZR).
  assert (S7 : 0 < IZR (b ^ Z.of_nat n)) by (apply IZR_lt, Z.pow_pos_nonneg; lia).
  rewrite E. split; intros H; apply IZR_lt in H; rewrite mult_IZR, <- T in H.
  - apply quot_lt; auto. rewrite D. apply ln_increasing. apply pow_lt; lra. rewrite pow_quot by auto. now apply quot_lt.
  - apply quot_lt; auto. rewrite D. apply ln_increasing. now apply pow_lt. rewrite pow_quot by auto. now apply quot_lt.
Qed.
Lemma mel_one_k : 999 < hz2mel 1000 < 1000.
Proof.
  assert (E : hz2mel 1000 = INR 2595 * log10 (17 / 7)) by (unfold hz2mel; replace (1 + 1000 / 700) with (17 / 7) by field; rewrite INR_IZR_INZ; reflexivity).
  assert (A : INR 999 = 999) by (rewrite INR_IZR_INZ; reflexivity). assert (B : INR 1000 = 1000) by (rewrite INR_IZR_INZ; reflexivity).
  rewrite E. clear E. split.
  - rewrite <- A. apply (proj1 (log_pow_lt 17 7 2595 999 eq_refl eq_refl)). apply Z.ltb_lt. vm_compute. reflexivity.
  - rewrite <- B. apply (proj2 (log_pow_lt 17 7 2595 1000 eq_refl eq_refl)). apply Z.ltb_lt. vm_compute. reflexivity.
Qed.
(** The conversions are inverse to each other, increasing, fix 0 and map 1000 Hz to within one mel of 1000. *)
Theorem C78_mel_scale : (forall f, -700 < f -> mel2hz (hz2mel f) = f) /\ (forall m, hz2mel (mel2hz m) = m) /\
  (forall f g, -700 < f -> f < g -> hz2mel f < hz2mel g) /\ hz2mel 0 = 0 /\ 999 < hz2mel 1000 < 1000.
Proof.
  split; [exact mel_hz|]. split; [exact hz_mel|]. split; [exact mel_incr|]. split; [|exact mel_one_k].
  unfold hz2mel, log10. replace (1 + 0 / 700) with 1 by field. rewrite ln_1. unfold Rdiv. ring.
Qed.
Print Assumptions C78_mel_scale.

(** ** The filter bank *)
Definition increasing (f : list R) : Prop := forall i j, (i < j)%nat -> (j < length f)%nat -> get f i < get f j.
(** Spec: bin [b] is the first of those nearest to frequency [v]. *)
Definition nearest_bin (f : list R) (v : R) (b : nat) : Prop :=
  (b < length f)%nat /\ (forall j, (j < length f)%nat -> Rabs (v - get f b) <= Rabs (v - get f j)) /\ forall j, (j < b)%nat -> Rabs (v - get f b) < Rabs (v - get f j).
(** The q-th of n + 2 points which divide the range evenly on the mel scale *)
Definition mel_point (lo hi : R) (n q : nat) : R := hz2mel lo + (hz2mel hi - hz2mel lo) * INR q / INR (n + 1).
Definition range_ok (f : list R) (range : option (R * R)) (lo hi : R) : Prop :=
  match range with
  | None => lo = get f 0 /\ hi = get f (length f - 1)
  | Some (a, b) => lo = Rmin a b /\ hi = Rmax a b /\ 0 <= lo /\ hi <= get f (length f - 1)
  end.
Definition tri (i j k b : nat) : R :=
  if (j <=? b)%nat && (b <? k)%nat then 1 - INR (b - j) / INR (k - j) else if (i <=? b)%nat && (b <? j)%nat then INR (b - i) / INR (j - i) else 0.
Definition part (up : bool) (i j b : nat) : R :=
  if (i <=? b)%nat && (b <? j)%nat then (if up then INR (b - i) / INR (j - i) else 1 - INR (b - i) / INR (j - i)) else 0.
Lemma tri_parts i j k b : (i <= j <= k)%nat -> tri i j k b = part true i j b + part false j k b.
Proof.
  intros H. unfold tri, part. destruct (Nat.leb_spec j b), (Nat.ltb_spec b k), (Nat.leb_spec i b), (Nat.ltb_spec b j); cbn [andb]; try lia; ring.
Qed.
Lemma part_range up i j b : 0 <= part up i j b <= 1.
Proof.
  unfold part. destruct (Nat.leb_spec i b); cbn [andb]; [|lra]. destruct (Nat.ltb_spec b j); cbn [andb]; [|lra].
  assert (A : 0 <= INR (b - i)) by apply pos_INR. assert (B : INR (b - i) < INR (j - i)) by (apply lt_INR; lia).
  assert (Q : 0 <= INR (b - i) / INR (j - i) <= 1). { split. apply Rmult_le_pos; auto. left. apply Rinv_0_lt_compat. lra. apply (Rmult_le_reg_r (INR (j - i))); [lra|]. unfold Rdiv. rewrite Rmult_assoc, Rinv_l by lra. lra. }
  destruct up; lra.
Qed.
Lemma part_sum i j b : part true i j b + part false i j b = if (i <=? b)%nat && (b <? j)%nat then 1 else 0.
Proof. unfold part. destruct (_ && _); ring. Qed.
Lemma partition (g : nat -> nat) n b : (forall q, g q <= g (S q))%nat ->
  rsum (S n) (fun q => tri (g q) (g (S q)) (g (S (S q))) b) = part true (g 0%nat) (g 1%nat) b + (if (g 1%nat <=? b)%nat && (b <? g (S n))%nat then 1 else 0) + part false (g (S n)) (g (S (S n))) b.
Proof.
  intros H. assert (M : forall p q, (p <= q)%nat -> (g p <= g q)%nat) by (intros p q L; induction L; auto; specialize (H m); lia).
  induction n as [|n IH].
  - cbn [sum]. change (@radd R CRing_R) with Rplus. change (@r0 R CRing_R) with 0. rewrite tri_parts by (split; apply H). destruct (Nat.leb_spec (g 1%nat) b), (Nat.ltb_spec b (g 1%nat)); cbn [andb]; try lia; ring.
  - change (rsum (S (S n)) ?F) with (rsum (S n) F + F (S n)). rewrite IH, tri_parts by (split; apply H). pose proof (part_sum (g (S n)) (g (S (S n))) b) as P.
    pose proof (M 1%nat (S n) ltac:(lia)). pose proof (H (S n)).
    transitivity (part true (g 0%nat) (g 1%nat) b + (if (g 1%nat <=? b)%nat && (b <? g (S n))%nat then 1 else 0) + (part true (g (S n)) (g (S (S n))) b + part false (g (S n)) (g (S (S n))) b) + part false (g (S (S n))) (g (S (S (S n)))) b); [ring|].
    rewrite P. destruct (Nat.leb_spec (g 1%nat) b), (Nat.ltb_spec b (g (S n))), (Nat.leb_spec (g (S n)) b), (Nat.ltb_spec b (g (S (S n)))); cbn [andb]; try lia; ring.
Qed.
Lemma mel_range_ok f range lo hi : (2 <= length f)%nat -> range_ok f range lo hi -> mel_range f range = Ok (lo, hi).
Proof.
  intros H. destruct f as [|a [|b f]]; cbn [length] in H; try lia. unfold mel_range, range_ok. destruct range as [(u & v)|].
  - intros (-> & -> & A & B). destruct (Rle_dec _ _); [|lra]. destruct (Rle_dec _ _); [reflexivity|lra].
  - intros (-> & ->). reflexivity.
Qed.
Lemma mel_point_mono lo hi n p q : hz2mel lo <= hz2mel hi -> (p <= q)%nat -> mel_point lo hi n p <= mel_point lo hi n q.
Proof.
  intros H L. unfold mel_point. assert (N0 : 0 < INR (n + 1)) by (apply lt_0_INR; lia). apply le_INR in L. apply Rplus_le_compat_l. unfold Rdiv. apply Rmult_le_compat_r. left; now apply Rinv_0_lt_compat. apply Rmult_le_compat_l; lra.
Qed.
Lemma mel2hz_mono a b : a <= b -> mel2hz a <= mel2hz b.
Proof. intros H. unfold mel2hz. apply Rmult_le_compat_l; [lra|]. assert (Rpower 10 (a / 2595) <= Rpower 10 (b / 2595)) by (apply Rle_Rpower; lra). lra. Qed.
Lemma rows_ok (norm : bool) N (g : nat -> nat) n : (forall q, g q <= g (S q))%nat -> forall m s, (s + m = n)%nat ->
  fold_right (fun b r => bind (triangle N (nth b (map g (seq 0 (n + 2))) 0%nat) (nth (S b) (map g (seq 0 (n + 2))) 0%nat) (nth (S (S b)) (map g (seq 0 (n + 2))) 0%nat)) (fun row =>
                         bind r (fun rs => Ok ((if norm then area_norm row else map Some row) :: rs)))) (Ok []) (seq s m)
  = Ok (map (fun b => let row := mk N (tri (g b) (g (S b)) (g (S (S b)))) in if norm then area_norm row else map Some row) (seq s m)).
Proof.
  intros H. induction m as [|m IH]; intros s E; cbn [seq fold_right map]; auto. rewrite IH by lia.
  assert (G : forall q, (q < n + 2)%nat -> nth q (map g (seq 0 (n + 2))) 0%nat = g q). { intros q Hq. rewrite (nth_indep _ 0%nat (g 0%nat)) by (rewrite map_length, seq_length; auto). rewrite map_nth, seq_nth by auto. reflexivity. }
  rewrite !G by lia. unfold triangle. pose proof (H s). pose proof (H (S s)). destruct (Nat.leb_spec (g s) (g (S s))); [|lia]. destruct (Nat.leb_spec (g (S s)) (g (S (S s)))); [|lia]. cbn [andb bind]. reflexivity.
Qed.
Section Bank.
Variables (f : list R) (range : option (R * R)) (lo hi : R) (n : nat).
Hypothesis Hf : increasing f.
Hypothesis H2 : (2 <= length f)%nat.
Hypothesis H0 : 0 <= get f 0.
Hypothesis Hr : range_ok f range lo hi.
Lemma range_le : 0 <= lo /\ lo <= hi.
Proof.
  unfold range_ok in Hr. destruct range as [(a & b)|]. destruct Hr as (-> & -> & A & B). split; auto. apply Rle_trans with a; [apply Rmin_l|apply Rmax_l].
  destruct Hr as (-> & ->). split; auto. left. apply Hf; lia.
Qed.
Definition gbin (q : nat) : nat := nearest (mel2hz (mel_point lo hi n q)) f.
Lemma f_nil : f <> []. Proof. intros E. rewrite E in H2. cbn in H2. lia. Qed.
Lemma gbin_near q : nearest_bin f (mel2hz (mel_point lo hi n q)) (gbin q).
Proof. apply Claims_das.nearest_spec. apply f_nil. Qed.
Lemma gbin_mono q : (gbin q <= gbin (S q))%nat.
Proof.
  apply Claims_das.nearest_mono. apply f_nil. exact Hf. apply mel2hz_mono, mel_point_mono; [|lia]. destruct range_le as (A & [B|B]). left. apply mel_incr; lra. right. now rewrite B.
Qed.
Lemma bank_eq (norm : bool) : mel_filterbank f range n norm = Ok (map (fun b => let row := mk (length f) (tri (gbin b) (gbin (S b)) (gbin (S (S b)))) in if norm then area_norm row else map Some row) (seq 0 n),
  mk n (fun q => mel_point lo hi n (S q))).
Proof.
  unfold mel_filterbank. rewrite (mel_range_ok f range lo hi H2 Hr). cbn [bind fst snd].
  assert (B : mel_bins f lo hi n = map gbin (seq 0 (n + 2))).
  { unfold mel_bins, mel_points, linspace, mk. rewrite map_map. apply map_ext. intros q. unfold gbin, mel_point. replace (n + 2 - 1)%nat with (n + 1)%nat by lia. reflexivity. }
  rewrite B. unfold mel_rows. rewrite (rows_ok norm (length f) gbin n gbin_mono n 0 eq_refl). cbn [bind]. f_equal. f_equal.
  unfold mel_points, linspace, mk. replace (seq 0 (n + 2)) with (0%nat :: seq 1 (S n)) by (rewrite Nat.add_comm; reflexivity). cbn [map tl]. rewrite <- seq_shift, map_map, firstn_map.
  assert (S1 : firstn n (seq 0 (S n)) = seq 0 n). { replace (S n) with (n + 1)%nat by lia. rewrite seq_app, firstn_app, seq_length, Nat.sub_diag, firstn_all2 by (rewrite seq_length; lia). cbn [firstn]. apply app_nil_r. }
  rewrite S1. apply map_ext. intros q. unfold mel_point. replace (n + 2 - 1)%nat with (n + 1)%nat by lia. reflexivity.
Qed.
End Bank.
(** For ascending, non-negative bin frequencies and a range inside them: band b is a triangle with corners at bins g b, g (b+1), g (b+2), the bins nearest to
    points which lie evenly on the mel scale. The values lie in [0, 1], vanish outside the corners, reach 1 at the centre, and the bands add up to exactly 1 at
    every bin between the first and the last centre. The centres returned are the inner points, in mel. *)
Theorem C78_filterbank f range lo hi n : increasing f -> (2 <= length f)%nat -> 0 <= get f 0 -> range_ok f range lo hi ->
  exists (g : nat -> nat) rows centres, mel_filterbank f range n false = Ok (map (map Some) rows, centres) /\ length rows = n /\ length centres = n /\
  (forall q, nearest_bin f (mel2hz (mel_point lo hi n q)) (g q)) /\ (forall q, (g q <= g (S q))%nat) /\
  (forall q, (q < n)%nat -> get centres q = mel_point lo hi n (S q)) /\
  (forall b, (b < n)%nat -> let row := nth b rows [] in length row = length f /\
     forall k, (k < length f)%nat -> 0 <= get row k <= 1 /\ ((k < g b)%nat \/ (g (S (S b)) <= k)%nat -> get row k = 0) /\
       (k = g (S b) -> (k < g (S (S b)))%nat -> get row k = 1) /\
       ((g b <= k < g (S b))%nat -> get row k * INR (g (S b) - g b) = INR (k - g b)) /\
       ((g (S b) <= k < g (S (S b)))%nat -> get row k * INR (g (S (S b)) - g (S b)) = INR (g (S (S b)) - k))) /\
  (forall k, (g 1%nat <= k < g n)%nat -> rsum n (fun b => get (nth b rows []) k) = 1).
Proof.
  intros Hf H2 H0 Hr. set (g := gbin f lo hi n). pose proof (gbin_mono f range lo hi n Hf H2 H0 Hr) as M. fold g in M.
  set (rows := map (fun b => mk (length f) (tri (g b) (g (S b)) (g (S (S b))))) (seq 0 n)). exists g, rows, (mk n (fun q => mel_point lo hi n (S q))).
  assert (Lr : length rows = n) by (unfold rows; now rewrite map_length, seq_length).
  assert (Nr : forall b, (b < n)%nat -> nth b rows [] = mk (length f) (tri (g b) (g (S b)) (g (S (S b))))). { intros b Hb. unfold rows. rewrite (nth_indep _ [] ((fun b => mk (length f) (tri (g b) (g (S b)) (g (S (S b))))) 0%nat)) by (now rewrite map_length, seq_length). rewrite (map_nth (fun b => mk (length f) (tri (g b) (g (S b)) (g (S (S b)))))), seq_nth by auto. reflexivity. }
  split. { rewrite (bank_eq f range lo hi n Hf H2 H0 Hr). unfold rows. rewrite map_map. reflexivity. }
  split; [exact Lr|]. split; [apply mk_length|]. split; [intros q; now apply gbin_near|]. split; [exact M|]. split; [intros q Hq; now rewrite (get_mk (HA := CRing_R))|]. split.
  - intros b Hb. cbn zeta. rewrite Nr by auto. split; [apply mk_length|]. intros k Hk. rewrite (get_mk (HA := CRing_R)) by auto. pose proof (M b) as M1. pose proof (M (S b)) as M2.
    rewrite tri_parts by lia.
    assert (Q : forall i j, (i < j)%nat -> 0 < INR (j - i)) by (intros; apply lt_0_INR; lia).
    split.
    { pose proof (part_range true (g b) (g (S b)) k) as P1. pose proof (part_range false (g (S b)) (g (S (S b))) k) as P2.
      destruct (Nat.lt_ge_cases k (g (S b))).
      - assert (E : part false (g (S b)) (g (S (S b))) k = 0) by (unfold part; destruct (Nat.leb_spec (g (S b)) k); [lia|reflexivity]). rewrite E. lra.
      - assert (E : part true (g b) (g (S b)) k = 0) by (unfold part; destruct (Nat.ltb_spec k (g (S b))); [lia|now rewrite andb_false_r]). rewrite E. lra. }
    unfold part. split; [|split; [|split]].
    + intros [H|H]; destruct (Nat.leb_spec (g b) k), (Nat.ltb_spec k (g (S b))), (Nat.leb_spec (g (S b)) k), (Nat.ltb_spec k (g (S (S b)))); cbn [andb]; try lia; ring.
    + intros -> H. destruct (Nat.leb_spec (g b) (g (S b))), (Nat.ltb_spec (g (S b)) (g (S b))), (Nat.leb_spec (g (S b)) (g (S b))), (Nat.ltb_spec (g (S b)) (g (S (S b)))); cbn [andb]; try lia. rewrite Nat.sub_diag. cbn [INR]. unfold Rdiv. ring.
    + intros H. destruct (Nat.leb_spec (g b) k), (Nat.ltb_spec k (g (S b))), (Nat.leb_spec (g (S b)) k), (Nat.ltb_spec k (g (S (S b)))); cbn [andb]; try lia; specialize (Q (g b) (g (S b)) ltac:(lia)); field; lra.
    + intros H. destruct (Nat.leb_spec (g b) k), (Nat.ltb_spec k (g (S b))), (Nat.leb_spec (g (S b)) k), (Nat.ltb_spec k (g (S (S b)))); cbn [andb]; try lia; specialize (Q (g (S b)) (g (S (S b))) ltac:(lia));
      replace (INR (g (S (S b)) - k)) with (INR (g (S (S b)) - g (S b)) - INR (k - g (S b))) by (rewrite <- minus_INR by lia; f_equal; lia); field; lra.
  - intros k (K1 & K2). destruct n as [|m]; [pose proof (M 0%nat); lia|].
    assert (Kf : (k < length f)%nat). { pose proof (gbin_near f lo hi (S m) H2 (S m)) as (A & _). fold g in A. lia. }
    rewrite (sum_ext (HA := CRing_R) (S m) _ (fun b => tri (g b) (g (S b)) (g (S (S b))) k)) by (intros b Hb; rewrite Nr by auto; apply (get_mk (HA := CRing_R)); auto).
    rewrite partition by auto. unfold part. destruct (Nat.leb_spec (g 1%nat) k); [|lia]. destruct (Nat.ltb_spec k (g (S m))); [|lia]. cbn [andb].
    destruct (Nat.ltb_spec k (g 1%nat)); [lia|]. rewrite andb_false_r. destruct (Nat.leb_spec (g (S m)) k); [lia|]. cbn [andb]. ring.
Qed.
Print Assumptions C78_filterbank.
Lemma rsum_nonneg n F : (forall i, (i < n)%nat -> 0 <= F i) -> 0 <= rsum n F /\ forall i, (i < n)%nat -> F i <= rsum n F.
Proof.
  induction n as [|n IH]; intros H; cbn [sum]; change (@r0 R CRing_R) with 0; change (@radd R CRing_R) with Rplus. split; [lra|intros; lia].
  destruct IH as (A & B). intros; apply H; lia. pose proof (H n ltac:(lia)). split; [lra|]. intros i Hi. destruct (Nat.eq_dec i n) as [->|]; [lra|]. specialize (B i ltac:(lia)). lra.
Qed.
Lemma map_repeat {A B} (h : A -> B) l v : (forall x, In x l -> h x = v) -> map h l = repeat v (length l).
Proof. induction l as [|x l IH]; intros H; cbn; auto. rewrite H by (now left). f_equal. apply IH. intros; apply H; now right. Qed.
(** normalize = True: every band sums to 1 and stays proportional to its triangle, except the bands whose triangle is empty: those whose centre and upper corner fall on
    the same bin, with the lower corner there or one bin below. They are all nan. *)
Theorem C78_normalized f range lo hi n : increasing f -> (2 <= length f)%nat -> 0 <= get f 0 -> range_ok f range lo hi ->
  exists (g : nat -> nat) rows nrows centres, (forall q, nearest_bin f (mel2hz (mel_point lo hi n q)) (g q)) /\
  mel_filterbank f range n false = Ok (map (map Some) rows, centres) /\ mel_filterbank f range n true = Ok (nrows, centres) /\ length nrows = n /\
  forall b, (b < n)%nat ->
    ((g (S b) = g (S (S b)) /\ g (S b) <= S (g b))%nat -> nth b nrows [] = repeat None (length f)) /\
    (~ (g (S b) = g (S (S b)) /\ g (S b) <= S (g b))%nat -> exists r c, 0 < c /\ nth b nrows [] = map Some r /\ length r = length f /\
       rsum (length f) (get r) = 1 /\ forall k, (k < length f)%nat -> get r k * c = get (nth b rows []) k).
Proof.
  intros Hf H2 H0 Hr. set (g := gbin f lo hi n). pose proof (gbin_mono f range lo hi n Hf H2 H0 Hr) as M. fold g in M.
  exists g, (map (fun b => mk (length f) (tri (g b) (g (S b)) (g (S (S b))))) (seq 0 n)), (map (fun b => area_norm (mk (length f) (tri (g b) (g (S b)) (g (S (S b)))))) (seq 0 n)), (mk n (fun q => mel_point lo hi n (S q))).
  split. { intros q; now apply gbin_near. } split. { rewrite (bank_eq f range lo hi n Hf H2 H0 Hr false). rewrite map_map. reflexivity. } split. { now rewrite (bank_eq f range lo hi n Hf H2 H0 Hr true). }
  split. { now rewrite map_length, seq_length. }
  intros b Hb. set (T := fun b => mk (length f) (tri (g b) (g (S b)) (g (S (S b))))).
  assert (N1 : nth b (map (fun b => area_norm (T b)) (seq 0 n)) [] = area_norm (T b)). { rewrite (nth_indep _ [] (area_norm (T 0%nat))) by (now rewrite map_length, seq_length). rewrite (map_nth (fun b => area_norm (T b))), seq_nth by auto. reflexivity. }
  assert (N2 : nth b (map T (seq 0 n)) [] = T b). { rewrite (nth_indep _ [] (T 0%nat)) by (now rewrite map_length, seq_length). rewrite map_nth, seq_nth by auto. reflexivity. }
  change (nth b (map (fun b0 : nat => area_norm (mk (length f) (tri (g b0) (g (S b0)) (g (S (S b0)))))) (seq 0 n)) []) with (nth b (map (fun b => area_norm (T b)) (seq 0 n)) []).
  change (map (fun b0 : nat => mk (length f) (tri (g b0) (g (S b0)) (g (S (S b0))))) (seq 0 n)) with (map T (seq 0 n)). rewrite N1, N2.
  assert (LT : length (T b) = length f) by apply mk_length. pose proof (M b) as M1. pose proof (M (S b)) as M2.
  assert (GT : forall k, (k < length f)%nat -> get (T b) k = part true (g b) (g (S b)) k + part false (g (S b)) (g (S (S b))) k) by (intros k Hk; unfold T; rewrite (get_mk (HA := CRing_R)), tri_parts by (auto; lia); reflexivity).
  assert (P0 : forall k, (k < length f)%nat -> 0 <= get (T b) k). { intros k Hk. rewrite GT by auto. pose proof (part_range true (g b) (g (S b)) k). pose proof (part_range false (g (S b)) (g (S (S b))) k). lra. }
  unfold area_norm. rewrite LT. set (s := rsum (length f) (fun k => get (T b) k)). destruct (rsum_nonneg (length f) (fun k => get (T b) k) P0) as (S0 & S1). fold s in S0, S1.
  split.
  - intros (E1 & E2). assert (Z : s = 0).
    { unfold s. apply (sum_zero' (HA := CRing_R)). intros k Hk. rewrite GT by auto. change (@r0 R CRing_R) with 0. unfold part. rewrite <- E1.
      destruct (Nat.leb_spec (g (S b)) k), (Nat.ltb_spec k (g (S b))), (Nat.leb_spec (g b) k); cbn [andb]; try lia; try ring. replace (k - g b)%nat with 0%nat by lia. cbn [INR]. unfold Rdiv. ring. }
    rewrite <- LT. apply map_repeat. intros v _. destruct (Req_EM_T s 0); [reflexivity|contradiction].
  - intros H. assert (Sp : 0 < s).
    { destruct (Nat.eq_dec (g (S b)) (g (S (S b)))) as [E|E].
      - assert (Hk : (S (g b) < length f)%nat). { pose proof (gbin_near f lo hi n H2 (S b)) as (A & _). fold g in A. lia. }
        apply Rlt_le_trans with (2 := S1 (S (g b)) Hk). rewrite GT by auto. pose proof (part_range false (g (S b)) (g (S (S b))) (S (g b))) as P.
        assert (Q : 0 < part true (g b) (g (S b)) (S (g b))). { unfold part. destruct (Nat.leb_spec (g b) (S (g b))); [|lia]. destruct (Nat.ltb_spec (S (g b)) (g (S b))); [|lia]. cbn [andb]. apply Rdiv_lt_0_compat; apply lt_0_INR; lia. } lra.
      - assert (Hk : (g (S b) < length f)%nat). { pose proof (gbin_near f lo hi n H2 (S b)) as (A & _). exact A. }
        apply Rlt_le_trans with (2 := S1 (g (S b)) Hk). rewrite GT by auto. pose proof (part_range true (g b) (g (S b)) (g (S b))) as P.
        assert (Q : part false (g (S b)) (g (S (S b))) (g (S b)) = 1). { unfold part. rewrite Nat.leb_refl. destruct (Nat.ltb_spec (g (S b)) (g (S (S b)))); [|lia]. cbn [andb]. rewrite Nat.sub_diag. cbn [INR]. unfold Rdiv. ring. } lra. }
    exists (map (fun v => v / s) (T b)), s. split; auto. split. { rewrite map_map. apply map_ext. intros v. destruct (Req_EM_T s 0); [lra|reflexivity]. }
    split. { now rewrite map_length. }
    assert (Gm : forall k, (k < length f)%nat -> get (map (fun v => v / s) (T b)) k = get (T b) k / s). { intros k Hk. unfold get. rewrite (nth_indep _ r0 ((fun v => v / s) r0)) by (rewrite map_length; lia). now rewrite (map_nth (fun v => v / s)). }
    split.
    + rewrite (sum_ext (HA := CRing_R) (length f) _ (fun k => / s * get (T b) k)) by (intros k Hk; rewrite Gm by auto; unfold Rdiv; ring). transitivity (/ s * rsum (length f) (fun k => get (T b) k)); [apply (sum_scal_l (HA := CRing_R))|]. fold s. field. lra.
    + intros k Hk. rewrite Gm by auto. field. lra.
Qed.
Print Assumptions C78_normalized.
(** Doc: "the bands are area normalized". With too many bands for the bins a band is nan: two bands over the frequencies 0 and 100. *)
Lemma near2 a b v : (v < (a + b) / 2 -> a < b -> nearest v [a; b] = 0%nat) /\ ((a + b) / 2 < v -> a < b -> nearest v [a; b] = 1%nat).
Proof.
  pose proof (Claims_das.nearest_spec v [a; b] ltac:(discriminate)) as (A & B & D). cbn [length] in *. set (q := nearest v [a; b]) in *. destruct q as [|[|q]]; try lia; split; intros H H'; auto; exfalso.
  - specialize (B 1%nat ltac:(lia)). unfold get in B. cbn in B. revert B. unfold Rabs. repeat destruct (Rcase_abs _); lra.
  - specialize (D 0%nat ltac:(lia)). unfold get in D. cbn in D. revert D. unfold Rabs. repeat destruct (Rcase_abs _); lra.
Qed.
Lemma mel_third : mel2hz (mel_point 0 100 2 1) < 50 < mel2hz (mel_point 0 100 2 2).
Proof.
  assert (Z : hz2mel 0 = 0) by apply C78_mel_scale. assert (I : forall v, 0 < v -> 0 < log10 (1 + v / 700)). { intros v Hv. unfold log10. pose proof ln10_pos. apply Rdiv_lt_0_compat; auto. rewrite <- ln_1. apply ln_increasing; lra. }
  assert (Lg : forall a b, 0 < a -> 0 < b -> log10 (a * b) = log10 a + log10 b) by (intros a b Ha Hb; unfold log10; rewrite ln_mult by auto; field; pose proof ln10_pos; lra).
  assert (Mn : forall a b, 0 < a -> a < b -> log10 a < log10 b). { intros a b Ha Hb. unfold log10. pose proof ln10_pos. apply Rmult_lt_compat_r; [now apply Rinv_0_lt_compat|]. now apply ln_increasing. }
  assert (E : hz2mel 100 = 2595 * log10 (8 / 7)) by (unfold hz2mel; f_equal; f_equal; field).
  assert (F : hz2mel 50 = 2595 * log10 (15 / 14)) by (unfold hz2mel; f_equal; f_equal; field).
  assert (C1 : log10 (8 / 7) < 3 * log10 (15 / 14)). { replace (3 * log10 (15 / 14)) with (log10 (15 / 14 * (15 / 14 * (15 / 14)))) by (rewrite !Lg by lra; ring). apply Mn; lra. }
  assert (C2 : 3 * log10 (15 / 14) < 2 * log10 (8 / 7)). { replace (3 * log10 (15 / 14)) with (log10 (15 / 14 * (15 / 14 * (15 / 14)))) by (rewrite !Lg by lra; ring). replace (2 * log10 (8 / 7)) with (log10 (8 / 7 * (8 / 7))) by (rewrite Lg by lra; ring). apply Mn; lra. }
  assert (H50 : mel2hz (hz2mel 50) = 50) by (apply mel_hz; lra).
  assert (St : forall a b, a < b -> mel2hz a < mel2hz b). { intros a b H. unfold mel2hz. assert (Rpower 10 (a / 2595) < Rpower 10 (b / 2595)) by (apply Rpower_lt; lra). lra. }
  rewrite <- H50 at 1 2. unfold mel_point. rewrite Z, E, F. cbn [Nat.add INR]. split; apply St; lra.
Qed.
Theorem C78_normalized_refuted : exists rows c, mel_filterbank [0; 100] None 2 true = Ok (rows, c) /\ nth 0 rows [] = [Some 1; Some 0] /\ nth 1 rows [] = [None; None].
Proof.
  assert (Hf : increasing [0; 100]). { intros i j Hij Hj. cbn in Hj. destruct i as [|i], j as [|[|j]]; try lia. unfold get. cbn. lra. }
  assert (H0 : 0 <= get [0; 100] 0) by (unfold get; cbn; lra). assert (Hr : range_ok [0; 100] None 0 100) by (split; reflexivity).
  pose proof (bank_eq [0; 100] None 0 100 2 Hf ltac:(cbn; lia) H0 Hr true) as E. pose proof mel_third as (M1 & M2).
  assert (Z : hz2mel 0 = 0) by apply C78_mel_scale.
  assert (G0 : gbin [0; 100] 0 100 2 0 = 0%nat). { unfold gbin. apply near2; [|lra]. unfold mel_point. rewrite Z. cbn [INR]. replace (0 + (hz2mel 100 - 0) * 0 / INR (2 + 1)) with 0 by (unfold Rdiv; ring). rewrite <- Z, mel_hz by lra. lra. }
  assert (G1 : gbin [0; 100] 0 100 2 1 = 0%nat) by (unfold gbin; apply near2; lra). assert (G2 : gbin [0; 100] 0 100 2 2 = 1%nat) by (unfold gbin; apply near2; lra).
  assert (G3 : gbin [0; 100] 0 100 2 3 = 1%nat). { unfold gbin. apply near2; [|lra]. unfold mel_point. rewrite Z. cbn [Nat.add INR]. replace (0 + (hz2mel 100 - 0) * (1 + 1 + 1) / (1 + 1 + 1)) with (hz2mel 100) by field. rewrite mel_hz by lra. lra. }
  eexists _, _. split; [exact E|]. cbn [seq map nth]. rewrite G0, G1, G2, G3. split; unfold area_norm, tri; cbn; unfold get; cbn.
  - replace (0 + (1 - 0 / 1) + 0) with 1 by field. destruct (Req_EM_T 1 0); [lra|]. repeat f_equal; field.
  - replace (0 + 0 / 1 + 0) with 0 by field. destruct (Req_EM_T 0 0); [reflexivity|lra].
Qed.
Print Assumptions C78_normalized_refuted.
(** Errors: an upper limit above the last bin frequency or a negative limit; too few frequencies. *)
Theorem C78_range_errors f a b n norm : 
  ((2 <= length f)%nat -> get f (length f - 1) < Rmax a b \/ Rmin a b < 0 -> mel_filterbank f (Some (a, b)) n norm = Err AssertionError) /\
  (forall r, length f = 1%nat -> mel_filterbank f r n norm = Err AssertionError) /\ (forall r, f = [] -> mel_filterbank f r n norm = Err IndexError).
Proof.
  split; [|split].
  - intros L H. destruct f as [|u [|v f]]; cbn [length] in L; try lia. unfold mel_filterbank, mel_range. destruct (Rle_dec (Rmax a b) _); [destruct (Rle_dec 0 (Rmin a b)); [lra|reflexivity]|reflexivity].
  - intros r L. destruct f as [|u [|v f]]; cbn [length] in L; try lia. reflexivity.
  - intros r ->. reflexivity.
Qed.
Print Assumptions C78_range_errors.

(** ** Mel spectrogram *)
Lemma row_dot_some r p : length p = length r -> row_dot (map Some r) p = Some (rsum (length r) (fun k => get r k * get p k)).
Proof.
  revert p. induction r as [|v r IH]; intros [|w p] L; cbn [length] in L; try lia. reflexivity. cbn [map row_dot combine fold_right fst snd]. unfold row_dot in IH. rewrite IH by lia.
  cbn [length]. rewrite (sum_S_front (HA := CRing_R)). reflexivity.
Qed.
Lemma row_dot_none n p : (1 <= n)%nat -> length p = n -> row_dot (repeat None n) p = None.
Proof. intros H L. destruct n; [lia|]. destruct p as [|v p]; [cbn in L; lia|]. reflexivity. Qed.
Lemma mean_bounds n (w v : nat -> R) lo hi : (forall i, (i < n)%nat -> 0 <= w i) -> rsum n w = 1 -> (forall i, (i < n)%nat -> lo <= v i <= hi) -> lo <= rsum n (fun i => w i * v i) <= hi.
Proof.
  intros Hw Hs Hv. rewrite <- (Rmult_1_r lo), <- (Rmult_1_r hi), <- Hs. clear Hs. induction n as [|n IH]; cbn [sum]; change (@r0 R CRing_R) with 0; change (@radd R CRing_R) with Rplus; [lra|].
  destruct IH as (A & B). { intros; apply Hw; lia. } { intros; apply Hv; lia. } pose proof (Hw n ltac:(lia)). pose proof (Hv n ltac:(lia)). split; nra.
Qed.
(** Every non-empty band of the (always normalised) log mel spectrogram lies between the smallest and the largest level of the frame; in particular a flat spectrum gives its own
    level in every such band. The empty bands are nan whatever the signal. *)
Theorem C78_log_mel f range lo hi n p m pmin pmax : increasing f -> (2 <= length f)%nat -> 0 <= get f 0 -> range_ok f range lo hi -> length p = length f ->
  0 < m <= pmin -> (forall k, (k < length f)%nat -> pmin <= get p k <= pmax) ->
  exists (g : nat -> nat) rows centres, (forall q, nearest_bin f (mel2hz (mel_point lo hi n q)) (g q)) /\ mel_filterbank f range n true = Ok (rows, centres) /\
  length (log_mel_frame m rows p) = n /\ forall b, (b < n)%nat ->
    ((g (S b) = g (S (S b)) /\ g (S b) <= S (g b))%nat -> nth b (log_mel_frame m rows p) None = None) /\
    (~ (g (S b) = g (S (S b)) /\ g (S b) <= S (g b))%nat -> exists L, nth b (log_mel_frame m rows p) None = Some L /\ 10 * log10 pmin <= L <= 10 * log10 pmax).
Proof.
  intros Hf H2 H0 Hr Lp Hm Hp. destruct (C78_normalized f range lo hi n Hf H2 H0 Hr) as (g & rows & nrows & centres & G & E0 & E & L & Rb).
  exists g, nrows, centres. split; [exact G|]. split; [exact E|]. split; [unfold log_mel_frame; now rewrite map_length|]. intros b Hb.
  assert (N : nth b (log_mel_frame m nrows p) None = match row_dot (nth b nrows []) p with Some v => to_db1 false (Rmax (Rabs v) m) | None => None end).
  { unfold log_mel_frame. set (h := fun row => match row_dot row p with Some v => to_db1 false (Rmax (Rabs v) m) | None => None end). rewrite (nth_indep _ None (h [])) by (rewrite map_length; lia). now rewrite (map_nth h). }
  rewrite N. destruct (Rb b Hb) as (R1 & R2). split.
  - intros H. rewrite (R1 H), row_dot_none by (auto; lia). reflexivity.
  - intros H. destruct (R2 H) as (r & c & Hc & -> & Lr & Sr & Pr). rewrite row_dot_some by lia.
    assert (P0 : forall k, (k < length f)%nat -> 0 <= get r k).
    { intros k Hk. specialize (Pr k Hk). destruct (C78_filterbank f range lo hi n Hf H2 H0 Hr) as (g' & rows' & c' & E' & _ & _ & _ & _ & _ & T & _). rewrite E0 in E'. injection E' as E' _.
      assert (Q : rows = rows'). { clear -E'. revert rows' E'. induction rows as [|x rows IH]; intros [|y rows'] E'; try discriminate; auto. cbn in E'. injection E' as E1 E2. f_equal; auto. clear -E1. revert y E1. induction x as [|u x IH]; intros [|v y] E1; try discriminate; auto. injection E1 as -> E2. f_equal. auto. }
      subst rows'. destruct (T b Hb) as (_ & T'). destruct (T' k Hk) as (T0 & _). rewrite <- Pr in T0. nra. }
    rewrite Lr. set (v := rsum (length f) (fun k => get r k * get p k)). assert (V : pmin <= v <= pmax) by (apply mean_bounds; auto).
    rewrite Rabs_pos_eq, Rmax_left by lra. rewrite to_db1_pos by lra. eexists. split; [reflexivity|]. unfold level. cbn [db_factor].
    assert (Mn : forall a b, 0 < a -> a <= b -> log10 a <= log10 b). { intros a d Ha Hd. unfold log10. pose proof ln10_pos. apply Rmult_le_compat_r; [left; now apply Rinv_0_lt_compat|]. destruct Hd as [Hd|<-]; [left; now apply ln_increasing|lra]. }
    pose proof (Mn pmin v ltac:(lra) ltac:(lra)). pose proof (Mn v pmax ltac:(lra) ltac:(lra)). unfold log10 in *. lra.
Qed.
Print Assumptions C78_log_mel.

(** ** Pitches and chroma *)
(** Spec: the (real-valued) pitch number of a frequency, 69 for the tuning frequency and 12 per octave. *)
Definition pitch_number (a f : R) : R := 69 + 12 * (ln (f / a) / ln 2).
Lemma ln2_pos : 0 < ln 2. Proof. rewrite <- ln_1. apply ln_increasing; lra. Qed.
Lemma pitch_edge a f q s : 0 < a -> 0 < f -> let e := a * Rpower 2 ((q - 69) / 12) * Rpower 2 s in (e <= f <-> q + 12 * s <= pitch_number a f) /\ (f < e <-> pitch_number a f < q + 12 * s).
Proof.
  intros Ha Hf e. pose proof ln2_pos as L. assert (E : e = a * exp (((q - 69) / 12 + s) * ln 2)) by (unfold e, Rpower; rewrite Rmult_assoc, <- exp_plus; f_equal; f_equal; ring).
  assert (F : f = a * exp (ln (f / a))) by (rewrite exp_ln by (now apply Rdiv_lt_0_compat); field; lra).
  assert (P : ln (f / a) = ((pitch_number a f - 69) / 12) * ln 2) by (unfold pitch_number; field; lra).
  assert (M : f < e <-> pitch_number a f < q + 12 * s).
  { split; intros H.
    - rewrite E, F in H. apply Rmult_lt_reg_l in H; auto. apply exp_lt_inv in H. rewrite P in H. apply Rmult_lt_reg_r in H; auto. lra.
    - rewrite E, F. apply Rmult_lt_compat_l; auto. apply exp_increasing. rewrite P. apply Rmult_lt_compat_r; auto. lra. }
  split; [|exact M]. split; intros H. apply Rnot_lt_le. intros H'. apply M in H'. lra. apply Rnot_lt_le. intros H'. apply M in H'. lra.
Qed.
Lemma in_pitch_iff a f p : 0 < a -> (in_pitch a f p = true <-> 0 < f /\ INR p - 1 / 2 <= pitch_number a f < INR p + 1 / 2).
Proof.
  intros Ha. unfold in_pitch. assert (E0 : 0 < pitch_frequency a p * Rpower 2 (-1 / 24)) by (unfold pitch_frequency, Rpower; repeat apply Rmult_lt_0_compat; auto; apply exp_pos).
  destruct (Rle_dec _ f) as [H|H].
  - assert (Hf : 0 < f) by lra. destruct (pitch_edge a f (INR p) (-1 / 24) Ha Hf) as (A & _). destruct (pitch_edge a f (INR p) (1 / 24) Ha Hf) as (_ & B). apply A in H. destruct (Rlt_dec f _) as [H'|H'].
    + apply B in H'. split; auto. intros _. split; auto. lra.
    + split; [discriminate|]. intros (_ & _ & Hn). exfalso. apply H'. apply B. lra.
  - split; [discriminate|]. intros (Hf & Hn & _). exfalso. apply H. apply (pitch_edge a f (INR p) (-1 / 24) Ha Hf). lra.
Qed.
Lemma pitch_exists X n : - (1 / 2) <= X < INR n - 1 / 2 -> exists p, (p < n)%nat /\ INR p - 1 / 2 <= X < INR p + 1 / 2.
Proof.
  induction n as [|n IH]; intros H. cbn in H. lra. rewrite S_INR in H. destruct (Rlt_dec X (INR n - 1 / 2)) as [L|L].
  - destruct IH as (p & A & B); [lra|]. exists p. split; [lia|auto].
  - exists n. split; [lia|lra].
Qed.
Lemma pitch_unique X p q : INR p - 1 / 2 <= X < INR p + 1 / 2 -> INR q - 1 / 2 <= X < INR q + 1 / 2 -> p = q.
Proof. intros A B. destruct (lt_eq_lt_dec p q) as [[H|H]|H]; auto; apply le_INR in H; rewrite S_INR in H; lra. Qed.
(** Every frequency from a quarter tone below pitch 0 up to a quarter tone above pitch 127 belongs to exactly one pitch, the one nearest to it in semitones (ties upwards);
    other frequencies belong to none. A frequency twice as high belongs to the pitch 12 higher, so to the same chroma. *)
Theorem C78_pitch_bands a f : 0 < a ->
  (forall p, in_pitch a f p = true <-> 0 < f /\ INR p - 1 / 2 <= pitch_number a f < INR p + 1 / 2) /\
  (0 < f -> - (1 / 2) <= pitch_number a f < 127 + 1 / 2 -> exists! p, (p < 128)%nat /\ in_pitch a f p = true) /\
  (forall p q, in_pitch a f p = true -> in_pitch a f q = true -> p = q) /\
  (forall p, in_pitch a (2 * f) (p + 12) = in_pitch a f p) /\ in_pitch a a 69 = true /\ pitch_frequency a 69 = a /\
  forall p, pitch_frequency a (p + 12) = 2 * pitch_frequency a p.
Proof.
  intros Ha. pose proof ln2_pos as L2. split; [intros; now apply in_pitch_iff|]. split; [|split; [|split; [|split; [|split]]]].
  - intros Hf H. destruct (pitch_exists (pitch_number a f) 128) as (p & A & B). { replace (INR 128) with 128 by (rewrite INR_IZR_INZ; reflexivity). lra. }
    exists p. split. split; auto. apply in_pitch_iff; auto. intros q (_ & Q). apply in_pitch_iff in Q; auto. eapply pitch_unique; [exact B|]. tauto.
  - intros p q P Q. apply in_pitch_iff in P, Q; auto. eapply pitch_unique; [apply P|apply Q].
  - intros p. apply eq_true_iff_eq. rewrite !in_pitch_iff by auto. rewrite plus_INR. replace (INR 12) with 12 by (rewrite INR_IZR_INZ; reflexivity).
    destruct (Rlt_dec 0 f) as [Hf|Hf]; [|split; intros (H & _); lra]. assert (E : pitch_number a (2 * f) = pitch_number a f + 12).
    { unfold pitch_number. replace (2 * f / a) with (2 * (f / a)) by (field; lra). rewrite ln_mult by (try lra; now apply Rdiv_lt_0_compat). field. lra. }
    rewrite E. split; intros (A & B); split; lra.
  - apply in_pitch_iff; auto. split; auto. unfold pitch_number. replace (a / a) with 1 by (field; lra). rewrite ln_1. replace (INR 69) with 69 by (rewrite INR_IZR_INZ; reflexivity). unfold Rdiv. rewrite Rmult_0_l. lra.
  - unfold pitch_frequency. replace (INR 69) with 69 by (rewrite INR_IZR_INZ; reflexivity). replace ((69 - 69) / 12) with 0 by field. rewrite Rpower_O by lra. ring.
  - intros p. unfold pitch_frequency. rewrite plus_INR. replace (INR 12) with 12 by (rewrite INR_IZR_INZ; reflexivity). replace ((INR p + 12 - 69) / 12) with ((INR p - 69) / 12 + 1) by field. rewrite Rpower_plus, Rpower_1 by lra. ring.
Qed.
Print Assumptions C78_pitch_bands.
(** Spec: the frequencies which belong to some pitch *)
Definition audible (a f : R) : bool := if Rlt_dec 0 f then if Rle_dec (- (1 / 2)) (pitch_number a f) then if Rlt_dec (pitch_number a f) (127 + 1 / 2) then true else false else false else false.
Lemma pitch_count a f : 0 < a -> rsum 128 (fun q => if in_pitch a f q then 1 else 0) = if audible a f then 1 else 0.
Proof.
  intros Ha. destruct (audible a f) eqn:E.
  - unfold audible in E. destruct (Rlt_dec 0 f) as [Hf|]; [|discriminate]. destruct (Rle_dec _ _) as [H1|]; [|discriminate]. destruct (Rlt_dec _ _) as [H2|]; [|discriminate].
    destruct (C78_pitch_bands a f Ha) as (_ & X & U & _). destruct (X Hf (conj H1 H2)) as (p & (P1 & P2) & _). rewrite (sum_single (HA := CRing_R) 128 p); auto. now rewrite P2.
    intros q Hq Hne. destruct (in_pitch a f q) eqn:Q; auto. exfalso. apply Hne. now apply U.
  - apply (sum_zero' (HA := CRing_R)). intros q Hq. destruct (in_pitch a f q) eqn:Q; auto. exfalso. apply in_pitch_iff in Q as (A & B & D); auto.
    unfold audible in E. destruct (Rlt_dec 0 f); [|lra]. assert (Q0 : 0 <= INR q) by apply pos_INR. assert (Q1 : INR q <= 127) by (replace 127 with (INR 127) by (rewrite INR_IZR_INZ; reflexivity); apply le_INR; lia).
    destruct (Rle_dec _ _); [|lra]. destruct (Rlt_dec _ _); [discriminate|lra].
Qed.
(** chroma_stft: features are ln (1 + c E) with the pitch energies E, resp. with the sums of the energies of the pitches c, c + 12, c + 24, ... No energy is lost or counted
    twice: the chroma energies add up to those of the pitches and these to the energy of the frame in the audible bins. *)
Theorem C78_chroma a c f p : length p = length f -> (forall k, 0 <= get p k) ->
  (a <= 0 \/ c <= 0 -> chroma_frame a c f p = Err AssertionError) /\
  (0 < a -> 0 < c -> exists ch pi, chroma_frame a c f p = Ok (ch, pi) /\ length ch = 12%nat /\ length pi = 128%nat /\
     (forall q, (q < 128)%nat -> 0 <= get pi q /\ exp (get pi q) = 1 + c * rsum (length f) (fun k => if in_pitch a (get f k) q then get p k else 0)) /\
     (forall i, (i < 12)%nat -> 0 <= get ch i /\ exp (get ch i) - 1 = rsum 128 (fun q => if (q mod 12 =? i)%nat then exp (get pi q) - 1 else 0)) /\
     rsum 12 (fun i => exp (get ch i) - 1) = rsum 128 (fun q => exp (get pi q) - 1) /\
     rsum 128 (fun q => exp (get pi q) - 1) = c * rsum (length f) (fun k => if audible a (get f k) then get p k else 0)).
Proof.
  intros Lp Pp. split.
  { intros H. unfold chroma_frame. destruct (Rlt_dec 0 a); auto. destruct (Rlt_dec 0 c); auto. lra. }
  intros Ha Hc. unfold chroma_frame. destruct (Rlt_dec 0 a) as [_|]; [|lra]. destruct (Rlt_dec 0 c) as [_|]; [|lra]. eexists _, _. split; [reflexivity|]. split; [apply mk_length|]. split; [apply mk_length|].
  assert (Ep : forall q, pitch_energy a f p q = rsum (length f) (fun k => if in_pitch a (get f k) q then get p k else 0)).
  { intros q. unfold pitch_energy. apply (sum_ext (HA := CRing_R)). intros k Hk. change (@rmul R CRing_R) with Rmult. destruct (in_pitch a (get f k) q); ring. }
  assert (Pq : forall q, 0 <= pitch_energy a f p q). { intros q. rewrite Ep. apply rsum_nonneg. intros k Hk. destruct (in_pitch a (get f k) q); [apply Pp|lra]. }
  assert (Pc : forall i, 0 <= chroma_energy a f p i). { intros i. unfold chroma_energy. apply rsum_nonneg. intros q Hq. specialize (Pq q). destruct (q mod 12 =? i)%nat; change (@rmul R CRing_R) with Rmult; lra. }
  assert (Cx : forall v, 0 <= v -> 0 <= compress c v /\ exp (compress c v) = 1 + c * v).
  { intros v Hv. unfold compress. assert (0 <= c * v) by (apply Rmult_le_pos; lra). split; [|apply exp_ln; lra]. rewrite <- ln_1. destruct (Req_dec (c * v) 0) as [->|]; [rewrite Rplus_0_r; lra|left; apply ln_increasing; lra]. }
  assert (Gp : forall q, (q < 128)%nat -> exp (get (mk 128 (fun q => compress c (pitch_energy a f p q))) q) = 1 + c * pitch_energy a f p q) by (intros q Hq; rewrite (get_mk (HA := CRing_R)) by auto; apply Cx; auto).
  assert (Gc : forall q, (q < 12)%nat -> exp (get (mk 12 (fun q => compress c (chroma_energy a f p q))) q) = 1 + c * chroma_energy a f p q) by (intros q Hq; rewrite (get_mk (HA := CRing_R)) by auto; apply Cx; auto).
  assert (T : rsum 128 (fun q => exp (get (mk 128 (fun q => compress c (pitch_energy a f p q))) q) - 1) = rsum 128 (fun q => c * pitch_energy a f p q)).
  { apply (sum_ext (HA := CRing_R)). intros q Hq. rewrite Gp by auto. ring. }
  split; [|split; [|split]].
  - intros q Hq. rewrite Gp by auto. rewrite Ep. split; auto. rewrite (get_mk (HA := CRing_R)) by auto. apply Cx. auto.
  - intros i Hi. rewrite Gc by auto. split. rewrite (get_mk (HA := CRing_R)) by auto. apply Cx. auto.
    transitivity (c * chroma_energy a f p i); [ring|]. unfold chroma_energy. change (c * ?x) with (rmul (CRing := CRing_R) c x). rewrite <- (sum_scal_l (HA := CRing_R)). apply (sum_ext (HA := CRing_R)). intros q Hq. rewrite Gp by auto. change (@rmul R CRing_R) with Rmult. destruct (q mod 12 =? i)%nat; ring.
  - rewrite T. rewrite (sum_ext (HA := CRing_R) 12 _ (fun i => rsum 128 (fun q => (if (q mod 12 =? i)%nat then 1 else 0) * (c * pitch_energy a f p q)))).
    2:{ intros i Hi. rewrite Gc by auto. transitivity (c * chroma_energy a f p i); [ring|]. unfold chroma_energy. change (c * ?x) with (rmul (CRing := CRing_R) c x). rewrite <- (sum_scal_l (HA := CRing_R)). apply (sum_ext (HA := CRing_R)). intros q Hq. change (@rmul R CRing_R) with Rmult. ring. }
    rewrite (sum_exchange (HA := CRing_R)). apply (sum_ext (HA := CRing_R)). intros q Hq. assert (Hm : (q mod 12 < 12)%nat) by (apply Nat.mod_upper_bound; lia).
    rewrite (sum_single (HA := CRing_R) 12 (q mod 12)); auto. rewrite Nat.eqb_refl. ring. intros i Hi Hne. destruct (Nat.eqb_spec (q mod 12) i); [congruence|]. change (@r0 R CRing_R) with 0. ring.
  - rewrite T. change (rsum 128 (fun q => c * pitch_energy a f p q)) with (rsum 128 (fun q => rmul (CRing := CRing_R) c (pitch_energy a f p q))). rewrite (sum_scal_l (HA := CRing_R)). change (@rmul R CRing_R) with Rmult. f_equal.
    unfold pitch_energy. rewrite (sum_exchange (HA := CRing_R)). apply (sum_ext (HA := CRing_R)). intros k Hk.
    transitivity (rsum 128 (fun q => if in_pitch a (get f k) q then 1 else 0) * get p k). { apply (sum_scal_r (HA := CRing_R)). } rewrite pitch_count by auto. destruct (audible a (get f k)); ring.
Qed.
Print Assumptions C78_chroma.

(** ** Frequency weighting *)
Lemma raw_pos w f : f <> 0 -> 0 < raw_weight w f.
Proof.
  intros H. assert (F2 : 0 < f ^ 2) by (replace (f ^ 2) with (Rsqr f) by (unfold Rsqr; ring); now apply Rsqr_pos_lt). assert (F4 : 0 < f ^ 4) by (replace (f ^ 4) with (f ^ 2 * f ^ 2) by ring; now apply Rmult_lt_0_compat). assert (S1 : 0 < sqrt ((f ^ 2 + (1077 / 10) ^ 2) * (f ^ 2 + (7379 / 10) ^ 2))) by (apply sqrt_lt_R0; apply Rmult_lt_0_compat; lra).
  destruct w; unfold raw_weight; apply Rdiv_lt_0_compat; repeat first [lra | apply Rmult_lt_0_compat].
Qed.
Lemma raw_zero w : raw_weight w 0 = 0.
Proof. destruct w; unfold raw_weight, Rdiv; ring. Qed.
(** Linear weights: finite unless the bin nearest to 1 kHz is at 0 Hz; then 1 (0 dB) at the bin nearest to 1 kHz, positive except at 0 Hz, and the ratio of two weights depends on the two
    frequencies only. *)
Theorem C78_weighting w f : (2 <= length f)%nat ->
  exists r, nearest_bin f 1000 r /\
  (get f r = 0 -> frequency_weighting w f = Ok None) /\
  (get f r <> 0 -> exists y, frequency_weighting w f = Ok (Some y) /\ length y = length f /\ get y r = 1 /\
     (forall i, (i < length f)%nat -> 0 <= get y i /\ (get y i = 0 <-> get f i = 0)) /\
     forall i j, (i < length f)%nat -> (j < length f)%nat -> get y i * raw_weight w (get f j) = get y j * raw_weight w (get f i)).
Proof.
  intros H. assert (N : f <> []) by (intros ->; cbn in H; lia). exists (nearest 1000 f). split; [now apply Claims_das.nearest_spec|]. set (r := nearest 1000 f).
  assert (Hr : (r < length f)%nat) by (now apply Claims_das.nearest_spec).
  assert (E : frequency_weighting w f = Ok (if Req_EM_T (raw_weight w (get f r)) 0 then None else Some (map (fun v => raw_weight w v / raw_weight w (get f r)) f))) by (destruct f as [|u [|v f]]; cbn in H; try lia; reflexivity).
  rewrite E. split.
  - intros ->. rewrite raw_zero. destruct (Req_EM_T 0 0); [reflexivity|lra].
  - intros Hn. pose proof (raw_pos w _ Hn) as P. destruct (Req_EM_T _ 0); [lra|]. eexists. split; [reflexivity|]. split; [apply map_length|]. set (ref := raw_weight w (get f r)) in *.
    assert (G : forall i, (i < length f)%nat -> get (map (fun v => raw_weight w v / ref) f) i = raw_weight w (get f i) / ref). { intros i Hi. unfold get. rewrite (nth_indep _ r0 ((fun v => raw_weight w v / ref) r0)) by (rewrite map_length; lia). now rewrite (map_nth (fun v => raw_weight w v / ref)). }
    split; [rewrite G by auto; fold ref; field; lra|]. split.
    + intros i Hi. rewrite G by auto. destruct (Req_dec (get f i) 0) as [Z|Z].
      * rewrite Z, raw_zero. unfold Rdiv. rewrite Rmult_0_l. split; [lra|tauto].
      * pose proof (raw_pos w _ Z). assert (0 < raw_weight w (get f i) / ref) by (apply Rdiv_lt_0_compat; lra). split; [lra|]. split; intros; [lra|tauto].
    + intros i j Hi Hj. rewrite !G by auto. field. lra.
Qed.
Print Assumptions C78_weighting.
(** In dB: 0 dB at the bin nearest to 1 kHz; the levels are those of the linear weights clipped at the smallest value [m] (so never -inf at 0 Hz). *)
Theorem C78_weighting_db m w f y : 0 < m <= 1 -> frequency_weighting w f = Ok (Some y) -> exists z, frequency_weighting_db m w f = Ok (Some (map Some z)) /\ length z = length y /\
  forall i, (i < length y)%nat -> (get y i = 1 -> get z i = 0) /\ (m <= get y i -> get z i = 20 * log10 (get y i)) /\ 20 * log10 m <= get z i.
Proof.
  intros Hm E. unfold frequency_weighting_db. rewrite E. cbn [bind option_map]. exists (map (fun v => level true (Rmax (Rabs v) m)) y). split; [|split].
  - f_equal. f_equal. rewrite map_map. apply map_ext. intros v. apply to_db1_pos. apply Rlt_le_trans with m; [lra|apply Rmax_r].
  - apply map_length.
  - intros i Hi. assert (G : get (map (fun v => level true (Rmax (Rabs v) m)) y) i = level true (Rmax (Rabs (get y i)) m)). { unfold get. rewrite (nth_indep _ r0 ((fun v => level true (Rmax (Rabs v) m)) r0)) by (rewrite map_length; lia). now rewrite (map_nth (fun v => level true (Rmax (Rabs v) m))). }
    rewrite G. pose proof ln10_pos as L. unfold level. cbn [db_factor]. split; [|split].
    + intros ->. rewrite Rabs_R1, Rmax_left by lra. rewrite ln_1. unfold Rdiv. ring.
    + intros H. rewrite Rabs_pos_eq, Rmax_left by lra. reflexivity.
    + unfold log10. apply Rmult_le_compat_l; [lra|]. apply Rmult_le_compat_r; [left; now apply Rinv_0_lt_compat|]. pose proof (Rmax_r (Rabs (get y i)) m) as [H|H]; [left; apply ln_increasing; lra|rewrite H at 1; lra].
Qed.
Print Assumptions C78_weighting_db.
(** The C curve is symmetric about the geometric mean of its two corner frequencies; the A curve never exceeds the C curve (before the reference at 1 kHz). *)
Theorem C78_weighting_shape f g : 0 < f -> 0 < g -> (f * g = 206 / 10 * 12194 -> raw_weight WC f = raw_weight WC g) /\ raw_weight WA f < raw_weight WC f < 1.
Proof.
  intros Hf Hg. unfold raw_weight. set (x := f ^ 2). set (y := g ^ 2). assert (X : 0 < x) by (unfold x; now apply pow_lt). assert (Y : 0 < y) by (unfold y; now apply pow_lt).
  replace (f ^ 4) with (x * x) by (unfold x; ring). set (a := (206 / 10) ^ 2). set (b := 12194 ^ 2). assert (A : 0 < a) by (unfold a; apply pow_lt; lra). assert (B : 0 < b) by (unfold b; apply pow_lt; lra).
  set (c := (1077 / 10) ^ 2). set (d := (7379 / 10) ^ 2). assert (C : 0 < c) by (unfold c; apply pow_lt; lra). assert (D : 0 < d) by (unfold d; apply pow_lt; lra).
  assert (E : f * g = 206 / 10 * 12194 -> x * y = a * b). { intros E. unfold x, y, a, b. rewrite <- !Rpow_mult_distr, E. reflexivity. }
  clearbody x y a b c d. split; [|split].
  - intros H. apply E in H. assert (G : y = a * b / x) by (rewrite <- H; field; lra). rewrite G. field. repeat split; try lra; nra.
  - set (s := sqrt ((x + c) * (x + d))). assert (Sx : x < s). { unfold s. rewrite <- (sqrt_square x) at 1 by lra. apply sqrt_lt_1; nra. }
    replace (b * x / ((x + a) * (x + b))) with (b * (x * s) / ((x + a) * s * (x + b))) by (field; repeat split; lra).
    unfold Rdiv. apply Rmult_lt_compat_r. apply Rinv_0_lt_compat. repeat apply Rmult_lt_0_compat; lra. apply Rmult_lt_compat_l; nra.
  - apply (Rmult_lt_reg_r ((x + a) * (x + b))). apply Rmult_lt_0_compat; lra. unfold Rdiv. rewrite Rmult_assoc, Rinv_l by nra. nra.
Qed.
Print Assumptions C78_weighting_shape.
Example C78_example : increasing [0; 100; 1000] /\ range_ok [0; 100; 1000] (Some (500, 20)) 20 500 /\ nearest_bin [0; 100; 1000] 1000 2 /\ in_pitch 440 440 69 = true /\ chroma_energy 440 [440] [3] 9 = 3.
Proof.
  assert (A : in_pitch 440 440 69 = true) by (apply (C78_pitch_bands 440 440); lra).
  split; [|split; [|split; [|split; [exact A|]]]].
  - intros i j Hij Hj. cbn in Hj. destruct i as [|[|i]], j as [|[|[|j]]]; try lia; unfold get; cbn; lra.
  - unfold range_ok. rewrite Rmin_right, Rmax_left by lra. repeat split; try lra. unfold get. cbn. lra.
  - split; [cbn; lia|]. assert (Z : Rabs (1000 - get [0; 100; 1000] 2) = 0) by (unfold get; cbn; rewrite Rminus_diag_eq by reflexivity; apply Rabs_R0). rewrite Z. split; intros j Hj. apply Rabs_pos.
    destruct j as [|[|j]]; try lia; unfold get; cbn; rewrite Rabs_pos_eq; lra.
  - unfold chroma_energy. rewrite (sum_single (HA := CRing_R) 128 69); [|lia|].
    + unfold pitch_energy. cbn [length sum]. change (get [440] 0) with 440. rewrite A. cbn. unfold get. cbn. ring.
    + intros q Hq Hne. unfold pitch_energy. cbn [length sum]. change (get [440] 0) with 440. destruct (in_pitch 440 440 q) eqn:E.
      * exfalso. apply Hne. apply (proj1 (proj2 (proj2 (C78_pitch_bands 440 440 ltac:(lra))))); auto.
      * cbn. ring.
Qed.
