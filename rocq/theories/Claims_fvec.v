(** C91: frequency vectors — logarithmic vectors, fractional octave bands and ERB grids. *)
From Coq Require Import List Arith ZArith Lia Bool Reals Lra.
From Verif Require Import Alg Spec M_delay M_fvec P_arrays Claims_fdw.
Import ListNotations.
Local Open Scope R_scope.

Lemma Int_part_bounds : forall x, IZR (Int_part x) <= x < IZR (Int_part x) + 1.
Proof. intro x. destruct (base_Int_part x). lra. Qed.
Lemma Int_part_unique : forall x z, IZR z <= x < IZR z + 1 -> Int_part x = z.
Proof.
  intros x z H. pose proof (Int_part_bounds x).
  assert (IZR (Int_part x) < IZR (z + 1)) by (rewrite plus_IZR; lra).
  assert (IZR z < IZR (Int_part x + 1)) by (rewrite plus_IZR; lra).
  apply lt_IZR in H1. apply lt_IZR in H2. lia.
Qed.
Lemma ceil_bounds : forall x, IZR (ceil x) - 1 < x <= IZR (ceil x).
Proof. intro x. unfold ceil. pose proof (Int_part_bounds (- x)). rewrite opp_IZR. lra. Qed.
Lemma ceil_IZR : forall z, ceil (IZR z) = z.
Proof. intro z. unfold ceil. rewrite <- opp_IZR, (Int_part_unique _ (- z)) by lra. lia. Qed.

Lemma ln2p : 0 < ln 2. Proof. rewrite <- ln_1. apply ln_increasing; lra. Qed.
Lemma ln10p' : 0 < ln 10. Proof. rewrite <- ln_1. apply ln_increasing; lra. Qed.

Lemma arange_length : forall a b s i, 0 < s -> ((i < length (arange a b s))%nat <-> INR i * s < b - a).
Proof.
  intros a b s i Hs. unfold arange. rewrite map_length, seq_length. pose proof (ceil_bounds ((b - a) / s)) as Hc.
  assert (Hx : (b - a) / s * s = b - a) by (field; lra). set (x := (b - a) / s) in *.
  rewrite <- Hx. split; intro H.
  - apply Rmult_lt_compat_r; [exact Hs|]. assert (Z.of_nat i < ceil x)%Z by lia. apply IZR_lt in H0 as H1.
    assert (IZR (Z.of_nat i) <= IZR (ceil x) - 1) by (rewrite <- minus_IZR; apply IZR_le; lia). rewrite INR_IZR_INZ. lra.
  - apply Rmult_lt_reg_r in H; [|exact Hs]. rewrite INR_IZR_INZ in H. assert (IZR (Z.of_nat i) < IZR (ceil x)) by lra.
    apply lt_IZR in H0. lia.
Qed.
Lemma nth_arange : forall a b s i d, (i < length (arange a b s))%nat -> nth i (arange a b s) d = a + INR i * s.
Proof.
  intros a b s i d H. unfold arange in *. rewrite map_length, seq_length in H. rewrite (nth_map' _ _ _ 0%nat d) by (rewrite seq_length; exact H).
  rewrite seq_nth by exact H. reflexivity.
Qed.

(** ** logarithmic vectors *)

(** spec: the i-th of n steps per octave above f *)
Definition step (f : R) (n : Z) (i : nat) : R := f * Rpower 2 (INR i / IZR n).

Lemma Rpower_pos : forall a b, 0 < Rpower a b. Proof. intros. apply exp_pos. Qed.

Lemma rp_lt : forall a x y, 1 < a -> (Rpower a x < Rpower a y <-> x < y).
Proof.
  intros a x y Ha. split; intro H; [|apply Rpower_lt; lra].
  destruct (Rlt_dec x y) as [|Hn]; [assumption|]. exfalso. destruct (Req_dec x y) as [->|Hne]; [lra|].
  assert (Rpower a y < Rpower a x) by (apply Rpower_lt; lra). lra.
Qed.
Lemma rp_le : forall a x y, 1 < a -> (Rpower a x <= Rpower a y <-> x <= y).
Proof. intros a x y Ha. split; intro H; destruct (Rle_dec x y); try lra.
  - assert (Rpower a y < Rpower a x) by (apply rp_lt; lra). lra.
  - destruct H; [apply Rlt_le; apply rp_lt; lra|subst; lra].
Qed.

Lemma rp_log2 : forall x, 0 < x -> Rpower 2 (log2 x) = x.
Proof. intros x Hx. unfold Rpower, log2. replace (ln x / ln 2 * ln 2) with (ln x) by (field; pose proof ln2p; lra). apply exp_ln, Hx. Qed.

(** The vector holds the lower limit and n steps per octave above it, exactly those below the upper limit: nothing outside the range and no
    step missing. *)
Theorem C91_log_vector : forall f0 f1 n, 0 < f0 -> 0 < f1 -> (0 < n)%Z ->
  exists v, log_frequency_vector f0 f1 n = Ok v /\
    (forall i, (i < length v)%nat -> nth i v 0 = step f0 n i) /\
    (forall i, (i < length v)%nat <-> step f0 n i < f1) /\
    (forall i, (i < length v)%nat -> f0 <= nth i v 0 < f1) /\
    (forall i, (S i < length v)%nat -> nth i v 0 < nth (S i) v 0) /\
    (forall i, (i + Z.to_nat n < length v)%nat -> nth (i + Z.to_nat n) v 0 = 2 * nth i v 0) /\
    (v = [] <-> f1 <= f0).
Proof.
  intros f0 f1 n H0 H1 Hn. unfold log_frequency_vector. destruct (Rlt_dec 0 f0) as [_|Hb]; [|contradiction].
  destruct (Z.eqb_spec n 0) as [->|_]; [lia|]. set (v := map _ _). exists v. split; [reflexivity|].
  assert (HnR : 0 < IZR n) by (apply IZR_lt; lia).
  assert (Hs : 0 < 1 / IZR n) by (apply Rdiv_lt_0_compat; lra).
  assert (Hlen : forall i, (i < length v)%nat <-> step f0 n i < f1).
  { intro i. unfold v. rewrite map_length, arange_length by exact Hs. unfold step. rewrite Rminus_0_r.
    replace (INR i * (1 / IZR n)) with (INR i / IZR n) by (field; lra).
    rewrite <- (rp_lt 2) by lra. rewrite rp_log2 by (apply Rdiv_lt_0_compat; lra).
    split; intro H.
    - apply Rmult_lt_reg_r with (/ f0); [apply Rinv_0_lt_compat, H0|]. unfold Rdiv in H at 2.
      replace (f0 * Rpower 2 (INR i / IZR n) * / f0) with (Rpower 2 (INR i / IZR n)) by (field; lra). exact H.
    - apply Rmult_lt_reg_l with f0; [exact H0|]. replace (f0 * (f1 / f0)) with f1 by (field; lra). exact H. }
  assert (Hnth : forall i, (i < length v)%nat -> nth i v 0 = step f0 n i).
  { intros i Hi. unfold v in *. rewrite map_length in Hi. rewrite (nth_map' _ _ _ 0 0) by exact Hi. rewrite nth_arange by exact Hi.
    unfold step. do 2 f_equal. field. lra. }
  assert (Hge : forall i, f0 <= step f0 n i).
  { intro i. unfold step. rewrite <- (Rmult_1_r f0) at 1. apply Rmult_le_compat_l; [lra|].
    rewrite <- (Rpower_O 2) at 1 by lra. apply rp_le; [lra|]. apply Rmult_le_pos; [apply pos_INR|apply Rlt_le, Rinv_0_lt_compat, HnR]. }
  split; [exact Hnth|]. split; [exact Hlen|]. split; [|split; [|split]].
  - intros i Hi. rewrite Hnth by exact Hi. split; [apply Hge|apply Hlen, Hi].
  - intros i Hi. rewrite !Hnth by lia. unfold step. apply Rmult_lt_compat_l; [exact H0|]. apply rp_lt; [lra|].
    apply Rmult_lt_compat_r; [apply Rinv_0_lt_compat, HnR|]. apply lt_INR. lia.
  - intros i Hi. rewrite !Hnth by lia. unfold step. rewrite plus_INR, (INR_IZR_INZ (Z.to_nat n)), Z2Nat.id by lia.
    replace ((INR i + IZR n) / IZR n) with (1 + INR i / IZR n) by (field; lra). rewrite Rpower_plus, Rpower_1 by lra. ring.
  - assert (E0 : step f0 n 0 = f0) by (unfold step; cbn [INR]; replace (0 / IZR n) with 0 by (field; lra); rewrite Rpower_O; lra).
    split; intro H.
    + destruct (Rle_dec f1 f0) as [|Hnl]; [assumption|]. assert (Hl : (0 < length v)%nat) by (apply Hlen; rewrite E0; lra). rewrite H in Hl.
      cbn in Hl. lia.
    + destruct v as [|a v']; [reflexivity|]. exfalso. assert (Hl : (0 < length (a :: v'))%nat) by (cbn; lia). apply Hlen in Hl. lra.
Qed.
Print Assumptions C91_log_vector.

Example C91_log_vector_ex : 0 < 20 /\ 0 < 20000 /\ (0 < 24)%Z. Proof. lra || (repeat split; try lra; lia). Qed.

(** The upper limit of the range is never part of the vector, not even when it lies on the grid. *)
Theorem C91_upper_end_refuted : forall f0 n m, 0 < f0 -> (0 < n)%Z ->
  exists v, log_frequency_vector f0 (step f0 n m) n = Ok v /\ length v = m /\ ~ In (step f0 n m) v.
Proof.
  intros f0 n m H0 Hn. assert (HnR : 0 < IZR n) by (apply IZR_lt; lia).
  assert (Hp : 0 < step f0 n m) by (unfold step; apply Rmult_lt_0_compat; [exact H0|apply Rpower_pos]).
  destruct (C91_log_vector f0 _ n H0 Hp Hn) as (v & E & Hnth & Hlen & Hr & _). exists v. split; [exact E|].
  assert (Hcmp : forall i, step f0 n i < step f0 n m <-> (i < m)%nat).
  { intro i. unfold step. split; intro H.
    - apply Rmult_lt_reg_l in H; [|exact H0]. apply rp_lt in H; [|lra]. apply INR_lt.
      apply Rmult_lt_reg_r with (/ IZR n); [apply Rinv_0_lt_compat, HnR|exact H].
    - apply Rmult_lt_compat_l; [exact H0|]. apply rp_lt; [lra|]. apply Rmult_lt_compat_r; [apply Rinv_0_lt_compat, HnR|apply lt_INR, H]. }
  split.
  - destruct (Nat.lt_trichotomy (length v) m) as [H|[H|H]]; [|exact H|].
    + apply Hcmp in H. apply Hlen in H. lia.
    + apply Hlen in H. apply Hcmp in H. lia.
  - intro Hin. destruct (In_nth _ _ 0 Hin) as (i & Hi & Ei). pose proof (Hr i Hi). lra.
Qed.
Print Assumptions C91_upper_end_refuted.

(** Refusals: a lower limit that is not positive, and zero bins. *)
Theorem C91_log_refusals : forall f0 f1 n, (f0 <= 0 -> log_frequency_vector f0 f1 n = Err AssertionError) /\
  (0 < f0 -> log_frequency_vector f0 f1 0 = Err ZeroDivisionError).
Proof.
  intros f0 f1 n. unfold log_frequency_vector. split; intro H; destruct (Rlt_dec 0 f0); try lra; reflexivity.
Qed.
Print Assumptions C91_log_refusals.

(** ** fractional octave bands *)

(** spec: centre k of n bands per octave with the octave ratio 2, and with the octave ratio 10^(3/10) of IEC 61260 *)
Definition base2 (n : nat) (k : Z) : R := 1000 * Rpower 2 (IZR k / INR n).
Definition base10 (n : nat) (k : Z) : R := 1000 * Rpower 10 (3 * IZR k / (10 * INR n)).

Lemma log2_le : forall x y, 0 < x -> (log2 x <= y <-> x <= Rpower 2 y).
Proof. intros x y Hx. rewrite <- (rp_log2 x Hx) at 2. symmetry. apply rp_le. lra. Qed.
Lemma log2_ge : forall x y, 0 < x -> (y <= log2 x <-> Rpower 2 y <= x).
Proof. intros x y Hx. rewrite <- (rp_log2 x Hx) at 2. symmetry. apply rp_le. lra. Qed.
Lemma log2_inv : forall x y, 0 < x -> 0 < y -> log2 (x / y) = - log2 (y / x).
Proof.
  intros x y Hx Hy. unfold log2. replace (y / x) with (/ (x / y)) by (field; lra). rewrite ln_Rinv by (apply Rdiv_lt_0_compat; lra).
  field. pose proof ln2p. lra.
Qed.
(** position of a frequency on the grid of n bands per octave *)
Lemma base2_log : forall n f x, (0 < n)%nat -> 0 < f -> x = INR n * log2 (f / 1000) -> f = 1000 * Rpower 2 (x / INR n).
Proof.
  intros n f x Hn Hf ->. assert (0 < INR n) by (apply lt_0_INR, Hn). replace (INR n * log2 (f / 1000) / INR n) with (log2 (f / 1000)) by (field; lra).
  rewrite rp_log2 by lra. field.
Qed.
Lemma grid_le : forall n x y, (0 < n)%nat -> (1000 * Rpower 2 (x / INR n) <= 1000 * Rpower 2 (y / INR n) <-> x <= y).
Proof.
  intros n x y Hn. assert (0 < INR n) by (apply lt_0_INR, Hn). split; intro H0.
  - assert (Rpower 2 (x / INR n) <= Rpower 2 (y / INR n)) by lra. apply rp_le in H1; [|lra]. apply Rmult_le_reg_r with (/ INR n); [apply Rinv_0_lt_compat, H|exact H1].
  - apply Rmult_le_compat_l; [lra|]. apply rp_le; [lra|]. apply Rmult_le_compat_r; [apply Rlt_le, Rinv_0_lt_compat, H|exact H0].
Qed.

Lemma exact_centers_law : forall n f0 f1, (0 < n)%nat -> 0 < f0 -> 0 < f1 ->
  forall x0 x1, x0 = INR n * log2 (f0 / 1000) -> x1 = INR n * log2 (f1 / 1000) ->
  exact_centers n f0 f1 = map (fun i => base2 n (np_round x0 + Z.of_nat i)) (seq 0 (Z.to_nat (np_round x1 + 1 - np_round x0))).
Proof.
  intros n f0 f1 Hn H0 H1 x0 x1 E0 E1. unfold exact_centers. rewrite <- E1.
  replace (INR n * log2 (1000 / f0)) with (- x0) by (rewrite E0, (log2_inv 1000 f0) by lra; ring). rewrite round_opp.
  rewrite Z.opp_involutive. unfold arange. rewrite map_map.
  replace ((IZR (np_round x1 + 1) - IZR (np_round x0)) / 1) with (IZR (np_round x1 + 1 - np_round x0)) by (rewrite (minus_IZR (_ + 1)); field).
  rewrite ceil_IZR. apply map_ext. intro i. unfold base2. rewrite plus_IZR, <- INR_IZR_INZ, Rmult_1_r. reflexivity.
Qed.

(** With a number of bands other than one and three: the centres are consecutive centres of the grid around 1000 Hz, every centre of the grid
    inside the range is there, and none is more than half a band outside. No nominal centres are returned. *)
Theorem C91_exact : forall n f0 f1, (0 < n)%nat -> n <> 1%nat -> n <> 3%nat -> 0 < f0 -> f0 <= f1 ->
  exists ex, fractional_octave_frequencies n f0 f1 = Ok ([], ex) /\
    (exists k0, forall i, (i < length ex)%nat -> nth i ex 0 = base2 n (k0 + Z.of_nat i)) /\
    (forall k, f0 <= base2 n k <= f1 -> In (base2 n k) ex) /\
    (forall c, In c ex -> f0 * Rpower 2 (- 1 / 2 / INR n) <= c <= f1 * Rpower 2 (1 / 2 / INR n)).
Proof.
  intros n f0 f1 Hn N1 N3 H0 H1. exists (exact_centers n f0 f1). assert (HnR : 0 < INR n) by (apply lt_0_INR, Hn). split.
  { unfold fractional_octave_frequencies. destruct (Rlt_dec f1 f0); [lra|]. destruct n as [|[|[|[|n]]]]; try reflexivity; congruence. }
  remember (INR n * log2 (f0 / 1000)) as x0 eqn:E0. remember (INR n * log2 (f1 / 1000)) as x1 eqn:E1.
  rewrite (exact_centers_law n f0 f1 Hn H0 ltac:(lra) x0 x1 E0 E1).
  pose proof (base2_log n f0 x0 Hn H0 E0) as F0. pose proof (base2_log n f1 x1 Hn ltac:(lra) E1) as F1.
  pose proof (round_nearest x0) as R0. pose proof (round_nearest x1) as R1. unfold nearest in R0, R1. apply abs_between in R0. apply abs_between in R1.
  set (k0 := np_round x0) in *. set (k1 := np_round x1) in *. split; [|split].
  - exists k0. intros i Hi. rewrite map_length in Hi. rewrite (nth_map' _ _ _ 0%nat 0) by exact Hi. rewrite seq_length in Hi. rewrite seq_nth by exact Hi.
    reflexivity.
  - intros k (A & B). rewrite F0 in A. rewrite F1 in B. unfold base2 in A, B. apply grid_le in A; [|exact Hn]. apply grid_le in B; [|exact Hn].
    assert (k0 <= k)%Z by (apply Z.lt_succ_r; apply lt_IZR; unfold Z.succ; rewrite plus_IZR; lra).
    assert (k <= k1)%Z by (apply Z.lt_succ_r; apply lt_IZR; unfold Z.succ; rewrite plus_IZR; lra).
    apply in_map_iff. exists (Z.to_nat (k - k0)). split; [f_equal; lia|]. apply in_seq. lia.
  - intros c Hc. apply in_map_iff in Hc. destruct Hc as (i & <- & Hi). apply in_seq in Hi. rewrite F0, F1.
    rewrite !Rmult_assoc, <- !Rpower_plus. unfold base2.
    replace (x0 / INR n + - 1 / 2 / INR n) with ((x0 - 1 / 2) / INR n) by (field; lra).
    replace (x1 / INR n + 1 / 2 / INR n) with ((x1 + 1 / 2) / INR n) by (field; lra). rewrite !grid_le by exact Hn.
    assert (IZR k0 <= IZR (k0 + Z.of_nat i)) by (apply IZR_le; lia). assert (IZR (k0 + Z.of_nat i) <= IZR k1) by (apply IZR_le; lia). lra.
Qed.
Print Assumptions C91_exact.

(** The range is not kept: the outermost centres can lie outside, on both sides and for every number of bands. *)
Theorem C91_range_refuted : forall n a b, (0 < n)%nat -> n <> 1%nat -> n <> 3%nat -> (a <= b)%Z ->
  let f0 := 1000 * Rpower 2 ((IZR a + 1 / 4) / INR n) in let f1 := 1000 * Rpower 2 ((IZR b + 3 / 4) / INR n) in
  exists ex, fractional_octave_frequencies n f0 f1 = Ok ([], ex) /\ In (base2 n a) ex /\ base2 n a < f0 /\ In (base2 n (b + 1)) ex /\ f1 < base2 n (b + 1).
Proof.
  intros n a b Hn N1 N3 Hab f0 f1. assert (HnR : 0 < INR n) by (apply lt_0_INR, Hn).
  assert (P0 : 0 < f0) by (unfold f0; apply Rmult_lt_0_compat; [lra|apply Rpower_pos]).
  assert (P1 : 0 < f1) by (unfold f1; apply Rmult_lt_0_compat; [lra|apply Rpower_pos]).
  assert (HL : forall x, INR n * log2 (1000 * Rpower 2 (x / INR n) / 1000) = x).
  { intro x. replace (1000 * Rpower 2 (x / INR n) / 1000) with (Rpower 2 (x / INR n)) by field. unfold log2, Rpower. rewrite ln_exp. field.
    pose proof ln2p. lra. }
  assert (Hab' : IZR a <= IZR b) by (apply IZR_le, Hab).
  assert (L01 : f0 <= f1) by (unfold f0, f1; apply grid_le; [exact Hn|lra]).
  exists (exact_centers n f0 f1). split.
  { unfold fractional_octave_frequencies. destruct (Rlt_dec f1 f0); [lra|]. destruct n as [|[|[|[|n]]]]; try reflexivity; congruence. }
  rewrite (exact_centers_law n f0 f1 Hn P0 P1 (IZR a + 1 / 4) (IZR b + 3 / 4)) by (unfold f0, f1; rewrite HL; reflexivity).
  rewrite (round_char (IZR a + 1 / 4) a), (round_char (IZR b + 3 / 4) (b + 1)).
  - split; [|split; [|split]].
    + apply in_map_iff. exists 0%nat. split; [f_equal; lia|apply in_seq; lia].
    + unfold base2, f0. apply Rnot_le_lt. rewrite grid_le by exact Hn. lra.
    + apply in_map_iff. exists (Z.to_nat (b + 1 - a)). split; [f_equal; lia|apply in_seq; lia].
    + unfold base2, f1. apply Rnot_le_lt. rewrite grid_le by exact Hn. rewrite plus_IZR. lra.
  - unfold nearest. rewrite plus_IZR. apply Rabs_le. lra.
  - rewrite plus_IZR. replace (IZR b + 3 / 4 - (IZR b + 1)) with (- (1 / 4)) by lra. rewrite Rabs_Ropp, Rabs_pos_eq by lra. lra.
  - unfold nearest. apply Rabs_le. lra.
  - replace (IZR a + 1 / 4 - IZR a) with (1 / 4) by lra. rewrite Rabs_pos_eq by lra. lra.
Qed.
Print Assumptions C91_range_refuted.

Example C91_range_ex : (0 < 6)%nat /\ 6%nat <> 1%nat /\ 6%nat <> 3%nat /\ (-12 <= 12)%Z. Proof. repeat split; lia. Qed.

(** *** the nominal tables of IEC 61260 *)

Lemma ratio_ln : ln octave_ratio = 3 / 10 * ln 10.
Proof. unfold octave_ratio, Rpower. rewrite ln_exp. reflexivity. Qed.
Lemma ratio_base10 : forall n k, (0 < n)%nat -> 1000 * Rpower octave_ratio (IZR k / INR n) = base10 n k.
Proof.
  intros n k Hn. assert (0 < INR n) by (apply lt_0_INR, Hn). unfold base10, Rpower. rewrite ratio_ln. do 2 f_equal. field. lra.
Qed.
Lemma ln_Zpow : forall b k, (0 < b)%Z -> (0 <= k)%Z -> ln (IZR (b ^ k)) = IZR k * ln (IZR b).
Proof.
  intros b k Hb Hk. rewrite <- (Z2Nat.id k Hk). rewrite <- pow_IZR. rewrite <- INR_IZR_INZ.
  rewrite <- Rpower_pow by (apply (IZR_lt 0), Hb). unfold Rpower. apply ln_exp.
Qed.
Lemma ln_quot : forall x y, 0 < x -> 0 < y -> ln (x / y) = ln x - ln y.
Proof. intros x y Hx Hy. unfold Rdiv. rewrite ln_mult, ln_Rinv by (try apply Rinv_0_lt_compat; assumption). ring. Qed.
Lemma iec_index_at : forall n m z k, (n * m = 3)%nat -> (0 < z)%Z -> (0 <= 80 + Z.of_nat m * (2 * k - 1))%Z ->
  (10 ^ (80 + Z.of_nat m * (2 * k - 1)) < z ^ 20)%Z -> (z ^ 20 < 10 ^ (80 + Z.of_nat m * (2 * k + 1)))%Z -> iec_index n (IZR z / 10) = k.
Proof.
  intros n m z k Hnm Hz He Hl Hu.
  assert (En : INR n * INR m = 3) by (rewrite <- mult_INR, Hnm; cbn; lra).
  assert (Hm : 0 < INR m) by (apply lt_0_INR; destruct m; lia).
  apply IZR_lt in Hl, Hu. apply ln_increasing in Hl; [|apply IZR_lt, Z.pow_pos_nonneg; lia]. apply ln_increasing in Hu; [|apply IZR_lt, Z.pow_pos_nonneg; lia].
  rewrite (ln_Zpow 10), ln_Zpow in Hl by lia. rewrite ln_Zpow, ln_Zpow in Hu by lia.
  rewrite plus_IZR, mult_IZR, <- INR_IZR_INZ, minus_IZR, mult_IZR in Hl. rewrite plus_IZR, mult_IZR, <- INR_IZR_INZ, plus_IZR, mult_IZR in Hu.
  unfold iec_index. rewrite ratio_ln. pose proof ln10p'. assert (HzR : 0 < IZR z) by (apply IZR_lt, Hz).
  replace (IZR z / 10 / 1000) with (IZR z / IZR (10 ^ 4)) by (change (10 ^ 4)%Z with 10000%Z; field).
  rewrite ln_quot by (try apply IZR_lt; lia || lra). rewrite ln_Zpow by lia. set (L := ln (IZR z)) in *. set (T := ln 10) in *.
  set (x := INR n * (L - 4 * T) / (3 / 10 * T)).
  assert (Ex : 20 * L = (80 + INR m * (2 * x)) * T).
  { unfold x. replace (INR n) with (3 / INR m) by (rewrite <- En; field; lra). field. lra. }
  rewrite Ex in Hl, Hu. apply Rmult_lt_reg_r in Hl; [|assumption]. apply Rmult_lt_reg_r in Hu; [|assumption].
  assert (A : 2 * IZR k - 1 < 2 * x) by (apply Rmult_lt_reg_l with (INR m); lra).
  assert (B : 2 * x < 2 * IZR k + 1) by (apply Rmult_lt_reg_l with (INR m); lra).
  apply round_char; [unfold nearest; apply Rabs_le; lra|]. intro H1. exfalso. unfold Rabs in H1. destruct (Rcase_abs _); lra.
Qed.

Lemma octave_indices : map (fun z => iec_index 1 (IZR z / 10)) nominal_octaves = map (fun i => (-5 + Z.of_nat i)%Z) (seq 0 10).
Proof.
  unfold nominal_octaves. cbn [map seq]. repeat (apply f_equal2; [apply (iec_index_at 1 3); [reflexivity|lia|vm_compute; discriminate|vm_compute; reflexivity|vm_compute; reflexivity]|]). reflexivity.
Qed.
Lemma third_indices : map (fun z => iec_index 3 (IZR z / 10)) nominal_thirds = map (fun i => (-16 + Z.of_nat i)%Z) (seq 0 30).
Proof.
  unfold nominal_thirds. cbn [map seq]. repeat (apply f_equal2; [apply (iec_index_at 3 1); [reflexivity|lia|vm_compute; discriminate|vm_compute; reflexivity|vm_compute; reflexivity]|]). reflexivity.
Qed.

(** spec: a list in strictly ascending order *)
Fixpoint ascending (l : list R) : Prop :=
  match l with a :: (b :: _) as t => a < b /\ ascending t | _ => True end.
Lemma ascending_head : forall l a x, ascending (a :: l) -> In x l -> a < x.
Proof.
  induction l as [|b l IH]; intros a x H Hin; [destruct Hin|]. cbn in H. destruct H as (A & B). destruct Hin as [->|Hin]; [exact A|].
  pose proof (IH b x B Hin). lra.
Qed.
Lemma filter_range : forall f0 f1 l, ascending l -> exists a b, filter (inside_range f0 f1) l = firstn b (skipn a l).
Proof.
  intros f0 f1. assert (Hup : forall l, ascending l -> (forall x, In x l -> f0 <= x) -> exists b, filter (inside_range f0 f1) l = firstn b l).
  { induction l as [|x l IH]; intros H Hx; [exists 0%nat; reflexivity|]. cbn [filter]. unfold inside_range at 1.
    destruct (Rle_dec f0 x) as [_|Hn]; [|exfalso; apply Hn, Hx; left; reflexivity]. cbn [andb]. destruct (Rle_dec x f1) as [Hle|Hgt].
    - destruct IH as (b & E); [destruct l; [exact Logic.I|apply H]|intros y Hy; apply Hx; right; exact Hy|]. exists (S b). rewrite E. reflexivity.
    - exists 0%nat. cbn [firstn]. assert (K : forall y, In y l -> inside_range f0 f1 y = false).
      { intros y Hy. pose proof (ascending_head l x y H Hy). unfold inside_range. destruct (Rle_dec y f1); [lra|]. apply andb_false_r. }
      clear - K. induction l as [|y l IH]; [reflexivity|]. cbn [filter]. rewrite K by (left; reflexivity). apply IH. intros z Hz. apply K. right. exact Hz. }
  induction l as [|x l IH]; intro H; [exists 0%nat, 0%nat; reflexivity|].
  destruct (Rle_dec f0 x) as [Hle|Hlt].
  - destruct (Hup (x :: l) H) as (b & E); [|exists 0%nat, b; exact E]. intros y [<-|Hy]; [exact Hle|]. pose proof (ascending_head l x y H Hy). lra.
  - destruct IH as (a & b & E); [destruct l; [exact Logic.I|apply H]|]. exists (S a), b. cbn [filter skipn]. unfold inside_range at 1.
    destruct (Rle_dec f0 x); [lra|]. cbn [andb]. exact E.
Qed.

Lemma octaves_ascending : ascending (map (fun z => IZR z / 10) nominal_octaves). Proof. cbn. repeat split; lra. Qed.
Lemma thirds_ascending : ascending (map (fun z => IZR z / 10) nominal_thirds). Proof. cbn. repeat split; lra. Qed.

Definition nominal_table (n : nat) : list Z := if (n =? 1)%nat then nominal_octaves else nominal_thirds.
Definition first_band (n : nat) : Z := if (n =? 1)%nat then (-5)%Z else (-16)%Z.
Lemma iec_table : forall n, n = 1%nat \/ n = 3%nat -> forall f0 f1, f0 <= f1 ->
  exists a b, fractional_octave_frequencies n f0 f1 =
    Ok (firstn b (skipn a (map (fun z => IZR z / 10) (nominal_table n))),
        firstn b (skipn a (map (fun i => base10 n (first_band n + Z.of_nat i)) (seq 0 (length (nominal_table n)))))) /\
    filter (inside_range f0 f1) (map (fun z => IZR z / 10) (nominal_table n)) = firstn b (skipn a (map (fun z => IZR z / 10) (nominal_table n))).
Proof.
  intros n Hn f0 f1 Hle.
  destruct (filter_range f0 f1 (map (fun z => IZR z / 10) (nominal_table n))) as (a & b & E).
  { destruct Hn as [-> | ->]; [exact octaves_ascending|exact thirds_ascending]. }
  exists a, b. split; [|exact E].
  assert (Hmap : map (iec_exact n) (map (fun z => IZR z / 10) (nominal_table n)) = map (fun i => base10 n (first_band n + Z.of_nat i)) (seq 0 (length (nominal_table n)))).
  { rewrite map_map. transitivity (map (fun k => base10 n k) (map (fun z => iec_index n (IZR z / 10)) (nominal_table n))).
    - rewrite map_map. apply map_ext. intro z. unfold iec_exact. apply ratio_base10. lia.
    - transitivity (map (fun k => base10 n k) (map (fun i => (first_band n + Z.of_nat i)%Z) (seq 0 (length (nominal_table n)))));
        [|rewrite map_map; reflexivity]. f_equal. destruct Hn as [-> | ->]; [exact octave_indices|exact third_indices]. }
  rewrite <- Hmap, (skipn_map (iec_exact n)), (firstn_map (iec_exact n)), <- E. unfold fractional_octave_frequencies. destruct (Rlt_dec f1 f0); [lra|].
  destruct Hn as [-> | ->]; reflexivity.
Qed.

Lemma base10_next : forall n k, (0 < n)%nat -> base10 n (k + 1) = base10 n k * Rpower octave_ratio (1 / INR n).
Proof.
  intros n k Hn. assert (0 < INR n) by (apply lt_0_INR, Hn). unfold base10, octave_ratio. rewrite Rpower_mult, Rmult_assoc, <- Rpower_plus.
  do 2 f_equal. rewrite plus_IZR. field. lra.
Qed.

(** Octave and third octave bands: nominal and exact centres come in pairs; the nominal ones are the tabulated ones inside the range, in
    ascending order; the exact ones are consecutive bands of IEC 61260, 1000 Hz times a power of 10^(3/(10 n)); and neighbouring bands tile the
    axis: each upper cutoff is the next lower cutoff. *)
Theorem C91_iec : forall n f0 f1, n = 1%nat \/ n = 3%nat -> f0 <= f1 ->
  exists nom ex, fractional_octave_frequencies n f0 f1 = Ok (nom, ex) /\ length nom = length ex /\
    (forall x, In x nom <-> (exists z, In z (nominal_table n) /\ x = IZR z / 10) /\ f0 <= x <= f1) /\
    (exists k0, forall i, (i < length ex)%nat -> nth i ex 0 = base10 n (k0 + Z.of_nat i)) /\
    (forall i, (S i < length ex)%nat -> upper_cutoff n (nth i ex 0) = lower_cutoff n (nth (S i) ex 0)).
Proof.
  intros n f0 f1 Hn Hle. destruct (iec_table n Hn f0 f1 Hle) as (a & b & E & F). eexists _, _. split; [exact E|].
  assert (Hn' : (0 < n)%nat) by lia. assert (HnR : 0 < INR n) by (apply lt_0_INR, Hn').
  assert (Hnth : forall i, (i < length (firstn b (skipn a (map (fun i => base10 n (first_band n + Z.of_nat i)) (seq 0 (length (nominal_table n)))))))%nat ->
    nth i (firstn b (skipn a (map (fun i => base10 n (first_band n + Z.of_nat i)) (seq 0 (length (nominal_table n)))))) 0 =
    base10 n (first_band n + Z.of_nat a + Z.of_nat i)).
  { intros i Hi. rewrite firstn_length, skipn_length, map_length, seq_length in Hi. rewrite nth_firstn by lia. rewrite nth_skipn.
    rewrite (nth_map' _ _ _ 0%nat 0) by (rewrite seq_length; lia). rewrite seq_nth by lia. f_equal. lia. }
  split; [|split; [|split]].
  - rewrite !firstn_length, !skipn_length, !map_length, seq_length. reflexivity.
  - intro x. rewrite <- F, filter_In, in_map_iff. unfold inside_range. split.
    + intros ((z & <- & Hz) & H). apply andb_true_iff in H. destruct H as (A & B). destruct (Rle_dec f0 (IZR z / 10)); [|discriminate].
      destruct (Rle_dec (IZR z / 10) f1); [|discriminate]. split; [exists z; split; [exact Hz|reflexivity]|lra].
    + intros ((z & Hz & ->) & A & B). split; [exists z; split; [reflexivity|exact Hz]|]. destruct (Rle_dec f0 (IZR z / 10)); [|lra].
      destruct (Rle_dec (IZR z / 10) f1); [reflexivity|lra].
  - eexists. exact Hnth.
  - intros i Hi. rewrite !Hnth by lia. replace (first_band n + Z.of_nat a + Z.of_nat (S i))%Z with (first_band n + Z.of_nat a + Z.of_nat i + 1)%Z by lia.
    rewrite base10_next by exact Hn'. unfold upper_cutoff, lower_cutoff. rewrite Rmult_assoc, <- Rpower_plus. do 2 f_equal. field. lra.
Qed.
Print Assumptions C91_iec.

(** The default range of the function from 20 Hz to 20 kHz holds all thirty bands of the table, from 25 Hz on, and for octaves all ten. *)
Example C91_iec_ex : exists nom ex, fractional_octave_frequencies 3 20 20000 = Ok (nom, ex) /\ length ex = 30%nat /\ nth 16 ex 0 = 1000.
Proof.
  destruct (iec_table 3 ltac:(right; reflexivity) 20 20000 ltac:(lra)) as (a & b & E & F).
  assert (L : filter (inside_range 20 20000) (map (fun z => IZR z / 10) (nominal_table 3)) = map (fun z => IZR z / 10) (nominal_table 3)).
  { assert (K : Forall (fun x => inside_range 20 20000 x = true) (map (fun z => IZR z / 10) (nominal_table 3))).
    { unfold nominal_table, nominal_thirds. cbn [Nat.eqb map]. repeat constructor; unfold inside_range;
        repeat match goal with |- context [Rle_dec ?x ?y] => destruct (Rle_dec x y); [|exfalso; lra] end; reflexivity. }
    clear - K. induction K as [|x l Hx K IH]; [reflexivity|]. cbn [filter]. rewrite Hx, IH. reflexivity. }
  rewrite L in F. assert (Hl : length (firstn b (skipn a (map (fun z => IZR z / 10) (nominal_table 3)))) = 30%nat) by (rewrite <- F; reflexivity).
  rewrite firstn_length, skipn_length, map_length in Hl. change (length (nominal_table 3)) with 30%nat in *.
  assert (a = 0%nat) by lia. subst a. eexists _, _. split; [exact E|]. cbn [skipn]. split.
  - rewrite firstn_length, map_length, seq_length. lia.
  - rewrite nth_firstn by lia. rewrite (nth_map' _ _ _ 0%nat 0) by (rewrite seq_length; lia). rewrite seq_nth by lia. cbn. unfold base10.
    replace (3 * 0 / (10 * INR 3)) with 0 by (cbn; lra). rewrite Rpower_O by lra. lra.
Qed.

(** The third octave band at 20 Hz is in the default range, and in the standard, but it is not returned: no exact centre lies below 25 Hz. *)
Theorem C91_first_band_refuted : forall f0 f1 nom ex, f0 <= 20 -> 20 <= f1 -> fractional_octave_frequencies 3 f0 f1 = Ok (nom, ex) ->
  ~ In 20 nom /\ ~ In (base10 3 (-17)) ex.
Proof.
  intros f0 f1 nom ex H0 H1 E. destruct (C91_iec 3 f0 f1 ltac:(right; reflexivity) ltac:(lra)) as (nom' & ex' & E' & _ & Hin & _).
  rewrite E in E'. injection E' as <- <-. split.
  - intro H. apply Hin in H. destruct H as ((z & Hz & Ez) & _). assert (z = 200)%Z by (apply eq_IZR; lra). subst z. cbn in Hz. repeat destruct Hz as [Hz|Hz]; try discriminate Hz. exact Hz.
  - destruct (iec_table 3 ltac:(right; reflexivity) f0 f1 ltac:(lra)) as (a & b & E2 & _). rewrite E in E2. injection E2 as _ ->. intro H.
    assert (K : In (base10 3 (-17)) (map (fun i => base10 3 (first_band 3 + Z.of_nat i)) (seq 0 (length (nominal_table 3))))).
    { rewrite <- (firstn_skipn a). apply in_or_app. right. rewrite <- (firstn_skipn b). apply in_or_app. left. exact H. }
    apply in_map_iff in K. destruct K as (i & K & _). unfold base10 in K. assert (Rpower 10 (3 * IZR (first_band 3 + Z.of_nat i) / (10 * INR 3)) = Rpower 10 (3 * -17 / (10 * INR 3))) by lra.
    assert (Rpower 10 (3 * -17 / (10 * INR 3)) < Rpower 10 (3 * IZR (first_band 3 + Z.of_nat i) / (10 * INR 3))); [|lra]. apply rp_lt; [lra|]. cbn [INR].
    assert (-16 <= IZR (first_band 3 + Z.of_nat i)) by (apply (IZR_le (-16)); unfold first_band; cbn [Nat.eqb]; lia). lra.
Qed.
Print Assumptions C91_first_band_refuted.

(** For every other number of bands the cutoffs do not tile: the centres are a power of 2^(1/n) apart but the cutoffs use 10^(3/10), so there is
    a gap between each two neighbouring bands. *)
Theorem C91_gap_refuted : forall n k, (0 < n)%nat ->
  upper_cutoff n (base2 n k) < lower_cutoff n (base2 n (k + 1)) /\
  lower_cutoff n (base2 n (k + 1)) = upper_cutoff n (base2 n k) * Rpower (2 / octave_ratio) (1 / INR n).
Proof.
  intros n k Hn. assert (HnR : 0 < INR n) by (apply lt_0_INR, Hn). assert (Hr : 0 < octave_ratio) by apply Rpower_pos.
  assert (Hr2 : octave_ratio < 2).
  { unfold octave_ratio. rewrite <- (exp_ln 2) by lra. unfold Rpower. apply exp_increasing.
    assert (H : ln (10 ^ 3) < ln (2 ^ 10)) by (apply ln_increasing; lra). rewrite <- !Rpower_pow in H by lra. unfold Rpower in H. rewrite !ln_exp in H. cbn [INR] in H. lra. }
  assert (E : lower_cutoff n (base2 n (k + 1)) = upper_cutoff n (base2 n k) * Rpower (2 / octave_ratio) (1 / INR n)).
  { unfold lower_cutoff, upper_cutoff, base2, Rpower. rewrite ln_quot by lra. rewrite !Rmult_assoc, <- !exp_plus. do 2 f_equal. rewrite plus_IZR. field. lra. }
  split; [|exact E]. rewrite E. rewrite <- (Rmult_1_r (upper_cutoff n (base2 n k))) at 1. apply Rmult_lt_compat_l.
  - unfold upper_cutoff, base2. apply Rmult_lt_0_compat; [apply Rmult_lt_0_compat; [lra|]|]; apply Rpower_pos.
  - apply Rle_lt_trans with (Rpower (2 / octave_ratio) 0); [rewrite Rpower_O by (apply Rdiv_lt_0_compat; lra); lra|]. apply Rpower_lt; [|apply Rdiv_lt_0_compat; lra].
    apply Rmult_lt_reg_r with octave_ratio; [exact Hr|]. unfold Rdiv. rewrite Rmult_assoc, Rinv_l by lra. lra.
Qed.
Print Assumptions C91_gap_refuted.

(** A range in descending order is refused. *)
Theorem C91_descending : forall n f0 f1, fractional_octave_frequencies n f0 f1 = Err ValueError <-> f1 < f0.
Proof.
  intros n f0 f1. unfold fractional_octave_frequencies. destruct (Rlt_dec f1 f0) as [H|H]; [tauto|]. split; [|intro; contradiction].
  destruct n as [|[|[|[|n]]]]; discriminate.
Qed.
Print Assumptions C91_descending.

(** ** ERB grids *)

Lemma hz_erb_hz : forall f, erb_to_hz (hz_to_erb f) = f.
Proof.
  intro f. unfold hz_to_erb, erb_to_hz, sgn. assert (Hln : forall x, 0 < x -> 0 < ln (1 + x * (437 / 100000))).
  { intros x Hx. rewrite <- ln_1 at 1. apply ln_increasing; lra. }
  destruct (Rlt_dec f 0) as [A|A].
  - rewrite (Rabs_left f) by lra. pose proof (Hln (- f) ltac:(lra)). set (L := ln (1 + - f * (437 / 100000))) in *.
    destruct (Rlt_dec (92645 / 10000 * -1 * L) 0) as [_|B]; [|exfalso; lra]. rewrite Rabs_left by lra.
    replace (- (92645 / 10000 * -1 * L) / (92645 / 10000)) with L by field. unfold L. rewrite exp_ln by lra. field.
  - destruct (Rlt_dec 0 f) as [B|B].
    + rewrite (Rabs_pos_eq f) by lra. pose proof (Hln f B). set (L := ln (1 + f * (437 / 100000))) in *.
      destruct (Rlt_dec (92645 / 10000 * 1 * L) 0) as [C|_]; [exfalso; lra|]. destruct (Rlt_dec 0 (92645 / 10000 * 1 * L)) as [_|C]; [|exfalso; lra].
      rewrite Rabs_pos_eq by lra. replace (92645 / 10000 * 1 * L / (92645 / 10000)) with L by field. unfold L. rewrite exp_ln by lra. field.
    + assert (f = 0) by lra. subst f. rewrite Rabs_R0. replace (92645 / 10000 * 0 * ln (1 + 0 * (437 / 100000))) with 0 by ring.
      destruct (Rlt_dec 0 0); [lra|]. ring.
Qed.
Lemma erb_hz_erb : forall e, hz_to_erb (erb_to_hz e) = e.
Proof.
  intro e. unfold hz_to_erb, erb_to_hz, sgn. assert (Hx : forall x, 0 < x -> 1 < exp (x / (92645 / 10000))).
  { intros x Hx. rewrite <- exp_0. apply exp_increasing. apply Rdiv_lt_0_compat; lra. }
  destruct (Rlt_dec e 0) as [A|A].
  - rewrite (Rabs_left e) by lra. pose proof (Hx (- e) ltac:(lra)). set (L := exp (- e / (92645 / 10000))) in *.
    destruct (Rlt_dec (1 / (437 / 100000) * -1 * (L - 1)) 0) as [_|B]; [|exfalso; apply B; lra]. rewrite Rabs_left by lra.
    replace (1 + - (1 / (437 / 100000) * -1 * (L - 1)) * (437 / 100000)) with L by field. unfold L. rewrite ln_exp. field.
  - destruct (Rlt_dec 0 e) as [B|B].
    + rewrite (Rabs_pos_eq e) by lra. pose proof (Hx e B). set (L := exp (e / (92645 / 10000))) in *.
      destruct (Rlt_dec (1 / (437 / 100000) * 1 * (L - 1)) 0) as [C|_]; [exfalso; lra|].
      destruct (Rlt_dec 0 (1 / (437 / 100000) * 1 * (L - 1))) as [_|C]; [|exfalso; apply C; lra]. rewrite Rabs_pos_eq by lra.
      replace (1 + 1 / (437 / 100000) * 1 * (L - 1) * (437 / 100000)) with L by field. unfold L. rewrite ln_exp. field.
    + assert (e = 0) by lra. subst e. replace (1 / (437 / 100000) * 0 * (exp (Rabs 0 / (92645 / 10000)) - 1)) with 0 by ring.
      destruct (Rlt_dec 0 0); [lra|]. ring.
Qed.
Lemma hz_to_erb_lt : forall f g, f < g -> hz_to_erb f < hz_to_erb g.
Proof.
  intros f g H. unfold hz_to_erb, sgn. assert (Hln : forall x, 0 < x -> 0 < ln (1 + x * (437 / 100000))).
  { intros x Hx. rewrite <- ln_1 at 1. apply ln_increasing; lra. }
  assert (Hm : forall x y, 0 < x -> x < y -> ln (1 + x * (437 / 100000)) < ln (1 + y * (437 / 100000))) by (intros; apply ln_increasing; lra).
  destruct (Rlt_dec f 0) as [A|A].
  - rewrite (Rabs_left f) by lra. pose proof (Hln (- f) ltac:(lra)). destruct (Rlt_dec g 0) as [B|B].
    + rewrite (Rabs_left g) by lra. pose proof (Hm (- g) (- f) ltac:(lra) ltac:(lra)). lra.
    + destruct (Rlt_dec 0 g) as [C|C]; [|lra]. rewrite (Rabs_pos_eq g) by lra. pose proof (Hln g C). lra.
  - destruct (Rlt_dec g 0) as [B|B]; [lra|]. destruct (Rlt_dec 0 g) as [C|C]; [|lra]. rewrite (Rabs_pos_eq g) by lra. pose proof (Hln g C).
    destruct (Rlt_dec 0 f) as [D|D]; [|lra]. rewrite (Rabs_pos_eq f) by lra. pose proof (Hm f g D H). lra.
Qed.
Lemma hz_to_erb_le : forall f g, f <= g <-> hz_to_erb f <= hz_to_erb g.
Proof.
  intros f g. split; intro H.
  - destruct H as [H| ->]; [apply Rlt_le, hz_to_erb_lt, H|lra].
  - destruct (Rle_dec f g) as [|Hn]; [assumption|]. pose proof (hz_to_erb_lt g f ltac:(lra)). lra.
Qed.

(** The two conversions are inverse to each other and keep the order. *)
Theorem C91_erb_scale : (forall f, erb_to_hz (hz_to_erb f) = f) /\ (forall e, hz_to_erb (erb_to_hz e) = e) /\
  (forall f g, f < g <-> hz_to_erb f < hz_to_erb g).
Proof.
  split; [exact hz_erb_hz|]. split; [exact erb_hz_erb|]. intros f g. split; [apply hz_to_erb_lt|]. intro H.
  destruct (Rlt_dec f g) as [|Hn]; [assumption|]. assert (g <= f) by lra. apply hz_to_erb_le in H0. lra.
Qed.
Print Assumptions C91_erb_scale.

(** An ERB grid holds exactly the frequencies of the range whose distance to the reference is a whole number of steps on the ERB scale, in
    ascending order and one step apart, whether or not the reference lies in the range. *)
Theorem C91_erb_grid : forall lo hi res ref, lo <= hi -> 0 < res ->
  exists v, erb_frequencies lo hi res ref = Ok v /\ erb_frequencies hi lo res ref = Ok v /\
    (forall f, In f v <-> lo <= f <= hi /\ exists z, hz_to_erb f = hz_to_erb ref + IZR z * res) /\
    (forall i, (S i < length v)%nat -> hz_to_erb (nth (S i) v 0) = hz_to_erb (nth i v 0) + res).
Proof.
  intros lo hi res ref Hle Hres. unfold erb_frequencies. destruct (Rlt_dec hi lo) as [Hbad|_]; [lra|].
  destruct (Rle_dec res 0) as [Hbad|_]; [lra|].
  set (r := hz_to_erb ref). set (n0 := Int_part ((r - hz_to_erb lo) / res)). set (n1 := Int_part ((hz_to_erb hi - r) / res)). set (v := map _ _).
  exists v. split; [reflexivity|]. split.
  { destruct (Rlt_dec lo hi) as [_|Hn]; [reflexivity|]. assert (lo = hi) by lra. subst hi. reflexivity. }
  pose proof (Int_part_bounds ((r - hz_to_erb lo) / res)) as B0. fold n0 in B0.
  pose proof (Int_part_bounds ((hz_to_erb hi - r) / res)) as B1. fold n1 in B1.
  assert (X0 : (r - hz_to_erb lo) / res * res = r - hz_to_erb lo) by (field; lra).
  assert (X1 : (hz_to_erb hi - r) / res * res = hz_to_erb hi - r) by (field; lra).
  set (x0 := (r - hz_to_erb lo) / res) in *. set (x1 := (hz_to_erb hi - r) / res) in *.
  assert (Hin : forall z, (hz_to_erb lo <= r + IZR z * res <-> (- n0 <= z)%Z) /\ (r + IZR z * res <= hz_to_erb hi <-> (z <= n1)%Z)).
  { intro z. split; split; intro H.
    - assert (- IZR z <= x0) by (apply Rmult_le_reg_r with res; lra). rewrite <- opp_IZR in H0.
      assert (- z < n0 + 1)%Z by (apply lt_IZR; rewrite plus_IZR; lra). lia.
    - assert (- IZR z <= IZR n0) by (rewrite <- opp_IZR; apply IZR_le; lia). assert (- IZR z * res <= x0 * res) by (apply Rmult_le_compat_r; lra). lra.
    - assert (IZR z <= x1) by (apply Rmult_le_reg_r with res; lra). assert (z < n1 + 1)%Z by (apply lt_IZR; rewrite plus_IZR; lra). lia.
    - assert (IZR z <= IZR n1) by (apply IZR_le, H). assert (IZR z * res <= x1 * res) by (apply Rmult_le_compat_r; lra). lra. }
  split.
  - intro f. unfold v. rewrite in_map_iff. split.
    + intros (z & <- & Hz). apply in_map_iff in Hz. destruct Hz as (i & <- & Hi). apply in_seq in Hi. set (z := (- n0 + Z.of_nat i)%Z).
      destruct (Hin z) as (A & B). split.
      * split; apply hz_to_erb_le; rewrite erb_hz_erb, (Rplus_comm (IZR z * res)); [apply A; unfold z; lia|apply B; unfold z; lia].
      * exists z. rewrite erb_hz_erb. ring.
    + intros ((A & B) & z & E). apply hz_to_erb_le in A. apply hz_to_erb_le in B. rewrite E in A, B. apply Hin in A. apply Hin in B. exists z. split.
      * rewrite Rplus_comm. fold r in E. rewrite <- E. apply hz_erb_hz.
      * apply in_map_iff. exists (Z.to_nat (z + n0)). split; [lia|]. apply in_seq. lia.
  - intros i Hi. unfold v in *. rewrite !map_length in Hi. rewrite !(nth_map' _ _ _ 0%Z 0) by (rewrite map_length; lia).
    rewrite !(nth_map' _ _ _ 0%nat 0%Z) by lia. rewrite seq_length in Hi. rewrite !seq_nth by lia. rewrite !erb_hz_erb, !plus_IZR.
    replace (IZR (Z.of_nat (0 + S i))) with (IZR (Z.of_nat (0 + i)) + 1) by (rewrite <- plus_IZR; f_equal; lia). ring.
Qed.
Print Assumptions C91_erb_grid.

(** The reference itself is on the grid when it lies in the range; a resolution that is not positive is refused. *)
Theorem C91_erb_reference : forall lo hi res ref, 
  (lo <= ref <= hi -> 0 < res -> exists v, erb_frequencies lo hi res ref = Ok v /\ In ref v) /\
  (res <= 0 -> erb_frequencies lo hi res ref = Err ValueError).
Proof.
  intros lo hi res ref. split.
  - intros H Hres. destruct (C91_erb_grid lo hi res ref ltac:(lra) Hres) as (v & E & _ & Hin & _). exists v. split; [exact E|]. apply Hin. split; [exact H|].
    exists 0%Z. ring.
  - intro H. unfold erb_frequencies. destruct (Rle_dec res 0); [reflexivity|contradiction].
Qed.
Print Assumptions C91_erb_reference.

Example C91_erb_ex : 20 <= 20000 /\ 0 < 1 /\ 20 <= 1000 <= 20000. Proof. lra. Qed.
