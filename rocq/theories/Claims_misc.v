(** C92: wrapping of phases, next power of two, logarithmic mean. *)
From Coq Require Import List Arith ZArith Lia Bool Reals Lra.
From Verif Require Import Alg Spec M_delay M_fvec P_arrays Claims_fdw Claims_fvec.
Import ListNotations.
Local Open Scope R_scope.

(** ** wrapping *)

(** A wrapped phase lies in [-pi, pi), differs from the phase by whole turns, and is the only number with both properties. *)
Theorem C92_wrap : forall p q, wrap_phase p = q <-> (- PI <= q < PI /\ exists k, p = q + IZR k * (2 * PI)).
Proof.
  assert (P : 0 < 2 * PI) by (pose proof PI_RGT_0; lra).
  assert (Hw : forall p, - PI <= wrap_phase p < PI /\ exists k, p = wrap_phase p + IZR k * (2 * PI)).
  { intro p. unfold wrap_phase, fmod. pose proof (Int_part_bounds ((p + PI) / (2 * PI))) as B.
    assert (X : (p + PI) / (2 * PI) * (2 * PI) = p + PI) by (field; lra). set (x := (p + PI) / (2 * PI)) in *.
    assert (IZR (Int_part x) * (2 * PI) <= x * (2 * PI)) by (apply Rmult_le_compat_r; lra).
    assert (x * (2 * PI) < (IZR (Int_part x) + 1) * (2 * PI)) by (apply Rmult_lt_compat_r; lra). split; [lra|]. exists (Int_part x). ring. }
  intros p q. split; [intros <-; apply Hw|]. intros (Hq & k & ->). destruct (Hw (q + IZR k * (2 * PI))) as (Hv & j & E). set (w := wrap_phase _) in *.
  assert (D : IZR (j - k) * (2 * PI) = q - w) by (rewrite minus_IZR; lra).
  assert (j - k = 0)%Z.
  { assert (IZR (j - k) < 1) by (apply Rmult_lt_reg_r with (2 * PI); lra). assert (-1 < IZR (j - k)) by (apply Rmult_lt_reg_r with (2 * PI); lra).
    apply lt_IZR in H. apply lt_IZR in H0. lia. }
  rewrite H in D. lra.
Qed.
Print Assumptions C92_wrap.

(** Wrapping twice is wrapping once, whole turns are dropped, and sine and cosine are kept. *)
Theorem C92_wrap_again : forall p k, wrap_phase (wrap_phase p) = wrap_phase p /\ wrap_phase (p + IZR k * (2 * PI)) = wrap_phase p /\
  cos (wrap_phase p) = cos p /\ sin (wrap_phase p) = sin p.
Proof.
  intros p k. destruct (proj1 (C92_wrap p (wrap_phase p)) eq_refl) as (A & j & E). split; [|split; [|]].
  - apply C92_wrap. split; [exact A|]. exists 0%Z. ring.
  - apply C92_wrap. split; [exact A|]. exists (j + k)%Z. rewrite E at 1. rewrite plus_IZR. ring.
  - assert (Hc : forall x n, cos (x + 2 * INR n * PI) = cos x /\ sin (x + 2 * INR n * PI) = sin x) by (intros; split; [apply cos_period|apply sin_period]).
    set (w := wrap_phase p) in *. rewrite E. destruct (Z_le_gt_dec 0 j) as [Hj|Hj].
    + destruct (Hc w (Z.to_nat j)) as (C1 & S1). rewrite INR_IZR_INZ, Z2Nat.id in C1, S1 by exact Hj.
      replace (w + IZR j * (2 * PI)) with (w + 2 * IZR j * PI) by ring. split; symmetry; assumption.
    + destruct (Hc (w + IZR j * (2 * PI)) (Z.to_nat (- j))) as (C1 & S1). rewrite INR_IZR_INZ, Z2Nat.id in C1, S1 by lia. rewrite opp_IZR in C1, S1.
      replace (w + IZR j * (2 * PI) + 2 * - IZR j * PI) with w in C1, S1 by ring. split; assumption.
Qed.
Print Assumptions C92_wrap_again.

(** The upper end is not reached: a phase of pi becomes -pi. *)
Theorem C92_wrap_pi_refuted : wrap_phase PI = - PI.
Proof. apply C92_wrap. pose proof PI_RGT_0. split; [lra|]. exists 1%Z. ring. Qed.
Print Assumptions C92_wrap_pi_refuted.

(** ** powers of two *)

Lemma rp_IZR : forall e, (0 <= e)%Z -> Rpower 2 (IZR e) = IZR (2 ^ e).
Proof.
  intros e He. rewrite <- (Z2Nat.id e He), <- INR_IZR_INZ, Rpower_pow by lra. rewrite pow_IZR. rewrite Z2Nat.id by exact He. reflexivity.
Qed.
Lemma log2_nonneg : forall x, 1 <= x -> 0 <= log2 x.
Proof. intros x Hx. apply log2_ge; [lra|]. rewrite Rpower_O by lra. exact Hx. Qed.

Lemma next_power_run : forall x m, 0 < x -> exists e, 
  (match m with FloorMode => Rpower 2 (IZR e) <= x < Rpower 2 (IZR e + 1) | CeilMode => Rpower 2 (IZR e - 1) < x <= Rpower 2 (IZR e)
   | Closest => True end) /\
  (m <> Closest -> next_power_2 x m = if (e <? 0)%Z then Err ValueError else Ok (2 ^ e)%Z).
Proof.
  intros x m Hx. destruct m.
  - exists 0%Z. split; [exact Logic.I|]. intro H; congruence.
  - exists (Int_part (log2 x)). split.
    + pose proof (Int_part_bounds (log2 x)). rewrite <- (rp_log2 x Hx) at 2 3. rewrite rp_le, rp_lt by lra. exact H.
    + intros _. unfold next_power_2. destruct (Rlt_dec 0 x); [reflexivity|contradiction].
  - exists (ceil (log2 x)). split.
    + pose proof (ceil_bounds (log2 x)). rewrite <- (rp_log2 x Hx) at 2 3. rewrite rp_le, rp_lt by lra. exact H.
    + intros _. unfold next_power_2. destruct (Rlt_dec 0 x); [reflexivity|contradiction].
Qed.

Lemma Int_part_nonneg : forall x, 0 <= x -> (0 <= Int_part x)%Z.
Proof. intros x Hx. pose proof (Int_part_bounds x). assert (-1 < IZR (Int_part x)) by lra. apply lt_IZR in H0. lia. Qed.
Lemma ceil_nonneg : forall x, 0 <= x -> (0 <= ceil x)%Z.
Proof. intros x Hx. pose proof (ceil_bounds x). assert (0 <= IZR (ceil x)) by lra. apply le_IZR, H0. Qed.

(** From one on, the lower power is the largest power of two that is not above the number, the upper power the smallest one that is not below. *)
Theorem C92_powers : forall x, 1 <= x -> exists a b,
  next_power_2 x FloorMode = Ok (2 ^ a)%Z /\ (0 <= a)%Z /\ IZR (2 ^ a) <= x < IZR (2 ^ (a + 1)) /\
  next_power_2 x CeilMode = Ok (2 ^ b)%Z /\ (0 <= b)%Z /\ x <= IZR (2 ^ b) /\ (forall c, (0 <= c)%Z -> x <= IZR (2 ^ c) -> (b <= c)%Z) /\
  (next_power_2 x Closest = Ok (2 ^ a)%Z \/ next_power_2 x Closest = Ok (2 ^ b)%Z).
Proof.
  intros x Hx. assert (Hp : 0 < x) by lra. pose proof (log2_nonneg x Hx) as HL.
  pose proof (Int_part_nonneg _ HL) as Ha. pose proof (ceil_nonneg _ HL) as Hb.
  exists (Int_part (log2 x)), (ceil (log2 x)). pose proof (Int_part_bounds (log2 x)) as Ba. pose proof (ceil_bounds (log2 x)) as Bb.
  assert (Ef : forall m, m <> Closest -> next_power_2 x m = Ok (2 ^ match m with CeilMode => ceil (log2 x) | _ => Int_part (log2 x) end)%Z).
  { intros m Hm. unfold next_power_2. destruct (Rlt_dec 0 x); [|contradiction]. destruct m; [congruence| |].
    - destruct (Z.ltb_spec (Int_part (log2 x)) 0); [lia|reflexivity].
    - destruct (Z.ltb_spec (ceil (log2 x)) 0); [lia|reflexivity]. }
  split; [apply (Ef FloorMode); discriminate|]. split; [exact Ha|]. split.
  { rewrite <- !rp_IZR by lia. rewrite <- (rp_log2 x Hp) at 2 3. rewrite rp_le, rp_lt by lra. rewrite plus_IZR. exact Ba. }
  split; [apply (Ef CeilMode); discriminate|]. split; [exact Hb|]. split.
  { rewrite <- rp_IZR by lia. apply log2_le; [exact Hp|apply Bb]. }
  split.
  { intros c Hc H. rewrite <- rp_IZR in H by exact Hc. apply log2_le in H; [|exact Hp]. assert (IZR (ceil (log2 x)) - 1 < IZR c) by lra.
    rewrite <- minus_IZR in H0. apply lt_IZR in H0. lia. }
  assert (Ec : next_power_2 x Closest = next_power_2 x FloorMode \/ next_power_2 x Closest = next_power_2 x CeilMode).
  { unfold next_power_2. destruct (Rlt_dec 0 x); [|contradiction]. destruct (Rlt_dec (log2 x - IZR (truncate (log2 x))) (1 / 2)); [left|right]; reflexivity. }
  destruct Ec as [-> | ->]; [left|right]; apply Ef; discriminate.
Qed.
Print Assumptions C92_powers.

(** spec: the exact rule of the closest power: the bound between 2^a and 2^(a+1) is 2^(a + 1/2) *)
Theorem C92_closest_rule : forall x a, (0 <= a)%Z -> IZR (2 ^ a) <= x < IZR (2 ^ (a + 1)) ->
  next_power_2 x Closest = Ok (if Rlt_dec x (sqrt 2 * IZR (2 ^ a)) then 2 ^ a else 2 ^ (a + 1))%Z.
Proof.
  intros x a Ha Hx. rewrite <- !rp_IZR in Hx by lia. assert (Hp : 0 < x) by (pose proof (Rpower_pos 2 (IZR a)); lra).
  assert (B : IZR a <= log2 x < IZR a + 1).
  { rewrite <- (rp_log2 x Hp) in Hx. rewrite rp_le, rp_lt, plus_IZR in Hx by lra. exact Hx. }
  assert (Hf : Int_part (log2 x) = a) by (apply Int_part_unique, B).
  assert (Ht : truncate (log2 x) = a).
  { unfold truncate. destruct (Rlt_dec (log2 x) 0); [|exact Hf]. apply IZR_le in Ha. lra. }
  assert (Hs : x < sqrt 2 * IZR (2 ^ a) <-> log2 x - IZR a < 1 / 2).
  { rewrite <- rp_IZR by exact Ha. rewrite <- Rpower_sqrt by lra. rewrite <- Rpower_plus. rewrite <- (rp_log2 x Hp) at 1. rewrite rp_lt by lra. lra. }
  unfold next_power_2. destruct (Rlt_dec 0 x); [|contradiction]. rewrite Ht, Hf.
  destruct (Rlt_dec (log2 x - IZR a) (1 / 2)) as [D|D]; destruct (Rlt_dec x (sqrt 2 * IZR (2 ^ a))) as [E|E]; try (exfalso; tauto).
  - destruct (Z.ltb_spec a 0); [lia|]. reflexivity.
  - assert (Hc : ceil (log2 x) = (a + 1)%Z).
    { pose proof (ceil_bounds (log2 x)). assert (IZR (ceil (log2 x)) < IZR (a + 2)) by (rewrite plus_IZR; lra). apply lt_IZR in H0.
      assert (IZR a < IZR (ceil (log2 x))) by lra. apply lt_IZR in H1. lia. }
    rewrite Hc. destruct (Z.ltb_spec (a + 1) 0); [lia|]. reflexivity.
Qed.
Print Assumptions C92_closest_rule.

(** So the closest power is not the nearest number: at every scale, numbers between sqrt 2 and 3/2 times a power get the upper one although
    the lower one is nearer. *)
Theorem C92_closest_refuted : forall a, (0 <= a)%Z -> let x := 29 / 20 * IZR (2 ^ a) in
  next_power_2 x Closest = Ok (2 ^ (a + 1))%Z /\ Rabs (x - IZR (2 ^ a)) < Rabs (x - IZR (2 ^ (a + 1))).
Proof.
  intros a Ha x. assert (Hp : 0 < IZR (2 ^ a)) by (apply IZR_lt, Z.pow_pos_nonneg; lia).
  assert (E : IZR (2 ^ (a + 1)) = 2 * IZR (2 ^ a)) by (rewrite Z.pow_add_r, mult_IZR by lia; change (IZR (2 ^ 1)) with 2; ring).
  split.
  - rewrite (C92_closest_rule x a Ha) by (unfold x; rewrite E; lra). destruct (Rlt_dec x (sqrt 2 * IZR (2 ^ a))) as [H|]; [|reflexivity]. exfalso.
    unfold x in H. apply Rmult_lt_reg_r in H; [|exact Hp]. assert (sqrt 2 < 29 / 20); [|lra].
    rewrite <- (sqrt_Rsqr (29 / 20)) by lra. apply sqrt_lt_1_alt. unfold Rsqr. lra.
  - unfold x. rewrite E. rewrite (Rabs_pos_eq (29 / 20 * IZR (2 ^ a) - IZR (2 ^ a))) by lra. rewrite Rabs_left by lra. lra.
Qed.
Print Assumptions C92_closest_refuted.

(** Numbers below one have no power: the lower and the closest mode raise for all of them, although 1 is a power of two, and the upper mode
    raises up to 1/2. *)
Theorem C92_below_one_refuted : forall x, 0 < x < 1 -> next_power_2 x Closest = Err ValueError /\ next_power_2 x FloorMode = Err ValueError /\
  next_power_2 x CeilMode = (if Rle_dec x (1 / 2) then Err ValueError else Ok 1%Z).
Proof.
  intros x (H0 & H1). assert (HL : log2 x < 0) by (apply (rp_lt 2); [lra|]; rewrite rp_log2, Rpower_O by lra; exact H1).
  assert (Hf : (Int_part (log2 x) < 0)%Z) by (pose proof (Int_part_bounds (log2 x)); apply lt_IZR; lra).
  assert (Ef : next_power_2 x FloorMode = Err ValueError).
  { unfold next_power_2. destruct (Rlt_dec 0 x); [|contradiction]. destruct (Z.ltb_spec (Int_part (log2 x)) 0); [reflexivity|lia]. }
  split; [|split; [exact Ef|]].
  - rewrite <- Ef. unfold next_power_2. destruct (Rlt_dec 0 x); [|contradiction].
    destruct (Rlt_dec (log2 x - IZR (truncate (log2 x))) (1 / 2)) as [|D]; [reflexivity|]. exfalso. apply D. unfold truncate.
    destruct (Rlt_dec (log2 x) 0); [|contradiction]. pose proof (ceil_bounds (log2 x)). lra.
  - unfold next_power_2. destruct (Rlt_dec 0 x); [|contradiction]. pose proof (ceil_bounds (log2 x)) as B.
    assert (Hh : x <= 1 / 2 <-> log2 x <= -1).
    { assert (E2 : Rpower 2 (-1) = 1 / 2) by (replace (-1) with (Ropp 1) by lra; rewrite Rpower_Ropp, Rpower_1 by lra; lra). rewrite <- E2. rewrite log2_le by exact H0. reflexivity. }
    destruct (Rle_dec x (1 / 2)) as [D|D].
    + apply Hh in D. assert ((ceil (log2 x) < 0)%Z) by (apply lt_IZR; lra). destruct (Z.ltb_spec (ceil (log2 x)) 0); [reflexivity|lia].
    + assert (-1 < log2 x) by (apply Rnot_le_lt; tauto). assert (-1 < IZR (ceil (log2 x))) by lra. assert (IZR (ceil (log2 x)) < 1) by lra.
      apply lt_IZR in H2. apply lt_IZR in H3. replace (ceil (log2 x)) with 0%Z by lia. reflexivity.
Qed.
Print Assumptions C92_below_one_refuted.

Theorem C92_not_positive : forall x m, x <= 0 -> next_power_2 x m = Err AssertionError.
Proof. intros x m H. unfold next_power_2. destruct (Rlt_dec 0 x); [lra|reflexivity]. Qed.
Print Assumptions C92_not_positive.

Example C92_powers_ex : 1 <= 1000 /\ (0 <= 9)%Z /\ IZR (2 ^ 9) <= 1000 < IZR (2 ^ (9 + 1)). Proof. cbn. repeat split; try lra; lia. Qed.

(** ** logarithmic mean *)

(** spec: the arithmetic mean, and order of the entries *)
Definition mean (x : list R) : R := fold_right Rplus 0 x / INR (length x).
Definition nondecreasing (x : list R) : Prop := forall i j, (i <= j < length x)%nat -> nth i x 0 <= nth j x 0.

Definition knot (N : nat) (k : R) : nat := Nat.min (Z.to_nat (Int_part k)) (N - 1).
Lemma knot_spec : forall N k, (2 <= N)%nat -> 1 <= k <= INR N -> (1 <= knot N k <= N - 1)%nat /\ 0 <= k - INR (knot N k) <= 1.
Proof.
  intros N k HN Hk. unfold knot. pose proof (Int_part_bounds k) as B.
  assert (H1 : (1 <= Int_part k)%Z) by (assert (0 < IZR (Int_part k)) by lra; apply lt_IZR in H; lia).
  split; [lia|]. destruct (le_lt_dec (Z.to_nat (Int_part k)) (N - 1)) as [H|H].
  - rewrite Nat.min_l by exact H. rewrite INR_IZR_INZ, Z2Nat.id by lia. lra.
  - rewrite Nat.min_r by lia. assert (INR (N - 1) = INR N - 1) by (rewrite minus_INR by lia; reflexivity). rewrite H0.
    assert (IZR (Z.of_nat N) <= IZR (Int_part k)) by (apply IZR_le; lia). rewrite <- INR_IZR_INZ in H2. lra.
Qed.
Lemma knot_mono : forall N k k', 1 <= k -> k <= k' -> (knot N k <= knot N k')%nat.
Proof.
  intros N k k' H1 H. unfold knot. pose proof (Int_part_bounds k). pose proof (Int_part_bounds k').
  assert (IZR (Int_part k) < IZR (Int_part k' + 1)) by (rewrite plus_IZR; lra). apply lt_IZR in H3. lia.
Qed.
Lemma polygon_eq : forall x k, polygon x k = nth (knot (length x) k - 1) x 0 + (k - INR (knot (length x) k)) * (nth (knot (length x) k) x 0 - nth (knot (length x) k - 1) x 0).
Proof. reflexivity. Qed.
Lemma polygon_between : forall x k a b, (2 <= length x)%nat -> 1 <= k <= INR (length x) -> (forall i, (i < length x)%nat -> a <= nth i x 0 <= b) ->
  a <= polygon x k <= b.
Proof.
  intros x k a b HN Hk H. destruct (knot_spec _ k HN Hk) as (J & T). rewrite polygon_eq. set (j := knot _ _) in *.
  pose proof (H j ltac:(lia)). pose proof (H (j - 1)%nat ltac:(lia)). set (t := k - INR j) in *. set (u := nth (j - 1) x 0) in *. set (v := nth j x 0) in *.
  split; nra.
Qed.
Lemma polygon_mono : forall x k k', (2 <= length x)%nat -> nondecreasing x -> 1 <= k -> k <= k' -> k' <= INR (length x) -> polygon x k <= polygon x k'.
Proof.
  intros x k k' HN M H1 Hkk H2. destruct (knot_spec _ k HN ltac:(lra)) as (J & T). destruct (knot_spec _ k' HN ltac:(lra)) as (J' & T').
  pose proof (knot_mono (length x) k k' H1 Hkk) as Hm. rewrite !polygon_eq. set (j := knot _ k) in *. set (j' := knot _ k') in *.
  pose proof (M (j - 1)%nat j ltac:(lia)). pose proof (M (j' - 1)%nat j' ltac:(lia)).
  destruct (Nat.eq_dec j j') as [E|E].
  - rewrite <- E in *. nra.
  - pose proof (M j (j' - 1)%nat ltac:(lia)). set (u := nth (j - 1) x 0) in *. set (v := nth j x 0) in *. set (u' := nth (j' - 1) x 0) in *. set (v' := nth j' x 0) in *.
    assert (u + (k - INR j) * (v - u) <= v) by nra. assert (u' <= u' + (k' - INR j') * (v' - u')) by nra. lra.
Qed.
Lemma polygon_knot : forall x l, (2 <= length x)%nat -> (l < length x)%nat -> polygon x (INR l + 1) = nth l x 0.
Proof.
  intros x l HN Hl. rewrite polygon_eq. unfold knot. rewrite (Int_part_unique (INR l + 1) (Z.of_nat l + 1)) by (rewrite plus_IZR, <- INR_IZR_INZ; lra).
  replace (Z.to_nat (Z.of_nat l + 1)) with (S l) by lia. destruct (le_lt_dec (S l) (length x - 1)) as [H|H].
  - rewrite Nat.min_l by exact H. rewrite S_INR. replace (S l - 1)%nat with l by lia. ring.
  - rewrite Nat.min_r by lia. replace (length x - 1)%nat with l by lia. ring.
Qed.

(** the positions at which the data are read *)
Definition place (N l : nat) : R := Rpower (INR N) (INR l / (INR N - 1)).
Lemma place_range : forall N l, (2 <= N)%nat -> (l < N)%nat -> 1 <= place N l <= INR l + 1 /\ place N l <= INR N.
Proof.
  intros N l HN Hl. assert (H2 : 2 <= INR N) by (apply (le_INR 2), HN). assert (HlN : INR l + 1 <= INR N) by (rewrite <- S_INR; apply le_INR; lia).
  pose proof (pos_INR l). set (s := INR l / (INR N - 1)). assert (Es : s * (INR N - 1) = INR l) by (unfold s; field; lra).
  assert (S0 : 0 <= s) by (unfold s; apply Rmult_le_pos; [lra|apply Rlt_le, Rinv_0_lt_compat; lra]).
  assert (S1 : s <= 1) by (apply Rmult_le_reg_r with (INR N - 1); lra). unfold place. fold s.
  assert (L1 : 1 <= Rpower (INR N) s) by (rewrite <- (Rpower_O (INR N)) at 1 by lra; apply rp_le; lra).
  assert (L2 : Rpower (INR N) s <= 1 + s * (INR N - 1)).
  { unfold Rpower. set (a := ln (INR N)). assert (Ea : exp a = INR N) by (unfold a; apply exp_ln; lra). rewrite <- Ea. set (v := s * a).
    assert (T : forall u, exp v * (1 + (u - v)) <= exp u).
    { intro u. replace u with (v + (u - v)) at 2 by ring. rewrite exp_plus. apply Rmult_le_compat_l; [apply Rlt_le, exp_pos|].
      destruct (Req_dec (u - v) 0) as [->|Hne]; [rewrite exp_0; lra|]. pose proof (exp_ineq1 (u - v) Hne). lra. }
    pose proof (T a) as Ta. pose proof (T 0) as T0. rewrite exp_0 in T0. assert (s * (exp v * (1 + (a - v))) <= s * exp a) by (apply Rmult_le_compat_l; assumption).
    assert ((1 - s) * (exp v * (1 + (0 - v))) <= (1 - s) * 1) by (apply Rmult_le_compat_l; lra).
    assert (s * (exp v * (1 + (a - v))) + (1 - s) * (exp v * (1 + (0 - v))) = exp v) by (unfold v; ring). lra. }
  split; [split; lra|lra].
Qed.
Lemma log_mean_eq : forall x, log_mean x = fold_right Rplus 0 (map (fun l => polygon x (place (length x) l)) (seq 0 (length x))) / INR (length x).
Proof. reflexivity. Qed.
Lemma mean_eq : forall x, mean x = fold_right Rplus 0 (map (fun l => nth l x 0) (seq 0 (length x))) / INR (length x).
Proof. intro x. unfold mean. do 2 f_equal. apply list_eq_nth with (d := 0); [rewrite map_length, seq_length; reflexivity|].
  intros i Hi. rewrite (nth_map' _ _ _ 0%nat 0) by (rewrite seq_length; exact Hi). rewrite seq_nth by exact Hi. reflexivity. Qed.
Lemma sum_mono : forall (f g : nat -> R) l, (forall i, In i l -> f i <= g i) -> fold_right Rplus 0 (map f l) <= fold_right Rplus 0 (map g l).
Proof. intros f g l H. induction l as [|a l IH]; cbn; [lra|]. pose proof (H a ltac:(left; reflexivity)). assert (forall i, In i l -> f i <= g i) by (intros; apply H; right; assumption). specialize (IH H1). lra. Qed.
Lemma sum_const : forall c n s, fold_right Rplus 0 (map (fun _ : nat => c) (seq s n)) = INR n * c.
Proof. induction n as [|n IH]; intro s; [cbn; ring|]. cbn [seq map fold_right]. rewrite IH, S_INR. ring. Qed.

(** The logarithmic mean lies between the smallest and the largest entry; so a constant is kept. *)
Theorem C92_log_mean_range : forall x a b, (2 <= length x)%nat -> (forall i, (i < length x)%nat -> a <= nth i x 0 <= b) -> a <= log_mean x <= b.
Proof.
  intros x a b HN H. assert (H2 : 2 <= INR (length x)) by (apply (le_INR 2), HN). rewrite log_mean_eq.
  assert (K : forall l, In l (seq 0 (length x)) -> a <= polygon x (place (length x) l) <= b).
  { intros l Hl. apply in_seq in Hl. destruct (place_range (length x) l HN ltac:(lia)). apply polygon_between; [exact HN|lra|exact H]. }
  pose proof (sum_mono (fun _ => a) _ _ (fun l Hl => proj1 (K l Hl))) as A. pose proof (sum_mono _ (fun _ => b) _ (fun l Hl => proj2 (K l Hl))) as B.
  rewrite sum_const in A, B. set (s := fold_right Rplus 0 _) in *.
  split; apply Rmult_le_reg_r with (INR (length x)); try lra; unfold Rdiv; rewrite Rmult_assoc, Rinv_l by lra; lra.
Qed.
Print Assumptions C92_log_mean_range.

(** It weighs the front: for data that do not decrease it is at most the arithmetic mean. *)
Theorem C92_log_mean_front : forall x, (2 <= length x)%nat -> nondecreasing x -> log_mean x <= mean x.
Proof.
  intros x HN M. assert (H2 : 2 <= INR (length x)) by (apply (le_INR 2), HN). rewrite log_mean_eq, mean_eq. apply Rmult_le_compat_r; [apply Rlt_le, Rinv_0_lt_compat; lra|].
  apply sum_mono. intros l Hl. apply in_seq in Hl. destruct (place_range (length x) l HN ltac:(lia)) as (A & B). rewrite <- (polygon_knot x l HN) by lia.
  assert (INR l + 1 <= INR (length x)) by (rewrite <- S_INR; apply le_INR; lia). apply polygon_mono; lra || assumption.
Qed.
Print Assumptions C92_log_mean_front.

(** It is linear in the data. *)
Theorem C92_log_mean_linear : forall x y a b, (2 <= length x)%nat -> length y = length x ->
  forall z, length z = length x -> (forall i, (i < length x)%nat -> nth i z 0 = a * nth i x 0 + b * nth i y 0) ->
  log_mean z = a * log_mean x + b * log_mean y.
Proof.
  intros x y a b HN Ly z Lz H. assert (H2 : 2 <= INR (length x)) by (apply (le_INR 2), HN). rewrite !log_mean_eq. rewrite Lz, Ly.
  assert (K : forall l, In l (seq 0 (length x)) -> polygon z (place (length x) l) = a * polygon x (place (length x) l) + b * polygon y (place (length x) l)).
  { intros l Hl. apply in_seq in Hl. destruct (place_range (length x) l HN ltac:(lia)) as (A & B). rewrite !polygon_eq. rewrite Lz, Ly.
    destruct (knot_spec (length x) (place (length x) l) HN ltac:(lra)) as (J & _). rewrite !H by lia. ring. }
  rewrite (map_ext_in _ _ _ K). clear K H Lz z.
  assert (S0 : forall f g (L : list nat), fold_right Rplus 0 (map (fun l => a * f l + b * g l) L) = a * fold_right Rplus 0 (map f L) + b * fold_right Rplus 0 (map g L)).
  { intros f g L. induction L as [|i L IH]; cbn; [ring|]. rewrite IH. ring. }
  rewrite S0. field. lra.
Qed.
Print Assumptions C92_log_mean_linear.

(** What is read: N places, each a fixed ratio N^(1/(N-1)) after the last, from the first entry to the last one. On data growing by one, the
    mean is the mean of these places. *)
Theorem C92_log_mean_ramp : forall x c, (2 <= length x)%nat -> (forall i, (i < length x)%nat -> nth i x 0 = c + INR i) ->
  exists p : nat -> R, p 0%nat = 1 /\ p (length x - 1)%nat = INR (length x) /\ (forall l, p (S l) = p l * Rpower (INR (length x)) (1 / (INR (length x) - 1))) /\
    log_mean x = c - 1 + fold_right Rplus 0 (map p (seq 0 (length x))) / INR (length x).
Proof.
  intros x c HN H. assert (H2 : 2 <= INR (length x)) by (apply (le_INR 2), HN). exists (place (length x)). unfold place at 1 2 3 4. split; [|split; [|split]].
  - cbn [INR]. replace (0 / (INR (length x) - 1)) with 0 by (field; lra). apply Rpower_O. lra.
  - rewrite minus_INR by lia. cbn [INR]. replace ((INR (length x) - 1) / (INR (length x) - 1)) with 1 by (field; lra). apply Rpower_1. lra.
  - intro l. rewrite <- Rpower_plus. f_equal. rewrite S_INR. field. lra.
  - rewrite log_mean_eq. assert (K : forall l, In l (seq 0 (length x)) -> polygon x (place (length x) l) = 1 * place (length x) l + (c - 1) * 1).
    { intros l Hl. apply in_seq in Hl. destruct (place_range (length x) l HN ltac:(lia)) as (A & B). rewrite polygon_eq.
      destruct (knot_spec (length x) (place (length x) l) HN ltac:(lra)) as (J & _). rewrite !H by lia. rewrite minus_INR by lia. cbn [INR]. ring. }
    rewrite (map_ext_in _ _ _ K).
    assert (S0 : forall f (L : list nat), fold_right Rplus 0 (map (fun l => 1 * f l + (c - 1) * 1) L) = fold_right Rplus 0 (map f L) + INR (length L) * (c - 1)).
    { intros f L. induction L as [|i L IH]; [cbn; ring|]. cbn [map fold_right length]. rewrite IH, S_INR. ring. }
    rewrite S0, seq_length. field. lra.
Qed.
Print Assumptions C92_log_mean_ramp.

Example C92_log_mean_ex : (2 <= length [1; 2; 3])%nat /\ nondecreasing [1; 2; 3] /\ (forall i, (i < length [1; 2; 3])%nat -> nth i [1; 2; 3] 0 = 1 + INR i).
Proof.
  split; [cbn; lia|]. split.
  - intros i j H. cbn [length] in H. destruct i as [|[|[|i]]]; destruct j as [|[|[|j]]]; cbn; try lra; lia.
  - intros i H. cbn [length] in H. destruct i as [|[|[|i]]]; cbn; try lra; lia.
Qed.
