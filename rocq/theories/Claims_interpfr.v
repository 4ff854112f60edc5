(** Property C114: interpolation of a frequency response. *)
From Coq Require Import List Arith Lia ZArith Bool Reals Lra Psatz.
From Verif Require Import Alg Spec M_arrays M_signal M_level M_spectrum P_spectrum M_rirconv Claims_rirconv M_smoothing Claims_smoothing M_interpfr.
Import ListNotations.
Local Open Scope R_scope.

(** ** Specification *)
(** the quantity that is interpolated linearly in each mode; decibels are logarithms *)
Definition measure (m : fr_mode) (v : R) : R :=
  match m with
  | NoMode | Unknown => v
  | Power2Amplitude => sqrt v
  | Amplitude2Power => v * v
  | Db2 amp => exp (v * ln 10 / (if amp then 20 else 10))
  | To2Db _ => ln v
  end.
(** values the mode can represent: no negative powers and amplitudes, no amplitude or power under the smallest normal number 2^-1022 where decibels are used *)
Definition admissible (m : fr_mode) (v : R) : Prop :=
  match m with
  | NoMode | Unknown => True
  | Power2Amplitude | Amplitude2Power => 0 <= v
  | Db2 amp => / 2 ^ 1022 <= exp (v * ln 10 / (if amp then 20 else 10))
  | To2Db _ => / 2 ^ 1022 <= v
  end.

(** ** Conversions *)
Lemma tiny_pos : 0 < smallest_normal.
Proof. unfold smallest_normal. apply Rinv_0_lt_compat, pow_lt. lra. Qed.
Lemma ln10_pos : 0 < ln 10.
Proof. rewrite <- ln_1. apply ln_increasing; lra. Qed.
Lemma from_db_exp amp v : from_db amp v = exp (v * ln 10 / (if amp then 20 else 10)).
Proof. unfold from_db, db_factor, Rpower. f_equal. destruct amp; field. Qed.
Lemma level_ln amp v : smallest_normal <= v -> level amp v = (if amp then 20 else 10) / ln 10 * ln v.
Proof.
  intros H. pose proof tiny_pos. pose proof ln10_pos. unfold level, db_factor. rewrite Rabs_pos_eq by lra. rewrite Rmax_left by auto. destruct amp; field; lra.
Qed.
Lemma measure_lt m v w : admissible m v -> admissible m w -> v < w -> measure m v < measure m w.
Proof.
  pose proof tiny_pos as T. pose proof ln10_pos. unfold smallest_normal in T. destruct m as [| | |amp|amp|]; cbn [admissible measure]; intros A B L; auto; try nra.
  - apply sqrt_lt_1_alt. lra.
  - apply exp_increasing. destruct amp; unfold Rdiv; nra.
  - apply ln_increasing; lra.
Qed.
Lemma measure_le m v w : admissible m v -> admissible m w -> measure m v <= measure m w -> v <= w.
Proof. intros A B L. apply Rnot_lt_le. intros N. apply (measure_lt m) in N; auto. lra. Qed.
(** the scale on which the code interpolates is the measure up to a positive factor *)
Definition slope_of (m : fr_mode) : R := match m with To2Db amp => (if amp then 20 else 10) / ln 10 | _ => 1 end.
Lemma convert_ok m v : m <> Unknown -> admissible m v -> convert m v = Some (slope_of m * measure m v).
Proof.
  intros U A. destruct m as [| | |amp|amp|]; cbn [convert slope_of measure admissible] in *; try congruence.
  - f_equal. ring.
  - destruct (Rlt_dec v 0); [lra|]. f_equal. ring.
  - f_equal. ring.
  - rewrite from_db_exp. f_equal. ring.
  - now rewrite level_ln.
Qed.
Lemma convert_back_ok m v w u : m <> Unknown -> admissible m v -> admissible m w -> 0 <= u <= 1 ->
  exists r, convert_back m (slope_of m * ((1 - u) * measure m v + u * measure m w)) = Some r /\ admissible m r /\ measure m r = (1 - u) * measure m v + u * measure m w.
Proof.
  intros N A B U. pose proof tiny_pos as T. pose proof ln10_pos as L. unfold smallest_normal in T. set (x := (1 - u) * measure m v + u * measure m w).
  destruct m as [| | |amp|amp|]; cbn [convert_back slope_of measure admissible] in *; try congruence.
  - eexists. split; [reflexivity|]. split; auto. ring.
  - assert (0 <= x) by (unfold x; pose proof (sqrt_pos v); pose proof (sqrt_pos w); nra). eexists. split; [reflexivity|]. split; [apply pow2_ge_0|]. rewrite Rmult_1_l, <- Rsqr_pow2. now apply sqrt_Rsqr.
  - assert (0 <= x) by (unfold x; nra). rewrite Rmult_1_l. destruct (Rlt_dec x 0); [lra|]. eexists. split; [reflexivity|]. split; [apply sqrt_pos|now apply sqrt_sqrt].
  - assert (X : / 2 ^ 1022 <= x) by (unfold x; nra). rewrite Rmult_1_l. eexists. split; [reflexivity|]. rewrite level_ln by exact X.
    assert (E : exp ((if amp then 20 else 10) / ln 10 * ln x * ln 10 / (if amp then 20 else 10)) = x).
    { replace ((if amp then 20 else 10) / ln 10 * ln x * ln 10 / (if amp then 20 else 10)) with (ln x) by (destruct amp; field; lra). apply exp_ln. lra. }
    now rewrite E.
  - eexists. split; [reflexivity|]. rewrite from_db_exp. replace ((if amp then 20 else 10) / ln 10 * x * ln 10 / (if amp then 20 else 10)) with x by (destruct amp; field; lra).
    split; [|apply ln_exp]. rewrite <- (exp_ln (/ 2 ^ 1022)) by auto. assert (Q : ln (/ 2 ^ 1022) <= x).
    { assert (ln (/ 2 ^ 1022) <= ln v) by (destruct A as [A|<-]; [apply Rlt_le, ln_increasing; lra|lra]). assert (ln (/ 2 ^ 1022) <= ln w) by (destruct B as [B|<-]; [apply Rlt_le, ln_increasing; lra|lra]). unfold x. set (z := ln (/ 2 ^ 1022)) in *. clearbody z. nra. }
    destruct Q as [Q|<-]; [apply Rlt_le, exp_increasing; exact Q|lra].
Qed.
(** ** Linear interpolation *)
Lemma interp_segment g y t k : asc g -> (S k < length g)%nat -> nth k g 0 <= t <= nth (S k) g 0 ->
  interp g y t = let u := (t - nth k g 0) / (nth (S k) g 0 - nth k g 0) in (1 - u) * nth k y 0 + u * nth (S k) y 0.
Proof.
  intros A K T. pose proof (A k (S k) ltac:(lia) K) as G. cbv zeta.
  assert (GE : forall i, (i < length g)%nat -> nth i g 0 < t -> (i <= k)%nat).
  { intros i I L. apply Nat.nlt_ge. intros Q. destruct (Nat.eq_dec i (S k)) as [->|]; [lra|]. pose proof (A (S k) i ltac:(lia) I). lra. }
  assert (S1 : (search g t <= S k)%nat).
  { apply Nat.nlt_ge. intros Q. pose proof (search_lt g t (S k) Q) as X. unfold get in X. cbn [r0 CRing_R] in X. lra. }
  assert (S2 : nth k g 0 < t -> search g t = S k).
  { intros L. destruct (Nat.eq_dec (search g t) (S k)); auto. exfalso. pose proof (search_ge g t ltac:(lia)) as X. unfold get in X. cbn [r0 CRing_R] in X.
    destruct (Nat.eq_dec (search g t) k) as [E|]; [rewrite E in X; lra|]. pose proof (A (search g t) k ltac:(lia) ltac:(lia)). lra. }
  unfold interp, get. cbn [r0 CRing_R]. destruct (Rlt_dec (nth k g 0) t) as [L|L].
  - rewrite S2 by auto. replace (Nat.min (Nat.max (S k) 1) (length g - 1)) with (S k) by lia. replace (S k - 1)%nat with k by lia. field. lra.
  - assert (E : t = nth k g 0) by lra. assert (S3 : search g t = k).
    { destruct (Nat.lt_trichotomy (search g t) k) as [Q|[Q|Q]]; auto; exfalso.
      - pose proof (search_ge g t ltac:(lia)) as X. unfold get in X. cbn [r0 CRing_R] in X. pose proof (A (search g t) k Q ltac:(lia)). lra.
      - pose proof (search_lt g t k Q) as X. unfold get in X. cbn [r0 CRing_R] in X. lra. }
    rewrite S3. subst t. destruct k as [|k].
    + replace (Nat.min (Nat.max 0 1) (length g - 1)) with 1%nat by lia. cbn [Nat.sub]. field. lra.
    + replace (Nat.min (Nat.max (S k) 1) (length g - 1)) with (S k) by lia. replace (S k - 1)%nat with k by lia. pose proof (A k (S k) ltac:(lia) ltac:(lia)). field. lra.
Qed.
Lemma all_some_nth {X Y} (h : X -> option Y) l d : (forall x, In x l -> exists r, h x = Some r) -> exists rs, all_some (map h l) = Some rs /\ length rs = length l /\
  forall i dx, (i < length l)%nat -> h (nth i l dx) = Some (nth i rs d).
Proof.
  induction l as [|x l IH]; intros H.
  - exists []. repeat split. cbn. lia.
  - destruct (H x (or_introl eq_refl)) as (r & E). destruct IH as (rs & A & B & C). { intros. apply H. now right. }
    exists (r :: rs). cbn. rewrite E, A. cbn. repeat split; auto. intros [|i] dx I; auto. apply C. lia.
Qed.
Lemma segment g t : asc g -> (2 <= length g)%nat -> nth 0 g 0 <= t <= nth (length g - 1) g 0 -> exists k, (S k < length g)%nat /\ nth k g 0 <= t <= nth (S k) g 0.
Proof.
  intros A L T. assert (Q : forall n, (S n < length g)%nat -> t <= nth (S n) g 0 -> exists k, (k <= n)%nat /\ nth k g 0 <= t <= nth (S k) g 0).
  { induction n; intros N H.
    - exists 0%nat. split; [lia|]. lra.
    - destruct (Rle_dec (nth (S n) g 0) t); [exists (S n); split; [lia|lra]|]. destruct IHn as (k & K & X); [lia|lra|]. exists k. split; [lia|auto]. }
  destruct (Q (length g - 2)%nat) as (k & K & X); [lia|replace (S (length g - 2)) with (length g - 1)%nat by lia; lra|]. exists k. split; [lia|auto].
Qed.

(** ** Theorems *)
(** The result has one value per target. Within the frequency vector it is the value whose measure lies on the line between the measures of the two
    neighbours, so it is between them and exact at the frequencies of the vector. Outside it is 0, the value at the edge when decibels are
    interpolated, or the level of the smallest normal number when decibels are converted to amplitude or power. *)
Definition outside (m : fr_mode) (edge : R) : R :=
  match m with Db2 amp => (if amp then 20 else 10) * (ln (/ 2 ^ 1022) / ln 10) | To2Db _ => edge | _ => 0 end.
Theorem C114_interpolation m f v target : m <> Unknown -> asc f -> (2 <= length f)%nat -> length v = length f -> (forall i, (i < length v)%nat -> admissible m (nth i v 0)) ->
  exists rs, interpolate_fr m f v target = Ok (Some rs) /\ length rs = length target /\
    forall i, (i < length target)%nat -> let t := nth i target 0 in let r := nth i rs 0 in
      (forall k, (S k < length f)%nat -> nth k f 0 <= t <= nth (S k) f 0 -> let u := (t - nth k f 0) / (nth (S k) f 0 - nth k f 0) in
         admissible m r /\ measure m r = (1 - u) * measure m (nth k v 0) + u * measure m (nth (S k) v 0)) /\
      (t < nth 0 f 0 -> r = outside m (nth 0 v 0)) /\ (nth (length f - 1) f 0 < t -> r = outside m (nth (length v - 1) v 0)).
Proof.
  intros U A L LV AD. pose proof tiny_pos as TP. pose proof ln10_pos as LP.
  assert (CV : forall x, In x v -> convert m x = Some (slope_of m * measure m x)). { intros x X. apply (In_nth _ _ 0) in X. destruct X as (i & I & <-). apply convert_ok; auto. }
  set (y := map (fun x => slope_of m * measure m x) v). assert (Y : all_some (map (convert m) v) = Some y) by (now apply all_some_map).
  assert (YN : forall i, (i < length v)%nat -> nth i y 0 = slope_of m * measure m (nth i v 0)) by (intros i I; unfold y; now rewrite (nth_map' _ _ _ 0 0)).
  assert (YL : length y = length v) by apply map_length.
  set (lr := fill m y). set (h := fun t => convert_back m (if Rlt_dec t (nth 0 f 0) then fst lr else if Rlt_dec (nth (length f - 1) f 0) t then snd lr else interp f y t)).
  assert (GO : interpolate_fr m f v target = Ok (all_some (map h target))). { unfold interpolate_fr. rewrite Y. fold lr. destruct m; try congruence; destruct lr; reflexivity. }
  assert (OUT : forall j, (j < length v)%nat -> convert_back m (match m with To2Db _ => nth j y 0 | _ => 0 end) = Some (outside m (nth j v 0))).
  { intros j J. pose proof (AD j J) as Aj. rewrite YN by auto. destruct m as [| | |amp|amp|]; cbn [convert_back outside slope_of measure admissible] in *; try congruence.
    - f_equal. ring.
    - destruct (Rlt_dec 0 0); [lra|]. now rewrite sqrt_0.
    - unfold level. rewrite Rabs_R0, Rmax_right by lra. unfold db_factor, smallest_normal. reflexivity.
    - rewrite from_db_exp. f_equal. unfold smallest_normal in TP. replace ((if amp then 20 else 10) / ln 10 * ln (nth j v 0) * ln 10 / (if amp then 20 else 10)) with (ln (nth j v 0)) by (destruct amp; field; lra). apply exp_ln. lra. }
  assert (LOW : forall t, t < nth 0 f 0 -> h t = Some (outside m (nth 0 v 0))).
  { intros t T. unfold h. destruct (Rlt_dec t (nth 0 f 0)); [|lra]. rewrite <- (OUT 0%nat) by lia. unfold lr, fill. destruct m; reflexivity. }
  assert (MONO : nth 0 f 0 < nth (length f - 1) f 0) by (apply A; lia).
  assert (HIGH : forall t, nth (length f - 1) f 0 < t -> h t = Some (outside m (nth (length v - 1) v 0))).
  { intros t T. unfold h. destruct (Rlt_dec t (nth 0 f 0)); [lra|]. destruct (Rlt_dec (nth (length f - 1) f 0) t); [|lra]. rewrite <- (OUT (length v - 1)%nat) by lia. unfold lr, fill. rewrite YL. destruct m; reflexivity. }
  assert (IN : forall t k, (S k < length f)%nat -> nth k f 0 <= t <= nth (S k) f 0 -> let u := (t - nth k f 0) / (nth (S k) f 0 - nth k f 0) in
    exists r, h t = Some r /\ admissible m r /\ measure m r = (1 - u) * measure m (nth k v 0) + u * measure m (nth (S k) v 0)).
  { intros t k K T u. assert (nth 0 f 0 <= nth k f 0) by (destruct k; [lra|apply Rlt_le, A; lia]). assert (nth (S k) f 0 <= nth (length f - 1) f 0) by (destruct (Nat.eq_dec (S k) (length f - 1)) as [->|]; [lra|apply Rlt_le, A; lia]).
    unfold h. destruct (Rlt_dec t (nth 0 f 0)); [lra|]. destruct (Rlt_dec (nth (length f - 1) f 0) t); [lra|]. rewrite (interp_segment f y t k A K T). cbv zeta. fold u. rewrite !YN by lia.
    replace ((1 - u) * (slope_of m * measure m (nth k v 0)) + u * (slope_of m * measure m (nth (S k) v 0))) with (slope_of m * ((1 - u) * measure m (nth k v 0) + u * measure m (nth (S k) v 0))) by ring.
    apply convert_back_ok; auto; try (apply AD; lia). pose proof (A k (S k) ltac:(lia) K) as G. unfold u. split; [apply Rmult_le_pos; [lra|apply Rlt_le, Rinv_0_lt_compat; lra]|].
    apply (Rmult_le_reg_r (nth (S k) f 0 - nth k f 0)); [lra|]. unfold Rdiv. rewrite Rmult_assoc, Rinv_l by lra. lra. }
  destruct (all_some_nth h target 0) as (rs & E & LR & N).
  { intros t _. destruct (Rlt_dec t (nth 0 f 0)) as [T|T]; [rewrite LOW by auto; eauto|]. destruct (Rlt_dec (nth (length f - 1) f 0) t) as [T'|T']; [rewrite HIGH by auto; eauto|].
    destruct (segment f t A L ltac:(lra)) as (k & K & X). destruct (IN t k K X) as (r & R & _). eauto. }
  exists rs. rewrite GO, E. split; auto. split; auto. intros i I t r. pose proof (N i 0 I) as H. fold t r in H. split; [|split].
  - intros k K T u. destruct (IN t k K T) as (r' & R & B). rewrite R in H. injection H as <-. exact B.
  - intros T. rewrite LOW in H by auto. now injection H as <-.
  - intros T. rewrite HIGH in H by auto. now injection H as <-.
Qed.
Print Assumptions C114_interpolation.

(** Between its neighbours, and exact at the frequencies of the vector. *)
Theorem C114_between m v w u r : admissible m v -> admissible m w -> admissible m r -> 0 <= u <= 1 -> measure m r = (1 - u) * measure m v + u * measure m w ->
  Rmin v w <= r <= Rmax v w /\ (u = 0 -> r = v) /\ (u = 1 -> r = w).
Proof.
  intros A B C U E. assert (M : forall a b, admissible m a -> admissible m b -> a <= b -> measure m a <= measure m b).
  { intros a b Aa Ab [L|<-]; [apply Rlt_le; now apply measure_lt|lra]. }
  split; [|split].
  - unfold Rmin, Rmax. destruct (Rle_dec v w) as [L|L].
    + pose proof (M v w A B L). split; apply (measure_le m); auto; nra.
    + pose proof (M w v B A ltac:(lra)). split; apply (measure_le m); auto; nra.
  - intros ->. apply Rle_antisym; apply (measure_le m); auto; lra.
  - intros ->. apply Rle_antisym; apply (measure_le m); auto; lra.
Qed.
Print Assumptions C114_between.

(** Interpolation in decibels is the same for an amplitude and a power response. *)
Theorem C114_same_decibels f v target : asc f -> (2 <= length f)%nat -> length v = length f -> (forall i, (i < length v)%nat -> / 2 ^ 1022 <= nth i v 0) ->
  interpolate_fr (To2Db true) f v target = interpolate_fr (To2Db false) f v target.
Proof.
  intros A L LV AD. destruct (C114_interpolation (To2Db true) f v target) as (r1 & E1 & L1 & N1); auto; try discriminate. destruct (C114_interpolation (To2Db false) f v target) as (r2 & E2 & L2 & N2); auto; try discriminate.
  rewrite E1, E2. do 2 f_equal. apply list_eq_nth with (d := 0); [congruence|]. intros i I. rewrite L1 in I. destruct (N1 i I) as (A1 & B1 & C1). destruct (N2 i I) as (A2 & B2 & C2).
  destruct (Rlt_dec (nth i target 0) (nth 0 f 0)) as [T|T]; [rewrite B1, B2 by auto; reflexivity|]. destruct (Rlt_dec (nth (length f - 1) f 0) (nth i target 0)) as [T'|T']; [rewrite C1, C2 by auto; reflexivity|].
  destruct (segment f (nth i target 0) A L ltac:(lra)) as (k & K & X). destruct (A1 k K X) as (P1 & Q1). destruct (A2 k K X) as (P2 & Q2). cbn [measure] in Q1, Q2.
  apply Rle_antisym; apply (measure_le (To2Db true)); auto; cbn [measure]; lra.
Qed.
Print Assumptions C114_same_decibels.

(** The sign of an amplitude is lost in both conversions, even at the frequencies of the vector; a negative power makes everything nan. *)
Theorem C114_sign_refuted a b : 0 < a -> 0 < b -> interpolate_fr Amplitude2Power [0; 1] [- a; b] [0] = Ok (Some [a]) /\ interpolate_fr Power2Amplitude [0; 1] [b; - a] [0] = Ok None.
Proof.
  intros A B. split.
  - unfold interpolate_fr. cbn [map convert all_some option_map fill length Nat.sub nth]. destruct (Rlt_dec 0 0); [lra|]. destruct (Rlt_dec 1 0); [lra|].
    rewrite (interp_segment _ _ 0 0); [|intros i j I J; cbn in J; destruct j as [|[|j]]; [lia| |lia]; destruct i; [cbn; lra|lia]|cbn; lia|cbn; lra].
    cbn [nth]. cbv zeta. replace ((0 - 0) / (1 - 0)) with 0 by field. cbn [convert_back]. replace ((1 - 0) * (- a) ^ 2 + 0 * b ^ 2) with (Rsqr a) by (unfold Rsqr; ring).
    destruct (Rlt_dec (Rsqr a) 0) as [Q|_]; [pose proof (Rle_0_sqr a); lra|]. rewrite sqrt_Rsqr by lra. reflexivity.
  - unfold interpolate_fr. cbn [map convert]. destruct (Rlt_dec b 0); [lra|]. destruct (Rlt_dec (- a) 0); [|lra]. reflexivity.
Qed.
Print Assumptions C114_sign_refuted.
Example C114_unknown f v target : interpolate_fr Unknown f v target = Err ValueError.
Proof. reflexivity. Qed.

(** A case: powers 1 and 9 at 100 Hz and 200 Hz, at 150 Hz through the amplitude: 4 *)
Example C114_half : exists r, interpolate_fr Power2Amplitude [100; 200] [1; 9] [150] = Ok (Some [r]) /\ r = 4.
Proof.
  assert (A : asc [100; 200]) by (intros i j I J; cbn in J; destruct j as [|[|j]]; [lia| |lia]; destruct i; [cbn; lra|lia]).
  destruct (C114_interpolation Power2Amplitude [100; 200] [1; 9] [150]) as (rs & E & L & N); auto; try discriminate.
  - intros [|[|i]] I; cbn in *; try lra; lia.
  - destruct rs as [|r [|r' rs]]; try discriminate. exists r. split; auto. destruct (N 0%nat ltac:(cbn; lia)) as (B & _). destruct (B 0%nat ltac:(cbn; lia) ltac:(cbn; lra)) as (P & Q). cbn [nth measure admissible] in *.
    replace (sqrt 9) with 3 in Q by (replace 9 with (Rsqr 3) by (unfold Rsqr; lra); rewrite sqrt_Rsqr; lra). rewrite sqrt_1 in Q. assert (X : sqrt r = 2) by (rewrite Q; field). rewrite <- (sqrt_sqrt r) by auto. rewrite X. lra.
Qed.
