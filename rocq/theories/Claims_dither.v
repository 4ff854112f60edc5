(** Property C108: dither and rounding to half precision. *)
From Coq Require Import List Arith Lia ZArith Bool Reals Lra Psatz.
From Flocq Require Import Core.
From Verif Require Import Alg M_signal P_signal Claims_rirconv M_rirconv M_dither.
Import ListNotations.
Local Open Scope R_scope.

(** ** Specification *)
(** the numbers of half precision: eleven binary digits, least step 2^-24 (the range is bounded separately) *)
Definition half_number (v : R) : Prop := exists m e : Z, (Z.abs m < 2048)%Z /\ (-24 <= e)%Z /\ v = IZR m * powerRZ 2 e.
(** an outcome of n times k uniform draws *)
Definition drawn (eps : R) (n k : nat) (u : mat) : Prop :=
  shape u n k /\ forall i c, (i < n)%nat -> (c < k)%nat -> - (eps / 2) <= entry u i c <= eps / 2.
(** the noise at a sample and how far it may reach *)
Definition noise_at (tri : bool) (u1 u2 : mat) (i c : nat) : R := if tri then entry u1 i c + entry u2 i c else entry u1 i c.
Definition reach (tri : bool) (eps : R) : R := if tri then eps else eps / 2.

(** ** Lemmas *)
Notation half_fmt := (generic_format radix2 (FLT_exp (-24) 11)).
Notation half_round := (round radix2 (FLT_exp (-24) 11) ZnearestE).
#[local] Instance prec11 : Prec_gt_0 11. Proof. unfold Prec_gt_0. lia. Qed.
Lemma half_number_format v : half_number v <-> half_fmt v.
Proof.
  split.
  - intros (m & e & M & E & ->). apply generic_format_FLT. exists (Float radix2 m e); auto. unfold F2R. cbn. now rewrite bpow_powerRZ.
  - intros H. apply FLT_format_generic in H; [|apply prec11]. destruct H as [[m e] E M N]. exists m, e. cbn in *. repeat split; auto.
    rewrite E. unfold F2R. cbn. now rewrite bpow_powerRZ.
Qed.
Lemma half_round_number v : half_number (half_round v).
Proof. apply half_number_format. apply generic_format_round; typeclasses eauto. Qed.
Lemma half_round_nearest v w : half_number w -> Rabs (half_round v - v) <= Rabs (w - v).
Proof. intros H. apply half_number_format in H. now apply (round_N_pt radix2 (FLT_exp (-24) 11)). Qed.
Lemma half_max : half_number 65504.
Proof. exists 2047%Z, 5%Z. repeat split; try lia. simpl. lra. Qed.
Lemma half_one : half_number 1.
Proof. exists 1%Z, 0%Z. repeat split; try lia. simpl. lra. Qed.
Lemma half_round_bound v w : half_number w -> Rabs v <= w -> Rabs (half_round v) <= w.
Proof. intros H. apply half_number_format in H. apply abs_round_le_generic; auto; typeclasses eauto. Qed.
Lemma to_half_ok v : Rabs v <= 65504 -> to_half v = Some (half_round v).
Proof.
  intros H. unfold to_half. destruct (Rle_dec _ _) as [|N]; auto. exfalso. apply N. apply half_round_bound; auto. apply half_max.
Qed.
Lemma half_error v : Rabs v <= 1 -> Rabs (half_round v - v) <= / 4096.
Proof.
  intros H. destruct (Req_EM_T v 0) as [->|NZ]. { rewrite round_0 by typeclasses eauto. rewrite Rminus_0_r, Rabs_R0. lra. }
  destruct (Rle_lt_or_eq_dec _ _ H) as [L|E].
  - eapply Rle_trans; [apply error_le_half_ulp; typeclasses eauto|]. rewrite ulp_neq_0 by auto. unfold cexp, FLT_exp.
    assert (M : (mag radix2 v <= 0)%Z) by (apply mag_le_bpow; auto).
    assert (B : bpow radix2 (Z.max (mag radix2 v - 11) (-24)) <= bpow radix2 (-11)) by (apply bpow_le; lia).
    replace (bpow radix2 (-11)) with (/ 2048) in B by (cbn; lra). lra.
  - rewrite round_generic; [|typeclasses eauto|].
    + unfold Rminus. rewrite Rplus_opp_r, Rabs_R0. lra.
    + apply half_number_format. destruct (Rcase_abs v) as [Q|Q].
      * rewrite Rabs_left in E by auto. exists (-1)%Z, 0%Z. repeat split; try lia. simpl. lra.
      * rewrite Rabs_right in E by auto. rewrite E. apply half_one.
Qed.
(** with steps this large around x, noise of at most 2^-24 is rounded away *)
Lemma half_fixed_pos x u : half_number x -> / 2048 <= x -> Rabs u <= / 16777216 -> half_round (x + u) = x.
Proof.
  intros H X U. apply half_number_format in H. assert (NZ : x <> 0) by lra.
  assert (M : (-10 <= mag radix2 x)%Z). { apply mag_ge_bpow. replace (bpow radix2 (-10 - 1)) with (/ 2048) by (cbn; lra). rewrite Rabs_pos_eq; lra. }
  assert (B1 : / 2097152 <= bpow radix2 (FLT_exp (-24) 11 (mag radix2 x))).
  { replace (/ 2097152) with (bpow radix2 (-21)) by (cbn; lra). apply bpow_le. unfold FLT_exp. lia. }
  assert (B2 : / 4194304 <= bpow radix2 (FLT_exp (-24) 11 (mag radix2 x - 1))).
  { replace (/ 4194304) with (bpow radix2 (-22)) by (cbn; lra). apply bpow_le. unfold FLT_exp. lia. }
  apply Rabs_le_inv in U. apply Rle_antisym.
  - apply round_N_le_midp; auto; [typeclasses eauto|]. rewrite succ_eq_pos by lra. rewrite ulp_neq_0 by auto. unfold cexp. lra.
  - apply round_N_ge_midp; auto; [typeclasses eauto|]. rewrite pred_eq_pos by lra. unfold pred_pos. destruct (Req_bool _ _); [lra|].
    rewrite ulp_neq_0 by auto. unfold cexp. lra.
Qed.
Lemma half_opp x : half_number x -> half_number (- x).
Proof. intros H. apply half_number_format in H. apply half_number_format. now apply generic_format_opp. Qed.
Lemma half_fixed x u : half_number x -> / 2048 <= Rabs x -> Rabs u <= / 16777216 -> half_round (x + u) = x.
Proof.
  intros H X U. destruct (Rcase_abs x) as [N|N].
  - rewrite Rabs_left in X by auto. replace (x + u) with (- (- x + - u)) by ring. rewrite round_NE_opp, half_fixed_pos; auto. ring. now apply half_opp.
    now rewrite Rabs_Ropp.
  - rewrite Rabs_right in X by auto. now apply half_fixed_pos.
Qed.
Lemma mat_add_shape a b n k : shape a n k -> (0 < k)%nat -> shape (mat_add a b) n k.
Proof.
  intros A K. unfold mat_add. rewrite (shape_nrows _ n k), (shape_ncols _ n k) by auto. split. apply mk_length.
  apply Forall_forall. intros x X. apply (In_nth _ _ []) in X. destruct X as [c [C <-]]. rewrite mk_length in C. rewrite nth_mk by auto. apply mk_length.
Qed.
Lemma mat_add_entry a b n k i c : shape a n k -> (i < n)%nat -> (c < k)%nat -> entry (mat_add a b) i c = entry a i c + entry b i c.
Proof.
  intros A I C. unfold mat_add. rewrite (shape_nrows _ n k), (shape_ncols _ n k) by (auto; lia). unfold entry at 1. rewrite nth_mk by auto. now rewrite nth_mk by auto.
Qed.
Lemma noise_spec tri eps n k u1 u2 : drawn eps n k u1 -> drawn eps n k u2 -> (0 < k)%nat -> 0 < eps ->
  shape (dither_noise tri u1 u2) n k /\
  forall i c, (i < n)%nat -> (c < k)%nat -> entry (dither_noise tri u1 u2) i c = noise_at tri u1 u2 i c /\ Rabs (noise_at tri u1 u2 i c) <= reach tri eps.
Proof.
  intros [S1 D1] [S2 D2] K E. unfold dither_noise, noise_at, reach. destruct tri.
  - split. now apply mat_add_shape. intros i c I C. rewrite (mat_add_entry _ _ n k) by auto. split; auto. apply Rabs_le. specialize (D1 i c I C). specialize (D2 i c I C). lra.
  - split; auto. intros i c I C. split; auto. apply Rabs_le. specialize (D1 i c I C). lra.
Qed.
(** storing samples m in the signal *)
Lemma store s m n k : shape m n k -> (0 < k)%nat -> (k <= n)%nat -> (2 <= n)%nat ->
  exists s' q, set_data s (mkIn m None false) = Ok s' /\ shape (s_re s') n k /\ s_im s' = None /\ s_constr s' = s_constr s /\ s_fs s' = s_fs s /\
    (forall i c, (i < n)%nat -> (c < k)%nat -> entry (s_re s') i c = q * entry m i c) /\
    (s_constr s = false \/ bounded m n k -> q = 1) /\ (s_constr s = true -> forall i c, (i < n)%nat -> (c < k)%nat -> Rabs (q * entry m i c) <= 1) /\
    (q = 1 \/ exists i c, (i < n)%nat /\ (c < k)%nat /\ 1 < Rabs (entry m i c) /\ q = / Rabs (entry m i c)).
Proof.
  intros Sh K KN N2. destruct (is_peak_exists (mkIn m None false) n k) as (p & Pk); try lia. { split; [auto|discriminate]. }
  destruct (set_time_data_spec (s_constr s) (s_fs s) (mkIn m None false) n k p) as (g & E & A & B & D & F & G & I); auto; try lia; try nia.
  - split; [auto|discriminate].
  - rewrite Nat.max_l, Nat.min_r in * by lia. exists g, (s_scale g). unfold set_data. rewrite E. cbn [i_im i_re] in *. repeat split; auto; try apply F.
    + intros i c Hi Hc. rewrite G by auto. unfold oriented. replace (n <? k)%nat with false by (symmetry; apply Nat.ltb_ge; lia). reflexivity.
    + intros [C|C]; rewrite D; [now rewrite C|]. destruct (s_constr s); auto. destruct (Rlt_dec 1 p) as [L|]; auto. exfalso.
      destruct Pk as [_ (i & c & Hi & Hc & [Q|(im & Q & _)])]; [|discriminate]. cbn [i_re] in Q. specialize (C i c Hi Hc). lra.
    + intros C i c Hi Hc. rewrite D, C. destruct Pk as [Q _]. specialize (Q i c Hi Hc). cbn [i_re] in Q. destruct Q as [Q _].
      rewrite Rabs_mult. destruct (Rlt_dec 1 p) as [L|L].
      * unfold Rdiv. rewrite Rmult_1_l, Rabs_inv, (Rabs_pos_eq p) by lra. apply (Rmult_le_reg_l p); [lra|]. rewrite <- Rmult_assoc, Rinv_r by lra. lra.
      * rewrite Rabs_R1. lra.
    + rewrite D. destruct (s_constr s); auto. destruct (Rlt_dec 1 p) as [L|]; auto. right.
      destruct Pk as [_ (i & c & Hi & Hc & [Q|(im & Q & _)])]; [|discriminate]. cbn [i_re] in Q. exists i, c. rewrite <- Q. repeat split; auto. field. lra.
Qed.
Lemma dither_bare tri u1 u2 s : dither tri None false u1 u2 s =
  bind (set_data s (mkIn (mat_add (s_re s) (dither_noise tri u1 u2)) None false)) (fun s' => Ok (Some s')).
Proof. reflexivity. Qed.
Definition rounded (m : mat) : mat := map (map half_round) m.
Lemma rounded_shape m n k : shape m n k -> shape (rounded m) n k.
Proof. intros H. apply (shape_cols _ _ n); auto. intros x X. now rewrite map_length. Qed.
Lemma rounded_entry m n k i c : shape m n k -> (i < n)%nat -> (c < k)%nat -> entry (rounded m) i c = half_round (entry m i c).
Proof.
  intros H I C. unfold rounded. rewrite (entry_cols _ _ n k) by auto. apply nth_map'. now rewrite (shape_col _ n k).
Qed.
Lemma dither_trunc tri u1 u2 s n k : let m := mat_add (s_re s) (dither_noise tri u1 u2) in shape m n k ->
  (forall i c, (i < n)%nat -> (c < k)%nat -> Rabs (entry m i c) <= 65504) ->
  dither tri None true u1 u2 s = bind (set_data s (mkIn (rounded m) None false)) (fun s' => Ok (Some s')).
Proof.
  intros m Sh B. unfold dither. cbn [shape_noise bind]. fold m. rewrite (all_some_map _ (map half_round)); auto.
  intros col X. apply all_some_map. intros v V. apply to_half_ok. apply (In_nth _ _ []) in X. destruct X as [c [C <-]].
  apply (In_nth _ _ 0) in V. destruct V as [i [I <-]]. destruct Sh as [S1 S2]. rewrite S1 in C.
  rewrite (shape_col m n k) in I by (auto; now split). now apply (B i c).
Qed.

(** ** Theorems *)
(** Dither adds to every sample its noise, which stays within epsilon (triangular) or half of it, if nothing leaves the range of a constrained
    signal. *)
Theorem C108_noise tri eps u1 u2 s n k : sig_ok s n k -> 0 < eps -> drawn eps n k u1 -> drawn eps n k u2 ->
  (s_constr s = true -> forall i c, (i < n)%nat -> (c < k)%nat -> Rabs (entry (s_re s) i c + noise_at tri u1 u2 i c) <= 1) ->
  exists s', dither tri None false u1 u2 s = Ok (Some s') /\ shape (s_re s') n k /\ s_im s' = None /\ s_constr s' = s_constr s /\ s_fs s' = s_fs s /\
    forall i c, (i < n)%nat -> (c < k)%nat -> entry (s_re s') i c = entry (s_re s) i c + noise_at tri u1 u2 i c /\
      Rabs (entry (s_re s') i c - entry (s_re s) i c) <= reach tri eps.
Proof.
  intros O E D1 D2 B. destruct O as [Hk Hkn Hn Re _ _ _]. destruct (noise_spec tri eps n k u1 u2 D1 D2 Hk E) as [Ns Ne].
  destruct (store s (mat_add (s_re s) (dither_noise tri u1 u2)) n k) as (s' & q & St & Sh & Im & Co & Fs & En & Q & _ & _); auto. now apply mat_add_shape.
  exists s'. rewrite dither_bare, St. cbn [bind]. repeat split; auto; try apply Sh.
  all: assert (Q1 : q = 1) by (apply Q; destruct (s_constr s); [right|now left]; intros i' c' I C; rewrite (mat_add_entry _ _ n k) by auto;
    rewrite (proj1 (Ne i' c' I C)); now apply B).
  all: rewrite En, Q1, (mat_add_entry _ _ n k) by auto; destruct (Ne i c) as [N1 N2]; auto; rewrite N1. ring.
  replace (1 * (entry (s_re s) i c + noise_at tri u1 u2 i c) - entry (s_re s) i c) with (noise_at tri u1 u2 i c) by ring. auto.
Qed.
Print Assumptions C108_noise.

(** Whatever the signal, the result is within twice that of the original. *)
Theorem C108_bound tri eps u1 u2 s n k : sig_ok s n k -> 0 < eps -> drawn eps n k u1 -> drawn eps n k u2 ->
  exists s', dither tri None false u1 u2 s = Ok (Some s') /\ shape (s_re s') n k /\
    forall i c, (i < n)%nat -> (c < k)%nat -> Rabs (entry (s_re s') i c - entry (s_re s) i c) <= (if s_constr s then 2 else 1) * reach tri eps.
Proof.
  intros O E D1 D2. destruct O as [Hk Hkn Hn Re _ Bd _]. destruct (noise_spec tri eps n k u1 u2 D1 D2 Hk E) as [Ns Ne].
  assert (Pr : 0 < reach tri eps) by (unfold reach; destruct tri; lra).
  destruct (store s (mat_add (s_re s) (dither_noise tri u1 u2)) n k) as (s' & q & St & Sh & Im & Co & Fs & En & Q1 & _ & Q2); auto. now apply mat_add_shape.
  exists s'. rewrite dither_bare, St. cbn [bind]. repeat split; auto; try apply Sh. intros i c I C. rewrite En, (mat_add_entry _ _ n k) by auto.
  destruct (Ne i c I C) as [N1 N2]. rewrite N1. destruct (s_constr s) eqn:EC.
  - specialize (Bd eq_refl). destruct Q2 as [->|(j & d & J & D & L & QE)].
    + replace (1 * _ - _) with (noise_at tri u1 u2 i c) by ring. lra.
    + rewrite (mat_add_entry _ _ n k), (proj1 (Ne j d J D)) in L, QE by auto. set (p := Rabs (entry (s_re s) j d + noise_at tri u1 u2 j d)) in *.
      assert (P : p <= 1 + reach tri eps). { unfold p. eapply Rle_trans; [apply Rabs_triang|]. specialize (Bd j d J D). pose proof (proj2 (Ne j d J D)). lra. }
      specialize (Bd i c I C). set (x := entry (s_re s) i c) in *. set (w := noise_at tri u1 u2 i c) in *.
      replace (q * (x + w) - x) with ((w + x * (1 - p)) / p) by (rewrite QE; field; lra). unfold Rdiv. rewrite Rabs_mult, Rabs_inv, (Rabs_pos_eq p) by lra.
      apply (Rmult_le_reg_r p); [lra|]. rewrite Rmult_assoc, Rinv_l, Rmult_1_r by lra. eapply Rle_trans; [apply Rabs_triang|].
      rewrite Rabs_mult, (Rabs_left1 (1 - p)) by lra. pose proof (Rabs_pos x). nra.
  - rewrite Q1 by auto. replace (1 * _ - _) with (noise_at tri u1 u2 i c) by ring. lra.
Qed.
Print Assumptions C108_bound.

(** With truncation every sample is the half-precision number nearest to the sample with its noise, within 2^-12 of it, if nothing leaves
    [-1, 1]. *)
Theorem C108_truncated tri eps u1 u2 s n k : sig_ok s n k -> 0 < eps -> drawn eps n k u1 -> drawn eps n k u2 ->
  (forall i c, (i < n)%nat -> (c < k)%nat -> Rabs (entry (s_re s) i c + noise_at tri u1 u2 i c) <= 1) ->
  exists s', dither tri None true u1 u2 s = Ok (Some s') /\ shape (s_re s') n k /\ s_im s' = None /\ s_constr s' = s_constr s /\ s_fs s' = s_fs s /\
    forall i c, (i < n)%nat -> (c < k)%nat -> let y := entry (s_re s) i c + noise_at tri u1 u2 i c in
      half_number (entry (s_re s') i c) /\ (forall v, half_number v -> Rabs (entry (s_re s') i c - y) <= Rabs (v - y)) /\
      Rabs (entry (s_re s') i c - y) <= / 4096.
Proof.
  intros O E D1 D2 B. destruct O as [Hk Hkn Hn Re _ _ _]. destruct (noise_spec tri eps n k u1 u2 D1 D2 Hk E) as [Ns Ne].
  set (m := mat_add (s_re s) (dither_noise tri u1 u2)).
  assert (Sm : shape m n k) by (now apply mat_add_shape).
  assert (Em : forall i c, (i < n)%nat -> (c < k)%nat -> entry m i c = entry (s_re s) i c + noise_at tri u1 u2 i c).
  { intros i c I C. unfold m. rewrite (mat_add_entry _ _ n k) by auto. now rewrite (proj1 (Ne i c I C)). }
  destruct (store s (rounded m) n k) as (s' & q & St & Sh & Im & Co & Fs & En & Q & _ & _); auto. now apply rounded_shape.
  assert (Q1 : q = 1). { apply Q. right. intros i c I C. rewrite (rounded_entry _ n k) by auto. apply half_round_bound. apply half_one. rewrite Em by auto. now apply B. }
  exists s'. rewrite (dither_trunc tri u1 u2 s n k); auto. 2: { intros i c I C. fold m. rewrite Em by auto. specialize (B i c I C). lra. }
  fold m. rewrite St. cbn [bind]. repeat split; auto; try apply Sh; rewrite En, Q1, Rmult_1_l, (rounded_entry _ n k), Em by auto.
  - apply half_round_number.
  - intros v V. now apply half_round_nearest.
  - apply half_error. now apply B.
Qed.
Print Assumptions C108_truncated.

(** The default epsilon is far below the step of half precision for all but the faintest samples: with truncation, a signal of half-precision
    samples of at least 2^-11 is returned as it was, whatever the noise. *)
Theorem C108_default_refuted tri u1 u2 s n k : sig_ok s n k -> (forall i c, (i < n)%nat -> (c < k)%nat -> Rabs (entry (s_re s) i c) <= 1) ->
  drawn (powerRZ 2 (-24)) n k u1 -> drawn (powerRZ 2 (-24)) n k u2 ->
  (forall i c, (i < n)%nat -> (c < k)%nat -> half_number (entry (s_re s) i c) /\ / 2048 <= Rabs (entry (s_re s) i c)) ->
  dither tri None true u1 u2 s = Ok (Some (mkSig (s_re s) None 1 (s_constr s) (s_fs s))).
Proof.
  intros O B1 D1 D2 H. destruct O as [Hk Hkn Hn Re _ Bd _]. assert (EP : powerRZ 2 (-24) = / 16777216) by (simpl; field). rewrite EP in *.
  destruct (noise_spec tri (/ 16777216) n k u1 u2 D1 D2 Hk ltac:(lra)) as [Ns Ne].
  set (m := mat_add (s_re s) (dither_noise tri u1 u2)).
  assert (Sm : shape m n k) by (now apply mat_add_shape).
  assert (Nb : forall i c, (i < n)%nat -> (c < k)%nat -> Rabs (noise_at tri u1 u2 i c) <= / 16777216).
  { intros i c I C. eapply Rle_trans; [apply (Ne i c I C)|]. unfold reach. destruct tri; lra. }
  assert (Em : forall i c, (i < n)%nat -> (c < k)%nat -> entry m i c = entry (s_re s) i c + noise_at tri u1 u2 i c).
  { intros i c I C. unfold m. rewrite (mat_add_entry _ _ n k) by auto. now rewrite (proj1 (Ne i c I C)). }
  rewrite (dither_trunc tri u1 u2 s n k); auto.
  - fold m. replace (rounded m) with (s_re s).
    + unfold set_data. rewrite (set_identity (s_constr s) (s_fs s) (mkIn (s_re s) None false) n k); auto; [split; [auto|discriminate]|].
      intros C1. split; [|discriminate]. intros i c I C. now apply (Bd C1).
    + apply (mat_ext _ _ n k); auto. now apply rounded_shape. intros i c I C. rewrite (rounded_entry _ n k), Em by auto. symmetry.
      destruct (H i c I C). apply half_fixed; auto.
  - intros i c I C. fold m. rewrite Em by auto. eapply Rle_trans; [apply Rabs_triang|]. specialize (B1 i c I C). specialize (Nb i c I C). lra.
Qed.
Print Assumptions C108_default_refuted.

(** The noise does not stay within epsilon when a constrained signal at full scale is pushed above it: everything is then scaled down. *)
Definition full (x0 x1 : R) : signal := mkSig [[x0; x1]] None 1 true 48000.
Lemma full_ok x0 x1 : Rabs x0 <= 1 -> Rabs x1 <= 1 -> sig_ok (full x0 x1) 2 1.
Proof.
  intros A B. constructor; try lia; try discriminate. { split; [auto|repeat constructor]. }
  intros _ i c I C. assert (c = 0)%nat by lia. subst c. destruct i as [|[|i]]; try lia; unfold entry; cbn; auto.
Qed.
Lemma two_cases (P : nat -> nat -> Prop) : P 0%nat 0%nat -> P 1%nat 0%nat -> forall i c, (i < 2)%nat -> (c < 1)%nat -> P i c.
Proof. intros A B i c I C. assert (c = 0)%nat by lia. subst c. destruct i as [|[|i]]; auto; lia. Qed.
Lemma drawn_two eps a b : - (eps / 2) <= a <= eps / 2 -> - (eps / 2) <= b <= eps / 2 -> drawn eps 2 1 [[a; b]].
Proof. intros A B. split. { split; [auto|repeat constructor]. } apply two_cases; unfold entry; cbn; auto. Qed.
(** the scale of a pair of samples of which the first is above 1 and the second is not *)
Lemma pair_scale q m : m 0%nat > 1 -> Rabs (m 1%nat) <= 1 -> Rabs (q * m 0%nat) <= 1 ->
  (q = 1 \/ exists i c, (i < 2)%nat /\ (c < 1)%nat /\ 1 < Rabs (m i) /\ q = / Rabs (m i)) -> q = / m 0%nat.
Proof.
  intros A B D [->|(i & c & I & C & E & F)].
  - rewrite Rmult_1_l, Rabs_pos_eq in D by lra. lra.
  - destruct i as [|[|i]]; try lia; [|lra]. rewrite F, Rabs_pos_eq by lra. reflexivity.
Qed.
Theorem C108_bound_refuted eps : 0 < eps < 1 -> exists s u1 u2 s', sig_ok s 2 1 /\ drawn eps 2 1 u1 /\ drawn eps 2 1 u2 /\
  dither true None false u1 u2 s = Ok (Some s') /\ entry (s_re s') 1 0 - entry (s_re s) 1 0 > eps.
Proof.
  intros E. set (s := full 1 (-1)). set (u := [[eps / 2; eps / 2]]).
  assert (O : sig_ok s 2 1) by (apply full_ok; apply Rabs_le; lra).
  assert (D : drawn eps 2 1 u) by (apply drawn_two; lra).
  destruct (noise_spec true eps 2 1 u u D D ltac:(lia) ltac:(lra)) as [Ns Ne]. pose proof O as [_ _ _ Re _ _ _].
  set (m := mat_add (s_re s) (dither_noise true u u)).
  destruct (store s m 2 1) as (s' & q & St & Sh & Im & Co & Fs & En & Q & QB & QC); try lia. { apply mat_add_shape; auto; lia. }
  assert (M0 : entry m 0 0 = 1 + eps). { unfold m. rewrite (mat_add_entry _ _ 2 1), (proj1 (Ne 0%nat 0%nat ltac:(lia) ltac:(lia))) by (auto; lia). unfold entry, noise_at, entry. cbn. lra. }
  assert (M1 : entry m 1 0 = -1 + eps). { unfold m. rewrite (mat_add_entry _ _ 2 1), (proj1 (Ne 1%nat 0%nat ltac:(lia) ltac:(lia))) by (auto; lia). unfold entry, noise_at, entry. cbn. lra. }
  assert (QE : q = / (1 + eps)).
  { rewrite <- M0. apply (pair_scale q (fun i => entry m i 0)); cbn beta; [rewrite M0; lra|rewrite M1; apply Rabs_le; lra|apply QB; auto|].
    destruct QC as [|(i & c & I & C & F & G)]; [now left|right]. assert (c = 0)%nat by lia. subst c. exists i, 0%nat. auto. }
  exists s, u, u, s'. split; [exact O|]. split; [exact D|]. split; [exact D|]. split; [rewrite dither_bare; fold m; rewrite St; reflexivity|].
  rewrite En by lia. rewrite M1, QE. replace (entry (s_re s) 1 0) with (-1) by reflexivity.
  apply Rlt_gt. apply (Rmult_lt_reg_r (1 + eps)); [lra|]. replace ((/ (1 + eps) * (-1 + eps) - -1) * (1 + eps)) with (2 * eps) by (field; lra). nra.
Qed.
Print Assumptions C108_bound_refuted.

(** Nor are the samples of the result half-precision numbers then, although the documentation says so. *)
Lemma not_half : ~ half_number (512 / 1025).
Proof.
  intros (m & e & M & E & H). rewrite <- (bpow_powerRZ radix2) in H.
  assert (H2 : 512 * 16777216 = 1025 * (IZR m * bpow radix2 (e + 24))).
  { rewrite bpow_plus. replace (bpow radix2 24) with 16777216 by (cbn; lra). replace (1025 * (IZR m * (bpow radix2 e * 16777216))) with (1025 * (IZR m * bpow radix2 e) * 16777216) by ring. change (IZR radix2) with 2 in H. rewrite <- H. field. }
  rewrite <- IZR_Zpower in H2 by lia. rewrite <- !mult_IZR in H2. apply eq_IZR in H2. lia.
Qed.
Theorem C108_precision_refuted : exists eps s u1 u2 s', sig_ok s 2 1 /\ 0 < eps /\ drawn eps 2 1 u1 /\ drawn eps 2 1 u2 /\
  (forall i c, (i < 2)%nat -> (c < 1)%nat -> half_number (entry (s_re s) i c)) /\
  dither true None true u1 u2 s = Ok (Some s') /\ ~ half_number (entry (s_re s') 1 0).
Proof.
  set (s := full 1 (/ 2)). set (u := [[/ 2048; 0]]).
  assert (O : sig_ok s 2 1) by (apply full_ok; rewrite Rabs_pos_eq; lra).
  assert (D : drawn (/ 1024) 2 1 u) by (apply drawn_two; lra).
  destruct (noise_spec true (/ 1024) 2 1 u u D D ltac:(lia) ltac:(lra)) as [Ns Ne]. pose proof O as [_ _ _ Re _ _ _].
  set (m := mat_add (s_re s) (dither_noise true u u)).
  assert (Sm : shape m 2 1) by (apply mat_add_shape; auto; lia).
  assert (H2 : half_number (/ 2)) by (exists 1%Z, (-1)%Z; repeat split; try lia; simpl; lra).
  assert (H1 : half_number (1025 / 1024)) by (exists 1025%Z, (-10)%Z; repeat split; try lia; simpl; lra).
  assert (M0 : entry m 0 0 = 1025 / 1024). { unfold m. rewrite (mat_add_entry _ _ 2 1), (proj1 (Ne 0%nat 0%nat ltac:(lia) ltac:(lia))) by (auto; lia). unfold entry, noise_at, entry. cbn. lra. }
  assert (M1 : entry m 1 0 = / 2). { unfold m. rewrite (mat_add_entry _ _ 2 1), (proj1 (Ne 1%nat 0%nat ltac:(lia) ltac:(lia))) by (auto; lia). unfold entry, noise_at, entry. cbn. lra. }
  destruct (store s (rounded m) 2 1) as (s' & q & St & Sh & Im & Co & Fs & En & Q & QB & QC); try lia. now apply rounded_shape.
  assert (R0 : entry (rounded m) 0 0 = 1025 / 1024).
  { rewrite (rounded_entry _ 2 1), M0 by (auto; lia). apply round_generic; [typeclasses eauto|]. now apply half_number_format. }
  assert (R1 : entry (rounded m) 1 0 = / 2).
  { rewrite (rounded_entry _ 2 1), M1 by (auto; lia). apply round_generic; [typeclasses eauto|]. now apply half_number_format. }
  assert (QE : q = / (1025 / 1024)).
  { rewrite <- R0. apply (pair_scale q (fun i => entry (rounded m) i 0)); cbn beta; [rewrite R0; lra|rewrite R1; apply Rabs_le; lra|apply QB; auto|].
    destruct QC as [|(i & c & I & C & F & G)]; [now left|right]. assert (c = 0)%nat by lia. subst c. exists i, 0%nat. auto. }
  exists (/ 1024), s, u, u, s'. split; [exact O|]. split; [lra|]. split; [exact D|]. split; [exact D|]. split; [|split].
  - apply two_cases; unfold entry; cbn; [apply half_one|exact H2].
  - rewrite (dither_trunc true u u s 2 1). fold m. rewrite St. reflexivity. exact Sm.
    fold m. apply two_cases; rewrite ?M0, ?M1; rewrite Rabs_pos_eq; lra.
  - rewrite En, R1, QE by lia. replace (/ (1025 / 1024) * / 2) with (512 / 1025) by field. apply not_half.
Qed.
Print Assumptions C108_precision_refuted.

(** Without the constraint a sample of 65536 or more is not finite after truncation. *)
Theorem C108_overflow_refuted tri eps u1 u2 s n k i c : sig_ok s n k -> 0 < eps -> drawn eps n k u1 -> drawn eps n k u2 ->
  (i < n)%nat -> (c < k)%nat -> 65536 <= Rabs (entry (s_re s) i c + noise_at tri u1 u2 i c) -> dither tri None true u1 u2 s = Ok None.
Proof.
  intros O E D1 D2 I C L. destruct O as [Hk Hkn Hn Re _ _ _]. destruct (noise_spec tri eps n k u1 u2 D1 D2 Hk E) as [Ns Ne].
  unfold dither. cbn [shape_noise bind]. set (m := mat_add (s_re s) (dither_noise tri u1 u2)).
  assert (Sm : shape m n k) by (now apply mat_add_shape).
  assert (Em : entry m i c = entry (s_re s) i c + noise_at tri u1 u2 i c).
  { unfold m. rewrite (mat_add_entry _ _ n k) by auto. now rewrite (proj1 (Ne i c I C)). }
  rewrite all_some_none; auto. apply in_map_iff. exists (nth c m []). split; [|now apply (col_in _ n k)].
  apply all_some_none. apply in_map_iff. exists (entry m i c). split; [|apply nth_In; now rewrite (shape_col _ n k)].
  unfold to_half. destruct (Rle_dec _ _) as [B|]; auto. exfalso.
  assert (G : 65536 <= Rabs (half_round (entry m i c))).
  { apply abs_round_ge_generic; try typeclasses eauto. apply half_number_format. exists 1024%Z, 6%Z. repeat split; try lia. simpl. lra. now rewrite Em. }
  lra.
Qed.
Print Assumptions C108_overflow_refuted.

(** With noise shaping the filter bank gets the noise itself, as a constrained signal of the same sampling rate, and its output is added. *)
Theorem C108_shaped tri eps u1 u2 f s n k : sig_ok s n k -> 0 < eps -> reach tri eps <= 1 -> drawn eps n k u1 -> drawn eps n k u2 ->
  exists g, sig_ok g n k /\ s_constr g = true /\ s_fs g = s_fs s /\ s_im g = None /\
    (forall i c, (i < n)%nat -> (c < k)%nat -> entry (s_re g) i c = noise_at tri u1 u2 i c) /\
    ((s_constr s = true -> forall i c, (i < n)%nat -> (c < k)%nat -> Rabs (entry (s_re s) i c + entry (s_re (f g)) i c) <= 1) ->
     exists s', dither tri (Some f) false u1 u2 s = Ok (Some s') /\ shape (s_re s') n k /\
       forall i c, (i < n)%nat -> (c < k)%nat -> entry (s_re s') i c = entry (s_re s) i c + entry (s_re (f g)) i c).
Proof.
  intros O E RB D1 D2. destruct O as [Hk Hkn Hn Re _ _ _]. destruct (noise_spec tri eps n k u1 u2 D1 D2 Hk E) as [Ns Ne].
  set (g := mkSig (dither_noise tri u1 u2) None 1 true (s_fs s)).
  assert (Bd : bounded (dither_noise tri u1 u2) n k). { intros i c I C. destruct (Ne i c I C) as [-> N]. lra. }
  exists g. repeat split; auto; try discriminate; try apply Ns.
  - intros i c I C. apply (Ne i c I C).
  - intros B. destruct (store s (mat_add (s_re s) (s_re (f g))) n k) as (s' & q & St & Sh & Im & Co & Fs & En & Q & _ & _); auto. now apply mat_add_shape.
    assert (Q1 : q = 1). { apply Q. destruct (s_constr s); [right|now left]. intros i c I C. rewrite (mat_add_entry _ _ n k) by auto. now apply B. }
    exists s'. split; [|split; auto].
    + unfold dither, shape_noise. rewrite (set_identity true (s_fs s) (mkIn (dither_noise tri u1 u2) None false) n k); auto.
      * cbn [bind i_re i_im]. fold g. now rewrite St.
      * split; [auto|discriminate].
      * intros _. split; [auto|discriminate].
    + intros i c I C. rewrite En, Q1, (mat_add_entry _ _ n k) by auto. ring.
Qed.
Print Assumptions C108_shaped.

(** ** Concrete cases *)
Lemma small_drawn : drawn (powerRZ 2 (-24)) 2 1 [[/ 100000000; - / 100000000]].
Proof. assert (EP : powerRZ 2 (-24) = / 16777216) by (simpl; field). rewrite EP. apply drawn_two; lra. Qed.
Example C108_example : exists s', dither true None false [[/ 100000000; - / 100000000]] [[/ 100000000; - / 100000000]] (full (/ 2) (/ 4)) = Ok (Some s') /\
  entry (s_re s') 0 0 = / 2 + / 50000000.
Proof.
  assert (EP : powerRZ 2 (-24) = / 16777216) by (simpl; field).
  destruct (C108_noise true (powerRZ 2 (-24)) [[/ 100000000; - / 100000000]] [[/ 100000000; - / 100000000]] (full (/ 2) (/ 4)) 2 1) as (s' & E & _ & _ & _ & _ & H).
  - apply full_ok; rewrite Rabs_pos_eq; lra.
  - rewrite EP. lra.
  - apply small_drawn.
  - apply small_drawn.
  - intros _. apply two_cases; unfold noise_at, entry; cbn; rewrite Rabs_pos_eq; lra.
  - exists s'. split; auto. destruct (H 0%nat 0%nat) as [-> _]; try lia. unfold noise_at, entry. cbn. lra.
Qed.
Example C108_default_case : dither true None true [[/ 100000000; - / 100000000]] [[/ 100000000; - / 100000000]] (full (/ 2) (/ 4)) = Ok (Some (full (/ 2) (/ 4))).
Proof.
  apply (C108_default_refuted true _ _ (full (/ 2) (/ 4)) 2 1).
  - apply full_ok; rewrite Rabs_pos_eq; lra.
  - apply two_cases; unfold entry; cbn; rewrite Rabs_pos_eq; lra.
  - apply small_drawn.
  - apply small_drawn.
  - apply two_cases; unfold entry; cbn; rewrite Rabs_pos_eq by lra; (split; [|lra]).
    + exists 1%Z, (-1)%Z. repeat split; try lia. simpl. lra.
    + exists 1%Z, (-2)%Z. repeat split; try lia. simpl. lra.
Qed.
Example C108_truncated_case : exists s', dither false None true [[/ 100000000; - / 100000000]] [[0; 0]] (full (/ 3) (/ 4)) = Ok (Some s') /\ half_number (entry (s_re s') 0 0).
Proof.
  assert (EP : powerRZ 2 (-24) = / 16777216) by (simpl; field).
  destruct (C108_truncated false (powerRZ 2 (-24)) [[/ 100000000; - / 100000000]] [[0; 0]] (full (/ 3) (/ 4)) 2 1) as (s' & E & _ & _ & _ & _ & H).
  - apply full_ok; rewrite Rabs_pos_eq; lra.
  - rewrite EP. lra.
  - apply small_drawn.
  - rewrite EP. apply drawn_two; lra.
  - apply two_cases; unfold noise_at, entry; cbn; rewrite Rabs_pos_eq; lra.
  - exists s'. split; auto. apply (H 0%nat 0%nat); lia.
Qed.
Example C108_overflow_case : dither false None true [[0; 0]] [[0; 0]] (mkSig [[65536; 0]] None 1 false 48000) = Ok None.
Proof.
  apply (C108_overflow_refuted false 1 _ _ (mkSig [[65536; 0]] None 1 false 48000) 2 1 0 0); try lia; try lra.
  - constructor; try lia; try discriminate. split; [auto|repeat constructor].
  - apply drawn_two; lra.
  - apply drawn_two; lra.
  - unfold noise_at, entry. cbn. rewrite Rabs_pos_eq; lra.
Qed.
