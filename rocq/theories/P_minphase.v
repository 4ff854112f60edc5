(** Facts on M_minphase: the folded cepstrum of an even logarithmic spectrum transforms back to that spectrum plus an odd imaginary part. *)
From Coq Require Import List Arith Lia ZArith Bool Reals Lra.
From Verif Require Import Alg Spec Dft P_parseval M_arrays M_block P_block M_level M_tf M_scaling P_dft2 M_minphase.
Import ListNotations.
Local Open Scope R_scope.

Notation rflx N t := ((N - t) mod N)%nat.
(** [u] is even on the circle of N points. *)
Definition even_on (N : nat) (u : nat -> R) : Prop := forall k, (k < N)%nat -> u (rflx N k) = u k.
Lemma rflx_lt N t : (t < N)%nat -> (rflx N t < N)%nat.
Proof. intros. apply Nat.mod_upper_bound. lia. Qed.
Lemma rflx_pos N t : (0 < t < N)%nat -> rflx N t = (N - t)%nat.
Proof. intros. apply Nat.mod_small. lia. Qed.
Lemma rflx_0 N : rflx N 0 = 0%nat.
Proof. destruct N; [reflexivity|]. rewrite Nat.sub_0_r. apply Nat.mod_same. lia. Qed.
Lemma root_rflx N t k : (t < N)%nat -> root N (Z.of_nat (rflx N t) * Z.of_nat k) = cconj (root N (Z.of_nat t * Z.of_nat k)).
Proof.
  intros Ht. destruct (Nat.eq_dec t 0) as [->|H].
  - rewrite rflx_0. simpl (Z.of_nat 0). rewrite Z.mul_0_l, root_0. apply c_ext; simpl; ring.
  - rewrite rflx_pos by lia. apply root_refl; lia.
Qed.
Lemma root_conj N a : root N (- a) = cconj (root N a).
Proof. unfold root, cis, cconj. simpl. rewrite opp_IZR. replace (2 * PI * - IZR a / INR N) with (- (2 * PI * IZR a / INR N)) by (unfold Rdiv; ring). now rewrite cos_neg, sin_neg. Qed.
Lemma rsum_reflect N (f : nat -> R) : (0 < N)%nat -> rsum N f = rsum N (fun t => f (rflx N t)).
Proof.
  intros HN. pose proof (csum_reflect N (fun k => rc (f k)) HN) as E. apply (f_equal fst) in E. rewrite !csum_fst in E. exact E.
Qed.
Lemma cdft_rc_fst N (w : nat -> R) k : fst (cdft N (fun t => rc (w t)) k) = rsum N (fun t => w t * fst (root N (Z.of_nat t * Z.of_nat k))).
Proof. unfold cdft. rewrite csum_fst. apply (sum_ext (HA := CRing_R)). intros t Ht. rewrite root_conj. simpl. ring. Qed.
Lemma cdft_rc_snd N (w : nat -> R) k : snd (cdft N (fun t => rc (w t)) k) = - rsum N (fun t => w t * snd (root N (Z.of_nat t * Z.of_nat k))).
Proof.
  unfold cdft. rewrite csum_snd. rewrite <- (sum_opp (HA := CRing_R)). apply (sum_ext (HA := CRing_R)). intros t Ht. rewrite root_conj. simpl. change (@ropp R CRing_R) with Ropp. ring.
Qed.
Lemma icdft_rc_fst N (w : nat -> R) k : fst (icdft N (fun t => rc (w t)) k) = rsum N (fun t => w t * fst (root N (Z.of_nat t * Z.of_nat k))) / INR N.
Proof. unfold icdft. unfold cdivr. cbn [fst]. rewrite csum_fst. f_equal. apply (sum_ext (HA := CRing_R)). intros t Ht. simpl. ring. Qed.
Lemma sin_even_zero N (u : nat -> R) k : (0 < N)%nat -> even_on N u -> rsum N (fun t => u t * snd (root N (Z.of_nat t * Z.of_nat k))) = 0.
Proof.
  intros HN He. set (s := rsum N _). assert (E : s = - s).
  { unfold s at 1. rewrite rsum_reflect by auto. unfold s. rewrite <- (sum_opp (HA := CRing_R)). apply (sum_ext (HA := CRing_R)). intros t Ht.
    rewrite He, root_rflx by auto. simpl. change (@ropp R CRing_R) with Ropp. ring. }
  lra.
Qed.
(** The inverse transform of an even real spectrum is real, even, and gives it back. *)
Lemma cepstrum_sum N lg t : cepstrum N lg t = rsum N (fun k => lg k * fst (root N (Z.of_nat k * Z.of_nat t))) / INR N.
Proof. apply icdft_rc_fst. Qed.
Lemma cepstrum_real N lg t : (0 < N)%nat -> even_on N lg -> icdft N (fun k => rc (lg k)) t = rc (cepstrum N lg t).
Proof.
  intros HN He. apply c_ext; [reflexivity|]. unfold icdft, cdivr. cbn [snd rc]. rewrite csum_snd.
  rewrite (sum_ext (HA := CRing_R) N _ (fun k => lg k * snd (root N (Z.of_nat k * Z.of_nat t)))) by (intros; simpl; ring).
  rewrite sin_even_zero by auto. unfold Rdiv. ring.
Qed.
Lemma cepstrum_even N lg : (0 < N)%nat -> even_on N (cepstrum N lg).
Proof.
  intros HN t Ht. rewrite !cepstrum_sum. f_equal. apply (sum_ext (HA := CRing_R)). intros k Hk. f_equal.
  rewrite (Z.mul_comm (Z.of_nat k)), root_rflx by auto. simpl. f_equal. now rewrite Z.mul_comm.
Qed.
Lemma cdft_cepstrum N lg k : (k < N)%nat -> even_on N lg -> cdft N (fun t => rc (cepstrum N lg t)) k = rc (lg k).
Proof.
  intros Hk He. rewrite (cdft_ext N _ (icdft N (fun k => rc (lg k)))).
  - now rewrite cdft_icdft.
  - intros t Ht. rewrite cepstrum_real; auto. lia.
Qed.
(** The fold keeps the even part. *)
Lemma fold_even N y t : (t < N)%nat -> even_on N y -> mp_fold N y t + mp_fold N y (rflx N t) = 2 * y t.
Proof.
  intros Ht He. pose proof (He t Ht) as E. pose proof (Nat.div_mod N 2 ltac:(lia)) as D. pose proof (Nat.mod_upper_bound N 2 ltac:(lia)) as B.
  pose proof (Nat.div_mod (N + 1) 2 ltac:(lia)) as D1. pose proof (Nat.mod_upper_bound (N + 1) 2 ltac:(lia)) as B1.
  unfold mp_fold. destruct (Nat.eq_dec t 0) as [->|H0]. { rewrite rflx_0. simpl. ring. }
  rewrite rflx_pos in * by lia. destruct (Nat.eqb_spec t 0); [lia|]. destruct (Nat.eqb_spec (N - t) 0); [lia|].
  destruct (Nat.even N) eqn:Ev.
  - apply Nat.even_spec in Ev. destruct Ev as [h Eh]. assert (N / 2 = h)%nat by lia.
    destruct (Nat.ltb_spec t (N / 2)), (Nat.ltb_spec (N - t) (N / 2)), (Nat.ltb_spec t (N / 2 + 1)), (Nat.ltb_spec (N - t) (N / 2 + 1)); try lia; rewrite ?E; try ring;
    replace (N - t)%nat with t by lia; ring.
  - assert (Od : Nat.odd N = true) by (unfold Nat.odd; now rewrite Ev). apply Nat.odd_spec in Od. destruct Od as [h Eh].
    destruct (Nat.ltb_spec t ((N + 1) / 2)), (Nat.ltb_spec (N - t) ((N + 1) / 2)); try lia; rewrite ?E; ring.
Qed.
(** Phase that belongs to a logarithmic magnitude. *)
Definition mp_phase (N : nat) (lg : nat -> R) (k : nat) : R := snd (cdft N (fun t => rc (mp_fold N (cepstrum N lg) t)) k).
Lemma fold_spectrum N lg k : (k < N)%nat -> even_on N lg -> cdft N (fun t => rc (mp_fold N (cepstrum N lg) t)) k = (lg k, mp_phase N lg k).
Proof.
  intros Hk He. apply c_ext; [|reflexivity]. cbn [fst].
  assert (HN : (0 < N)%nat) by lia. pose proof (cdft_cepstrum N lg k Hk He) as E. apply (f_equal fst) in E. rewrite cdft_rc_fst in E. cbn [fst rc] in E.
  rewrite cdft_rc_fst. set (s := rsum N (fun t => mp_fold N (cepstrum N lg) t * fst (root N (Z.of_nat t * Z.of_nat k)))).
  assert (E2 : s = rsum N (fun t => mp_fold N (cepstrum N lg) (rflx N t) * fst (root N (Z.of_nat t * Z.of_nat k)))).
  { unfold s. rewrite rsum_reflect by auto. apply (sum_ext (HA := CRing_R)). intros t Ht. rewrite root_rflx by auto. reflexivity. }
  assert (E3 : s + s = 2 * lg k).
  { rewrite E2 at 2. unfold s. rewrite <- (sum_add (HA := CRing_R)). rewrite <- E. rewrite <- (sum_scal_l (HA := CRing_R)). apply (sum_ext (HA := CRing_R)). intros t Ht.
    change (@radd R CRing_R) with Rplus. change (@rmul R CRing_R) with Rmult. rewrite <- Rmult_plus_distr_r, fold_even by (auto; now apply cepstrum_even). ring. }
  lra.
Qed.
Lemma cdft_real_refl N (w : nat -> R) k : (0 < k < N)%nat -> cdft N (fun t => rc (w t)) (N - k) = cconj (cdft N (fun t => rc (w t)) k).
Proof.
  intros Hk. apply c_ext; cbn [fst snd cconj]; rewrite ?cdft_rc_fst, ?cdft_rc_snd.
  - apply (sum_ext (HA := CRing_R)). intros t Ht. f_equal. rewrite (Z.mul_comm (Z.of_nat t)), root_refl by lia. simpl. f_equal. now rewrite Z.mul_comm.
  - rewrite <- !(sum_opp (HA := CRing_R)). apply (sum_ext (HA := CRing_R)). intros t Ht. change (@ropp R CRing_R) with Ropp. rewrite (Z.mul_comm (Z.of_nat t)), root_refl by lia.
    simpl. rewrite (Z.mul_comm (Z.of_nat t)). ring.
Qed.
Lemma mp_phase_refl N lg k : (0 < k < N)%nat -> mp_phase N lg (N - k) = - mp_phase N lg k.
Proof. intros. unfold mp_phase. now rewrite cdft_real_refl. Qed.
Lemma root_zero_r N t : root N (Z.of_nat t * Z.of_nat 0) = rc 1.
Proof. simpl (Z.of_nat 0). rewrite Z.mul_0_r. apply root_0. Qed.
Lemma mp_phase_0 N lg : mp_phase N lg 0 = 0.
Proof.
  unfold mp_phase. rewrite cdft_rc_snd. rewrite (sum_zero' (HA := CRing_R)). change (@r0 R CRing_R) with 0. ring.
  intros t Ht. rewrite root_zero_r. change (@r0 R CRing_R) with 0. simpl. ring.
Qed.
Lemma mp_phase_mid N lg h : N = (2 * h)%nat -> (0 < h)%nat -> mp_phase N lg h = 0.
Proof. intros E Hh. pose proof (mp_phase_refl N lg h ltac:(lia)) as Q. replace (N - h)%nat with h in Q by lia. lra. Qed.
Lemma cexp_conj z : cexp (cconj z) = cconj (cexp z).
Proof. unfold cexp, cconj. simpl. rewrite cos_neg, sin_neg. apply c_ext; simpl; ring. Qed.
Lemma cexp_abs z : cabs2 (cexp z) = exp (fst z) * exp (fst z).
Proof. unfold cabs2, cexp. simpl. pose proof (sin2_cos2 (snd z)) as H. unfold Rsqr in H. replace 1 with (sin (snd z) * sin (snd z) + cos (snd z) * cos (snd z)) in H by lra.
  transitivity (exp (fst z) * exp (fst z) * (sin (snd z) * sin (snd z) + cos (snd z) * cos (snd z))); [ring|]. replace (sin (snd z) * sin (snd z) + cos (snd z) * cos (snd z)) with 1. ring. pose proof (sin2_cos2 (snd z)) as H'. unfold Rsqr in H'. lra. Qed.
Lemma cexp_add a b : cexp (cadd a b) = cmul (cexp a) (cexp b).
Proof. unfold cexp, cadd, cmul. simpl. rewrite exp_plus, cos_plus, sin_plus. apply c_ext; simpl; ring. Qed.
Lemma cmod_pos z : z <> rc 0 -> 0 < cmod z.
Proof.
  intros H. apply sqrt_lt_R0. unfold cabs2. destruct z as [a b]. simpl.
  destruct (Req_dec a 0) as [->|]; [|nra]. destruct (Req_dec b 0) as [->|]; [|nra]. exfalso. now apply H.
Qed.
Lemma cabs2_nonneg z : 0 <= cabs2 z.
Proof. unfold cabs2. nra. Qed.
Lemma cmod_sq z : cmod z * cmod z = cabs2 z.
Proof. apply sqrt_sqrt. apply cabs2_nonneg. Qed.
Lemma c_is_zero_spec z : c_is_zero z = true <-> z = rc 0.
Proof.
  unfold c_is_zero. destruct (Req_EM_T (fst z) 0), (Req_EM_T (snd z) 0); split; intros H; try discriminate; auto.
  apply c_ext; simpl; auto. all: rewrite H in *; simpl in *; congruence.
Qed.
(** Magnitudes of a real signal are even. *)
Lemma lg_even N (x : list R) : (0 < N)%nat -> even_on N (fun k => ln (cmod (dft N x k))).
Proof.
  intros HN k Hk. destruct (Nat.eq_dec k 0) as [->|H]. now rewrite rflx_0. rewrite rflx_pos by lia. rewrite dft_conj by lia. unfold cmod. now rewrite cabs2_cconj.
Qed.
Definition no_zero_bin (N : nat) (x : list R) : Prop := forall k, (k < N)%nat -> dft N x k <> rc 0.
Lemma mp_spectrum_none N x : mp_spectrum N x = None <-> exists k, (k < N)%nat /\ dft N x k = rc 0.
Proof.
  unfold mp_spectrum. destruct (existsb _ _) eqn:E; split; intros H; auto; try discriminate.
  - apply existsb_exists in E. destruct E as (k & Hk & E). apply in_seq in Hk. exists k. split; [lia|]. now apply c_is_zero_spec.
  - exfalso. destruct H as (k & Hk & H). assert (existsb (fun k => c_is_zero (dft N x k)) (seq 0 N) = true); [|congruence].
    apply existsb_exists. exists k. split. apply in_seq; lia. now apply c_is_zero_spec.
Qed.
Lemma mp_spectrum_some N x : no_zero_bin N x -> exists S, mp_spectrum N x = Some S /\ length S = N /\
  forall k, (k < N)%nat -> nth k S (rc 0) = cexp (ln (cmod (dft N x k)), mp_phase N (fun k => ln (cmod (dft N x k))) k).
Proof.
  intros H. destruct (mp_spectrum N x) as [S|] eqn:E.
  2:{ exfalso. apply mp_spectrum_none in E. destruct E as (k & Hk & E). exact (H k Hk E). }
  exists S. split; auto. unfold mp_spectrum in E. destruct (existsb _ _); [discriminate|]. injection E as <-. split; [apply mk_length|].
  intros k Hk. rewrite nth_mk' by auto. rewrite fold_spectrum; auto. apply lg_even. lia.
Qed.
Lemma mp_bin_abs N x lp k : dft N x k <> rc 0 -> cabs2 (cexp (ln (cmod (dft N x k)), lp)) = cabs2 (dft N x k).
Proof. intros H. rewrite cexp_abs. simpl. rewrite exp_ln by now apply cmod_pos. apply cmod_sq. Qed.
(** The real part of the inverse transform of a Hermitian spectrum has that spectrum. *)
Lemma dft_real_icdft N (X : nat -> C) k : (k < N)%nat -> (forall k, (0 < k < N)%nat -> X (N - k)%nat = cconj (X k)) -> snd (X 0%nat) = 0 ->
  dft N (mk N (fun t => fst (icdft N X t))) k = X k.
Proof.
  intros Hk H H0. rewrite dft_cdft. rewrite <- (cdft_icdft N X k Hk). apply cdft_ext. intros t Ht. rewrite (get_mk (HA := CRing_R)) by auto.
  apply c_ext; [reflexivity|]. simpl snd at 1. symmetry. apply icdft_real; auto. lia.
Qed.
Lemma mp_ir_some N x : (0 < N)%nat -> no_zero_bin N x -> exists h, mp_ir N x = Some h /\ length h = N /\
  forall k, (k < N)%nat -> dft N h k = cexp (ln (cmod (dft N x k)), mp_phase N (fun k => ln (cmod (dft N x k))) k).
Proof.
  intros HN H. destruct (mp_spectrum_some N x H) as (S & E & L & V). unfold mp_ir. rewrite E. cbn [option_map]. eexists. split; [reflexivity|]. split; [apply mk_length|].
  intros k Hk. rewrite dft_real_icdft; auto.
  - intros j Hj. rewrite !V by lia. rewrite <- cexp_conj. rewrite mp_phase_refl by lia. rewrite dft_conj by lia. unfold cmod. rewrite cabs2_cconj. reflexivity.
  - rewrite V by lia. rewrite mp_phase_0. unfold cexp. cbn [fst snd]. rewrite sin_0. ring.
Qed.
Lemma mp_ir_none N x : mp_ir N x = None <-> exists k, (k < N)%nat /\ dft N x k = rc 0.
Proof. unfold mp_ir. rewrite <- mp_spectrum_none. destruct (mp_spectrum N x); simpl; split; congruence. Qed.
