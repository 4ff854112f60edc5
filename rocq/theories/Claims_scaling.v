(** C33, C47: spectrum scalings and the FFT spectrum of a signal. *)
From Coq Require Import List Arith Lia ZArith Bool Reals Lra Psatz.
From Verif Require Import Alg Spec M_arrays Dft P_parseval M_scaling.
Import ListNotations.
Local Open Scope R_scope.
Add Ring crs : (@rth C CRing_C).

(** ** C33 *)
(** What a scaling means: the amplitude per unit of the unscaled FFT magnitude ... *)
Definition unit_amplitude (s : scaling) (n : nat) (fs : R) (w : list R) : R :=
  match s with
  | FFTBackward => 1
  | FFTForward => / INR n
  | FFTOrthogonal => / sqrt (INR n)
  | AmplitudeSpectrum | PowerSpectrum => sqrt 2 / wsum w
  | AmplitudeSpectralDensity | PowerSpectralDensity => sqrt (2 / (fs * wsum2 w))
  end.
(** ... and power scalings hold its square. *)
Definition reading (s : scaling) (n : nat) (fs : R) (w : list R) (X : R) : R :=
  let a := unit_amplitude s n fs w * X in match s with PowerSpectrum | PowerSpectralDensity => a * a | _ => a end.
Definition amplitude_kind (s : scaling) : Prop := s <> PowerSpectrum /\ s <> PowerSpectralDensity.
Definition params_ok (n : nat) (fs : R) (w : list R) : Prop := (0 < n)%nat /\ 0 < fs /\ wsum w <> 0 /\ 0 < wsum2 w.
Definition win_of (n : nat) (o : option (list R)) : list R := match o with Some w => w | None => repeat 1 n end.
Lemma wsum_ones n : wsum (repeat 1 n) = INR n.
Proof. unfold wsum. induction n. reflexivity. rewrite S_INR. cbn [repeat fold_right]. rewrite IHn. lra. Qed.
Lemma wsum2_ones n : wsum2 (repeat 1 n) = INR n.
Proof. unfold wsum2. induction n. reflexivity. rewrite S_INR. cbn [repeat map fold_right]. rewrite IHn. lra. Qed.
(** No window is the window of ones. *)
Theorem C33_no_window_is_ones :
  forall s n fs, scaling_factor s n fs None = scaling_factor s n fs (Some (repeat 1 n)).
Proof. intros s n fs. unfold scaling_factor. rewrite wsum_ones, wsum2_ones. reflexivity. Qed.
Print Assumptions C33_no_window_is_ones.
Lemma factor_none s n fs o : scaling_factor s n fs o = scaling_factor s n fs (Some (win_of n o)).
Proof. destruct o; auto. apply C33_no_window_is_ones. Qed.
Lemma factor_unit s n fs w : params_ok n fs w ->
  scaling_factor s n fs (Some w) = (if is_amplitude s then unit_amplitude s n fs w else unit_amplitude s n fs w * unit_amplitude s n fs w) /\ unit_amplitude s n fs w <> 0.
Proof.
  intros (Hn & Hf & H1 & H2). apply lt_0_INR in Hn. assert (S2 : 0 < sqrt 2) by (apply sqrt_lt_R0; lra). assert (SN : 0 < sqrt (INR n)) by now apply sqrt_lt_R0.
  assert (E : 2 / wsum2 w / fs = 2 / (fs * wsum2 w)) by (field; lra).
  assert (P : 0 < sqrt (2 / (fs * wsum2 w))). { apply sqrt_lt_R0. apply Rdiv_lt_0_compat. lra. nra. }
  destruct s; cbn [scaling_factor is_amplitude is_density unit_amplitude]; rewrite ?E; split; auto; try lra.
  - intros C. apply Rmult_integral in C as [C|C]. lra. now apply Rinv_neq_0_compat in C.
  - intros C. apply Rmult_integral in C as [C|C]. lra. now apply Rinv_neq_0_compat in C.
  - assert (0 < / INR n) by now apply Rinv_0_lt_compat. lra.
  - unfold Rdiv. rewrite Rmult_1_l. now apply sqrt_inv.
  - assert (0 < / sqrt (INR n)) by now apply Rinv_0_lt_compat. lra.
Qed.
(** The factor applied to a magnitude (amplitude scalings) or its square (power scalings) gives the reading. *)
Theorem C33_scaling_factor :
  forall s n fs o X, params_ok n fs (win_of n o) ->
  (amplitude_kind s -> scaling_factor s n fs o * X = reading s n fs (win_of n o) X) /\
  (~ amplitude_kind s -> scaling_factor s n fs o * (X * X) = reading s n fs (win_of n o) X).
Proof.
  intros s n fs o X H. rewrite factor_none. destruct (factor_unit s n fs _ H) as [-> _]. unfold amplitude_kind, reading.
  destruct s; cbn [is_amplitude]; split; intros K; try ring; try (exfalso; destruct K; congruence); exfalso; apply K; split; discriminate.
Qed.
Print Assumptions C33_scaling_factor.
(** Converting: between readings of one kind the factor is applied directly; otherwise to the squared amplitude. *)
Theorem C33_conversion :
  forall a b n fs o X, params_ok n fs (win_of n o) ->
  let k := conversion_factor a b n fs o in let va := reading a n fs (win_of n o) X in let vb := reading b n fs (win_of n o) X in
  (amplitude_kind a <-> amplitude_kind b -> vb = k * va) /\
  (amplitude_kind a -> ~ amplitude_kind b -> vb = k * (va * va)) /\
  (~ amplitude_kind a -> amplitude_kind b -> vb * vb = k * va).
Proof.
  intros a b n fs o X H k va vb. unfold k, va, vb, conversion_factor. rewrite (factor_none a), (factor_none b).
  destruct (factor_unit a n fs _ H) as [-> Na], (factor_unit b n fs _ H) as [-> Nb]. set (ua := unit_amplitude a n fs _) in *. set (ub := unit_amplitude b n fs _) in *.
  assert (KA : amplitude_kind a <-> is_amplitude a = true) by (unfold amplitude_kind; destruct a; cbn; split; try congruence; try (intros [? ?]; congruence); split; discriminate).
  assert (KB : amplitude_kind b <-> is_amplitude b = true) by (unfold amplitude_kind; destruct b; cbn; split; try congruence; try (intros [? ?]; congruence); split; discriminate).
  rewrite KA, KB. unfold reading. fold ua ub.
  replace (match a with PowerSpectrum | PowerSpectralDensity => ua * X * (ua * X) | _ => ua * X end) with (if is_amplitude a then ua * X else ua * X * (ua * X)) by (destruct a; reflexivity).
  replace (match b with PowerSpectrum | PowerSpectralDensity => ub * X * (ub * X) | _ => ub * X end) with (if is_amplitude b then ub * X else ub * X * (ub * X)) by (destruct b; reflexivity).
  destruct (is_amplitude a), (is_amplitude b); cbn [Bool.eqb]; split; [|split| |split| |split| |split]; intros; try (exfalso; intuition congruence); field; auto.
Qed.
Print Assumptions C33_conversion.
(** There and back is the identity; conversions of one kind compose. *)
Theorem C33_inverse_and_chain :
  forall a b c n fs o, params_ok n fs (win_of n o) ->
  conversion_factor a b n fs o * conversion_factor b a n fs o = 1 /\ conversion_factor a a n fs o = 1 /\
  (is_amplitude a = is_amplitude b -> is_amplitude b = is_amplitude c -> conversion_factor a c n fs o = conversion_factor a b n fs o * conversion_factor b c n fs o).
Proof.
  intros a b c n fs o H. unfold conversion_factor. rewrite (factor_none a), (factor_none b), (factor_none c).
  destruct (factor_unit a n fs _ H) as [-> Na], (factor_unit b n fs _ H) as [-> Nb], (factor_unit c n fs _ H) as [-> Nc].
  destruct (is_amplitude a), (is_amplitude b), (is_amplitude c); cbn [Bool.eqb]; (split; [field; auto|split; [field; auto|]]); intros; try discriminate; field; auto.
Qed.
Print Assumptions C33_inverse_and_chain.
Example C33_example : params_ok 4 48000 (win_of 4 (Some [0; 1; 2; 1])) /\ params_ok 4 48000 (win_of 4 None).
Proof. unfold params_ok, wsum, wsum2. cbn. repeat split; lra || lia. Qed.

(** ** C47 *)
Lemma length_mod n : (0 < n)%nat -> ((n =? (n / 2 + 1 - 1) * 2) || (n =? (n / 2 + 1) * 2 - 1))%nat = true.
Proof.
  intros Hn. pose proof (Nat.div_mod n 2 ltac:(lia)) as D. pose proof (Nat.mod_upper_bound n 2 ltac:(lia)) as B. apply orb_true_iff. rewrite !Nat.eqb_eq. lia.
Qed.
Lemma nth_upd_c (l : list C) i j v : (i < length l)%nat -> nth j (upd l i v) (rc 0) = if Nat.eqb j i then v else nth j l (rc 0).
Proof. intros. now apply (get_upd (HA := CRing_C)). Qed.
Lemma cdivr_sqrt2 z : cabs2 (cdivr z (sqrt 2)) = cabs2 z / 2.
Proof.
  unfold cabs2, cdivr. cbn. assert (S2 : 0 < sqrt 2) by (apply sqrt_lt_R0; lra). pose proof (sqrt_sqrt 2 ltac:(lra)) as Q.
  replace (fst z / sqrt 2 * (fst z / sqrt 2) + snd z / sqrt 2 * (snd z / sqrt 2)) with ((fst z * fst z + snd z * snd z) / (sqrt 2 * sqrt 2)) by (field; lra). now rewrite Q.
Qed.
Lemma cdivr_cdivr2 z : cdivr z 1 = z.
Proof. apply c_ext; cbn; lra. Qed.
(** Divisor of bin k: sqrt 2 where the bin exists once in the two-sided spectrum. *)
Definition edge_div (n k : nat) : R := if (k =? 0)%nat then sqrt 2 else if (2 * k =? n)%nat then sqrt 2 else 1.
Lemma scale_spectrum_eq x s n fs o : (1 < n)%nat ->
  exists out, scale_spectrum (rfft n x) s n fs o = Ok out /\ length out = (n / 2 + 1)%nat /\
  forall k, (k <= n / 2)%nat -> nth k out (rc 0) =
    let z := cdivr (dft n x k) (edge_div n k) in cmulr (if is_amplitude s then z else rc (cabs2 z)) (scaling_factor s n fs o).
Proof.
  intros Hn. unfold scale_spectrum. rewrite rfft_length, length_mod by lia. eexists. split; [reflexivity|].
  pose proof (Nat.div_mod n 2 ltac:(lia)) as D. pose proof (Nat.mod_upper_bound n 2 ltac:(lia)) as B.
  set (X1 := upd (rfft n x) 0 _). assert (L1 : length X1 = (n / 2 + 1)%nat) by (unfold X1; now rewrite upd_length, rfft_length).
  set (X2 := if (n mod 2 =? 0)%nat then _ else X1). assert (L2 : length X2 = (n / 2 + 1)%nat) by (unfold X2; destruct (n mod 2 =? 0)%nat; rewrite ?upd_length; auto).
  assert (V : forall k, (k <= n / 2)%nat -> nth k X2 (rc 0) = cdivr (dft n x k) (edge_div n k)).
  { intros k Hk. assert (V1 : nth k X1 (rc 0) = if (k =? 0)%nat then cdivr (dft n x k) (sqrt 2) else dft n x k).
    { unfold X1. rewrite nth_upd_c by (rewrite rfft_length; lia). unfold rfft. destruct (Nat.eqb_spec k 0) as [->|]; rewrite nth_mk by lia; auto. }
    unfold X2, edge_div. destruct (Nat.eqb_spec (n mod 2) 0) as [E|E].
    - rewrite nth_upd_c by lia. rewrite L1. replace (n / 2 + 1 - 1)%nat with (n / 2)%nat by lia. destruct (Nat.eqb_spec k (n / 2)) as [->|Hk'].
      + unfold X1. rewrite nth_upd_c by (rewrite rfft_length; lia). destruct (Nat.eqb_spec (n / 2) 0); [lia|]. unfold rfft. rewrite nth_mk by lia. destruct (Nat.eqb_spec (2 * (n / 2)) n); [auto|lia].
      + rewrite V1. destruct (Nat.eqb_spec k 0); auto. destruct (Nat.eqb_spec (2 * k) n); [lia|]. symmetry; apply cdivr_cdivr2.
    - rewrite V1. destruct (Nat.eqb_spec k 0); auto. destruct (Nat.eqb_spec (2 * k) n); [lia|]. symmetry; apply cdivr_cdivr2. }
  split. rewrite map_length. destruct (is_amplitude s); rewrite ?map_length; auto.
  intros k Hk. cbv zeta. rewrite (nth_indep _ (rc 0) (cmulr (rc 0) (scaling_factor s n fs o))) by (rewrite map_length; destruct (is_amplitude s); rewrite ?map_length; lia).
  rewrite (map_nth (fun z => cmulr z (scaling_factor s n fs o))). f_equal. destruct (is_amplitude s). auto.
  rewrite (nth_indep _ (rc 0) (rc (cabs2 (rc 0)))) by (rewrite map_length; lia). rewrite (map_nth (fun z => rc (cabs2 z))). now rewrite V.
Qed.
Lemma edge_onesided n k : / (edge_div n k * edge_div n k) = onesided n k / 2.
Proof. unfold edge_div, onesided. pose proof (sqrt_sqrt 2 ltac:(lra)) as Q. destruct (k =? 0)%nat; [|destruct (2 * k =? n)%nat]; rewrite ?Q; lra. Qed.
Lemma edge_pos n k : 0 < edge_div n k.
Proof. unfold edge_div. assert (0 < sqrt 2) by (apply sqrt_lt_R0; lra). destruct (k =? 0)%nat; [|destruct (2 * k =? n)%nat]; lra. Qed.
(** The unscaled energy in a power spectrum. *)
Lemma power_total x s n fs o : (1 < n)%nat -> has_units s = true -> is_amplitude s = false ->
  exists out, fft_spectrum x s n fs o = Ok out /\ length out = (n / 2 + 1)%nat /\ (forall k, (k <= n / 2)%nat -> snd (nth k out (rc 0)) = 0) /\
  rsum (n / 2 + 1) (fun k => fst (nth k out (rc 0))) = scaling_factor s n fs o / 2 * (INR n * rsum n (fun t => get x t * get x t)).
Proof.
  intros Hn Hu Ha. unfold fft_spectrum. rewrite Hu. replace (rfft_scaled s n x) with (rfft n x) by (destruct s; auto; discriminate).
  destruct (scale_spectrum_eq x s n fs o Hn) as (out & E & L & V). exists out. split; auto. split; auto. rewrite Ha in V. split.
  - intros k Hk. rewrite V by auto. cbn. ring.
  - rewrite <- parseval_onesided by lia. rewrite <- (sum_scal_l (HA := CRing_R)). apply sum_ext. intros k Hk. rewrite V by lia. change (@rmul R CRing_R) with Rmult.
    cbv zeta. unfold cmulr, rc. cbn [fst snd]. unfold cdivr. unfold cabs2 at 1. cbn [fst snd].
    pose proof (edge_onesided n k) as Q. pose proof (edge_pos n k).
    replace (fst (dft n x k) / edge_div n k * (fst (dft n x k) / edge_div n k) + snd (dft n x k) / edge_div n k * (snd (dft n x k) / edge_div n k)) with (cabs2 (dft n x k) * / (edge_div n k * edge_div n k)).
    rewrite Q. lra. unfold cabs2. field. lra.
Qed.
(** Parseval: the power spectrum sums up to the mean square of the signal over the FFT length; integrating the density gives the same. *)
Theorem C47_parseval :
  forall x n fs, (1 < n)%nat -> 0 < fs ->
  let mean_square := rsum n (fun t => get x t * get x t) / INR n in
  (exists ps, fft_spectrum x PowerSpectrum n fs None = Ok ps /\ length ps = (n / 2 + 1)%nat /\ rsum (n / 2 + 1) (fun k => fst (nth k ps (rc 0))) = mean_square) /\
  (exists psd, fft_spectrum x PowerSpectralDensity n fs None = Ok psd /\ length psd = (n / 2 + 1)%nat /\ rsum (n / 2 + 1) (fun k => fst (nth k psd (rc 0)) * (fs / INR n)) = mean_square).
Proof.
  intros x n fs Hn Hf ms. assert (N0 : 0 < INR n) by (apply lt_0_INR; lia). pose proof (sqrt_sqrt 2 ltac:(lra)) as Q. split.
  - destruct (power_total x PowerSpectrum n fs None Hn eq_refl eq_refl) as (out & E & L & _ & S). exists out. split; auto. split; auto. rewrite S. cbn. unfold ms.
    replace (sqrt 2 / INR n * (sqrt 2 / INR n)) with ((sqrt 2 * sqrt 2) / (INR n * INR n)) by (field; lra). rewrite Q. field. lra.
  - destruct (power_total x PowerSpectralDensity n fs None Hn eq_refl eq_refl) as (out & E & L & _ & S). exists out. split; auto. split; auto.
    transitivity (rsum (n / 2 + 1) (fun k => fst (nth k out (rc 0))) * (fs / INR n)); [apply (sum_scal_r (HA := CRing_R))|]. rewrite S. cbn. unfold ms.
    assert (0 < 2 / INR n / fs) by (apply Rdiv_lt_0_compat; auto; apply Rdiv_lt_0_compat; lra). rewrite sqrt_sqrt by lra. field. lra.
Qed.
Print Assumptions C47_parseval.
(** With the window stored in an impulse response: the density integrates to the energy over the energy of the window. *)
Theorem C47_parseval_windowed :
  forall x n fs w, (1 < n)%nat -> 0 < fs -> 0 < wsum2 w ->
  exists psd, fft_spectrum x PowerSpectralDensity n fs (Some w) = Ok psd /\
    rsum (n / 2 + 1) (fun k => fst (nth k psd (rc 0)) * (fs / INR n)) = rsum n (fun t => get x t * get x t) / wsum2 w.
Proof.
  intros x n fs w Hn Hf Hw. assert (N0 : 0 < INR n) by (apply lt_0_INR; lia).
  destruct (power_total x PowerSpectralDensity n fs (Some w) Hn eq_refl eq_refl) as (out & E & L & _ & S). exists out. split; auto.
  transitivity (rsum (n / 2 + 1) (fun k => fst (nth k out (rc 0))) * (fs / INR n)); [apply (sum_scal_r (HA := CRing_R))|]. rewrite S. cbn.
  assert (0 < 2 / wsum2 w / fs) by (apply Rdiv_lt_0_compat; auto; apply Rdiv_lt_0_compat; lra). rewrite sqrt_sqrt by lra. field. lra.
Qed.
Print Assumptions C47_parseval_windowed.
(** The squared magnitude of an amplitude spectrum is the power spectrum, bin by bin. *)
Theorem C47_amplitude_squared_is_power :
  forall x n fs o, (1 < n)%nat ->
  exists a p da dp, fft_spectrum x AmplitudeSpectrum n fs o = Ok a /\ fft_spectrum x PowerSpectrum n fs o = Ok p /\
    fft_spectrum x AmplitudeSpectralDensity n fs o = Ok da /\ fft_spectrum x PowerSpectralDensity n fs o = Ok dp /\
    forall k, (k <= n / 2)%nat -> nth k p (rc 0) = rc (cabs2 (nth k a (rc 0))) /\ nth k dp (rc 0) = rc (cabs2 (nth k da (rc 0))).
Proof.
  intros x n fs o Hn. unfold fft_spectrum. cbn [has_units rfft_scaled].
  destruct (scale_spectrum_eq x AmplitudeSpectrum n fs o Hn) as (a & Ea & _ & Va). destruct (scale_spectrum_eq x PowerSpectrum n fs o Hn) as (p & Ep & _ & Vp).
  destruct (scale_spectrum_eq x AmplitudeSpectralDensity n fs o Hn) as (da & Eda & _ & Vda). destruct (scale_spectrum_eq x PowerSpectralDensity n fs o Hn) as (dp & Edp & _ & Vdp).
  exists a, p, da, dp. do 4 (split; [assumption|]). intros k Hk. rewrite Va, Vp, Vda, Vdp by auto. cbn [is_amplitude scaling_factor is_density]. cbv zeta. unfold cmulr, rc. cbn [fst snd]. split.
  - apply c_ext; unfold cabs2; cbn [fst snd]; destruct o; ring.
  - apply c_ext; unfold cabs2; cbn [fst snd]; destruct o; ring.
Qed.
Print Assumptions C47_amplitude_squared_is_power.
(** A cosine on bin m reads its RMS value there (with its phase) and nothing elsewhere. *)
Lemma dft_cosine n m A phi k : (0 < n)%nat -> (0 < m)%nat -> (2 * m < n)%nat -> (k <= n / 2)%nat ->
  dft n (mk n (fun t => A * cos (2 * PI * INR m * INR t / INR n + phi))) k = if (k =? m)%nat then cmulr (cis phi) (A * INR n / 2) else rc 0.
Proof.
  intros Hn Hm Hm2 Hk. assert (N0 : 0 < INR n) by (apply lt_0_INR; lia). pose proof (Nat.div_mod n 2 ltac:(lia)) as D. pose proof (Nat.mod_upper_bound n 2 ltac:(lia)) as B.
  assert (HC : forall t, rc (A * cos (2 * PI * INR m * INR t / INR n + phi)) = rc (A / 2) *! cis phi *! root n (Z.of_nat t * Z.of_nat m) +! rc (A / 2) *! cconj (cis phi) *! root n (- (Z.of_nat t * Z.of_nat m))).
  { intros t. rewrite root_opp. assert (Er : root n (Z.of_nat t * Z.of_nat m) = cis (2 * PI * INR m * INR t / INR n)).
    { unfold root. f_equal. rewrite mult_IZR, <- !INR_IZR_INZ. field. lra. }
    rewrite Er. rewrite cos_plus. apply c_ext; cbn; field. }
  unfold dft.
  transitivity (csum n (fun t => rc (A / 2) *! cis phi *! root n (Z.of_nat t * (Z.of_nat m - Z.of_nat k)) +! rc (A / 2) *! cconj (cis phi) *! root n (Z.of_nat t * (- Z.of_nat m - Z.of_nat k)))).
  { apply sum_ext. intros t Ht. rewrite get_mk by auto. rewrite HC.
    replace (Z.of_nat t * (Z.of_nat m - Z.of_nat k))%Z with (Z.of_nat t * Z.of_nat m + - (Z.of_nat t * Z.of_nat k))%Z by ring.
    replace (Z.of_nat t * (- Z.of_nat m - Z.of_nat k))%Z with (- (Z.of_nat t * Z.of_nat m) + - (Z.of_nat t * Z.of_nat k))%Z by ring.
    rewrite !root_add. change cmul with (@rmul C CRing_C). ring. }
  rewrite sum_add, !sum_scal_l, !root_sum by auto. rewrite mod_diff0 by lia.
  assert (E2 : ((- Z.of_nat m - Z.of_nat k) mod Z.of_nat n =? 0)%Z = false).
  { apply Z.eqb_neq. intros E. apply Z.mod_divide in E; [|lia]. destruct E as [q E]. assert (q = -1 \/ q <= -2 \/ 0 <= q)%Z by lia. nia. }
  rewrite E2. destruct (k =? m)%nat.
  - apply c_ext; cbn; field.
  - apply c_ext; cbn; ring.
Qed.
Theorem C47_cosine_reads_rms :
  forall n m A phi fs, (0 < m)%nat -> (2 * m < n)%nat ->
  exists sp, fft_spectrum (mk n (fun t => A * cos (2 * PI * INR m * INR t / INR n + phi))) AmplitudeSpectrum n fs None = Ok sp /\
    forall k, (k <= n / 2)%nat -> nth k sp (rc 0) = if (k =? m)%nat then cmulr (cis phi) (A / sqrt 2) else rc 0.
Proof.
  intros n m A phi fs Hm Hm2. unfold fft_spectrum. cbn [has_units rfft_scaled].
  destruct (scale_spectrum_eq (mk n (fun t => A * cos (2 * PI * INR m * INR t / INR n + phi))) AmplitudeSpectrum n fs None ltac:(lia)) as (sp & E & _ & V). exists sp. split; auto.
  intros k Hk. rewrite V by auto. rewrite dft_cosine by lia. cbn [is_amplitude scaling_factor is_density]. cbv zeta. assert (N0 : 0 < INR n) by (apply lt_0_INR; lia).
  assert (S2 : 0 < sqrt 2) by (apply sqrt_lt_R0; lra). pose proof (sqrt_sqrt 2 ltac:(lra)) as Q.
  destruct (Nat.eqb_spec k m) as [->|Hne].
  - unfold edge_div. destruct (Nat.eqb_spec m 0); [lia|]. destruct (Nat.eqb_spec (2 * m) n); [lia|].
    assert (EQ : A * INR n / 2 / 1 * (sqrt 2 / INR n) = A / sqrt 2). { transitivity (A * (sqrt 2 * sqrt 2) / 2 / sqrt 2). field. lra. rewrite Q. field. lra. }
    rewrite <- EQ. apply c_ext; cbn; field; lra.
  - apply c_ext; cbn; unfold Rdiv; ring.
Qed.
Print Assumptions C47_cosine_reads_rms.
(** A constant reads its value in bin 0 (RMS of a constant). *)
Theorem C47_constant_reads_value :
  forall n A fs, (1 < n)%nat -> exists sp, fft_spectrum (repeat A n) AmplitudeSpectrum n fs None = Ok sp /\ nth 0 sp (rc 0) = rc A.
Proof.
  intros n A fs Hn. unfold fft_spectrum. cbn [has_units rfft_scaled]. destruct (scale_spectrum_eq (repeat A n) AmplitudeSpectrum n fs None Hn) as (sp & E & _ & V). exists sp. split; auto.
  rewrite V by lia. assert (N0 : 0 < INR n) by (apply lt_0_INR; lia). assert (S2 : 0 < sqrt 2) by (apply sqrt_lt_R0; lra).
  assert (D : dft n (repeat A n) 0 = rc (A * INR n)).
  { unfold dft. rewrite (sum_ext (HA := CRing_C) n _ (fun t => rc A)).
    - rewrite (csum_rc n (fun _ => A)). f_equal. clear. induction n. simpl; ring. rewrite S_INR. cbn [sum]. rewrite IHn. change (@radd R CRing_R) with Rplus. ring.
    - intros t Ht. rewrite Z.mul_0_r. cbn [Z.opp]. rewrite root_0. unfold get. rewrite (nth_indep _ _ A) by now rewrite repeat_length. rewrite nth_repeat. apply c_ext; simpl; ring. }
  rewrite D. cbn. apply c_ext; cbn; field; lra.
Qed.
Print Assumptions C47_constant_reads_value.
(** The FFT normalizations are the unscaled FFT times the scaling factor; the orthogonal one keeps the energy. *)
Theorem C47_fft_norms :
  forall x s n fs o, (0 < n)%nat -> has_units s = false ->
  exists sp, fft_spectrum x s n fs o = Ok sp /\ length sp = (n / 2 + 1)%nat /\ (forall k, (k <= n / 2)%nat -> nth k sp (rc 0) = cmulr (dft n x k) (scaling_factor s n fs o)) /\
  (s = FFTOrthogonal -> rsum (n / 2 + 1) (fun k => onesided n k * cabs2 (nth k sp (rc 0))) = rsum n (fun t => get x t * get x t)).
Proof.
  intros x s n fs o Hn Hu. unfold fft_spectrum. rewrite Hu. exists (rfft_scaled s n x). split; auto. assert (N0 : 0 < INR n) by (apply lt_0_INR; lia).
  assert (SN : 0 < sqrt (INR n)) by now apply sqrt_lt_R0.
  assert (V : forall k, (k <= n / 2)%nat -> nth k (rfft_scaled s n x) (rc 0) = cmulr (dft n x k) (scaling_factor s n fs o)).
  { intros k Hk. destruct s; try discriminate; cbn [rfft_scaled scaling_factor].
    - unfold rfft. rewrite nth_mk by lia. apply c_ext; cbn; ring.
    - rewrite (nth_indep _ (rc 0) (cdivr (rc 0) (INR n))) by (rewrite map_length, rfft_length; lia). rewrite (map_nth (fun z => cdivr z (INR n))). unfold rfft. rewrite nth_mk by lia. apply c_ext; cbn; field; lra.
    - rewrite (nth_indep _ (rc 0) (cdivr (rc 0) (sqrt (INR n)))) by (rewrite map_length, rfft_length; lia). rewrite (map_nth (fun z => cdivr z (sqrt (INR n)))). unfold rfft. rewrite nth_mk by lia.
      replace (1 / INR n) with (/ INR n) by (field; lra). rewrite sqrt_inv. reflexivity. }
  split. { destruct s; cbn [rfft_scaled]; rewrite ?map_length; apply rfft_length. } split; auto.
  intros ->. cbn [scaling_factor] in V.
  rewrite (sum_ext (HA := CRing_R) (n / 2 + 1) _ (fun k => / INR n * (onesided n k * cabs2 (dft n x k)))).
  - transitivity (/ INR n * rsum (n / 2 + 1) (fun k => onesided n k * cabs2 (dft n x k))); [apply (sum_scal_l (HA := CRing_R))|]. rewrite parseval_onesided by auto. field. lra.
  - intros k Hk. rewrite V by lia. unfold cabs2, cmulr. cbn [fst snd].
    assert (Q : sqrt (1 / INR n) * sqrt (1 / INR n) = / INR n). { rewrite sqrt_sqrt. field; lra. left. apply Rdiv_lt_0_compat; lra. }
    set (q := sqrt (1 / INR n)) in *. rewrite <- Q. ring.
Qed.
Print Assumptions C47_fft_norms.
Example C47_example : exists ps, fft_spectrum [1; -1; 2] PowerSpectrum 3 48000 None = Ok ps /\ rsum 2 (fun k => fst (nth k ps (rc 0))) = 2.
Proof.
  destruct (C47_parseval [1; -1; 2] 3 48000 ltac:(lia) ltac:(lra)) as ((ps & E & _ & S) & _). exists ps. split; auto. change (3 / 2 + 1)%nat with 2%nat in S. rewrite S.
  cbn. lra.
Qed.
