(** C50: transfer function estimates and coherence. *)
From Coq Require Import List Arith Lia ZArith Bool Reals Lra Psatz.
From Verif Require Import Alg Spec M_arrays M_frames P_arrays Dft P_parseval M_scaling Claims_scaling M_welch P_welch Claims_welch M_tf.
Import ListNotations.
Local Open Scope R_scope.
Add Ring crct : (@rth C CRing_C).

(** ** Specification: frame spectra and their products *)
(** Bin k of the spectra of the windowed frames is [fbin] (P_welch.v). *)
Definition Sxx (n : nat) (X : nat -> C) : R := rsum n (fun f => cabs2 (X f)).
Definition Sxy (n : nat) (X Y : nat -> C) : C := csum n (fun f => cmul (cconj (X f)) (Y f)).
Definition misfit (n : nat) (H : C) (X Y : nat -> C) : R := rsum n (fun f => cabs2 (csub (Y f) (cmul H (X f)))).
Lemma Sxx_nonneg n X : 0 <= Sxx n X.
Proof. unfold Sxx. induction n. simpl; lra. cbn [sum]. change (@radd R CRing_R) with Rplus. assert (0 <= cabs2 (X n)) by (unfold cabs2; nra). lra. Qed.
Lemma misfit_eq n H X Y : misfit n H X Y = Sxx n Y + cabs2 H * Sxx n X - 2 * (fst H * fst (Sxy n X Y) + snd H * snd (Sxy n X Y)).
Proof.
  unfold misfit, Sxx, Sxy. induction n. cbn. ring. cbn [sum]. rewrite IHn. change (@radd R CRing_R) with Rplus. change (@radd C CRing_C) with cadd. unfold cabs2, cadd, csub, cmul, cconj. cbn [fst snd]. ring.
Qed.
Lemma misfit_sq n H X Y : 0 < Sxx n X -> misfit n H X Y = Sxx n Y - cabs2 (Sxy n X Y) / Sxx n X + Sxx n X * cabs2 (csub H (cdivr (Sxy n X Y) (Sxx n X))).
Proof. intros P. rewrite misfit_eq. unfold cabs2, csub, cdivr. cbn [fst snd]. field. lra. Qed.
Lemma misfit_nonneg n H X Y : 0 <= misfit n H X Y.
Proof. apply (Sxx_nonneg n (fun f => csub (Y f) (cmul H (X f)))). Qed.
Lemma schwarz n X Y : cabs2 (Sxy n X Y) <= Sxx n X * Sxx n Y.
Proof.
  destruct (Rle_lt_or_eq_dec 0 _ (Sxx_nonneg n X)) as [P|Z].
  - pose proof (misfit_nonneg n (cdivr (Sxy n X Y) (Sxx n X)) X Y) as M. rewrite misfit_sq in M by auto. set (S := Sxy n X Y) in *. set (a := Sxx n X) in *. set (b := Sxx n Y) in *.
    replace (cabs2 (csub (cdivr S a) (cdivr S a))) with 0 in M by (unfold cabs2, csub; cbn; ring).
    assert (Q : cabs2 S / a * a = cabs2 S) by (field; lra). nra.
  - rewrite <- Z. assert (K : forall h, 0 <= Sxx n Y - 2 * (fst h * fst (Sxy n X Y) + snd h * snd (Sxy n X Y))). { intros h. pose proof (misfit_nonneg n h X Y) as M. rewrite misfit_eq, <- Z in M. lra. }
    set (S := Sxy n X Y) in *. set (b := Sxx n Y) in *. pose proof (Sxx_nonneg n Y) as B. fold b in B. destruct (Rle_lt_dec (cabs2 S) 0); [lra|]. exfalso.
    specialize (K (cdivr (cmulr S b) (cabs2 S))). unfold cdivr, cmulr in K. cbn [fst snd] in K.
    replace (fst S * b / cabs2 S * fst S + snd S * b / cabs2 S * snd S) with b in K by (unfold cabs2 in *; field; lra). assert (b = 0) by lra.
    pose proof (misfit_nonneg n S X Y) as M. rewrite misfit_eq, <- Z in M. fold S b in M. unfold cabs2 in *. nra.
Qed.
Lemma Sxy_swap n X Y : Sxy n Y X = cconj (Sxy n X Y).
Proof. unfold Sxy. rewrite csum_conj. apply sum_ext. intros f Hf. rewrite cconj_mul, cconj_conj. apply (Rmul_comm crt). Qed.
Lemma Sxx_zero n X : Sxx n X = 0 -> forall f, (f < n)%nat -> X f = rc 0.
Proof.
  induction n; intros E f Hf. lia. unfold Sxx in *. cbn [sum] in E. change (@radd R CRing_R) with Rplus in E. pose proof (Sxx_nonneg n X). unfold Sxx in *.
  assert (0 <= cabs2 (X n)) by (unfold cabs2; nra). destruct (Nat.eq_dec f n) as [->|]. apply c_norm_zero. lra. apply IHn; [lra|lia].
Qed.

(** ** Model entries in terms of the specification; [amp sc] is the positive factor of the scaling *)
Definition pre_factor (sc : scaling) (w : nat) (fs : R) (window : list R) (n k : nat) : R :=
  match sc with FFTBackward => 1 / INR n | FFTForward => 1 / (INR w * INR w) / INR n | FFTOrthogonal => 1 / INR w / INR n
  | _ => scaling_factor sc w fs (Some window) * onesided w k / 2 / INR n end.
Lemma pre_factor_pos sc w fs window n k : (0 < n)%nat -> (0 < w)%nat -> 0 < fs -> 0 < wsum window -> 0 < wsum2 window -> 0 < pre_factor sc w fs window n k.
Proof.
  intros Hn Hw Hf W1 W2. assert (0 < INR n) by now apply lt_0_INR. assert (0 < INR w) by now apply lt_0_INR.
  assert (P : 0 < sqrt 2 / wsum window) by (apply Rdiv_lt_0_compat; auto; apply sqrt_lt_R0; lra).
  assert (P2 : 0 < sqrt (2 / wsum2 window / fs)) by (apply sqrt_lt_R0; apply Rdiv_lt_0_compat; auto; apply Rdiv_lt_0_compat; lra).
  assert (O : 0 < onesided w k) by (unfold onesided; destruct (k =? 0)%nat; [lra|]; destruct (2 * k =? w)%nat; lra).
  assert (U : forall g, 0 < g -> 0 < g * onesided w k / 2 / INR n). { intros g Hg. apply Rdiv_lt_0_compat; auto. apply Rdiv_lt_0_compat; [|lra]. now apply Rmult_lt_0_compat. }
  destruct sc; cbn [pre_factor scaling_factor is_density is_amplitude]; try (apply U; auto; now apply Rmult_lt_0_compat).
  - apply Rdiv_lt_0_compat; lra.
  - apply Rdiv_lt_0_compat; auto. apply Rdiv_lt_0_compat; [lra|]. now apply Rmult_lt_0_compat.
  - apply Rdiv_lt_0_compat; auto. apply Rdiv_lt_0_compat; lra.
Qed.
Definition fscale (sc : scaling) (w : nat) : R := match sc with FFTForward => INR w | FFTOrthogonal => sqrt (INR w) | _ => 1 end.
Lemma rfft_any sc w f k : (k <= w / 2)%nat -> nth k (rfft_scaled sc w f) (rc 0) = cdivr (dft w f k) (fscale sc w).
Proof.
  intros Hk. assert (E : nth k (rfft w f) (rc 0) = dft w f k) by (unfold rfft; rewrite nth_mk by lia; auto).
  assert (D1 : forall z, cdivr z 1 = z) by (intros z; apply c_ext; cbn; field).
  destruct sc; cbn [rfft_scaled fscale]; rewrite ?D1; auto.
  - rewrite (nth_indep _ (rc 0) (cdivr (rc 0) (INR w))) by (rewrite map_length, rfft_length; lia). rewrite (map_nth (fun z => cdivr z (INR w))). now rewrite E.
  - rewrite (nth_indep _ (rc 0) (cdivr (rc 0) (sqrt (INR w)))) by (rewrite map_length, rfft_length; lia). rewrite (map_nth (fun z => cdivr z (sqrt (INR w)))). now rewrite E.
Qed.
Lemma auto_any sc w s window detrend x k : (k <= w / 2)%nat -> (0 < w)%nat ->
  nth k (average_bins false (w / 2 + 1) (cross_spectra sc w (wframes w s window detrend x) None)) (rc 0) =
  rc (Sxx (nframes s (length x)) (fun i => fbin w s window detrend x i k) / (fscale sc w * fscale sc w) / INR (nframes s (length x))).
Proof.
  intros Hk Hw. unfold average_bins, cross_spectra, wframes. rewrite nth_mk by lia. rewrite !map_mk. rewrite !mean_mk. set (n := nframes s (length x)).
  assert (F0 : fscale sc w <> 0). { assert (0 < INR w) by now apply lt_0_INR. destruct sc; cbn; try lra. apply Rgt_not_eq, sqrt_lt_R0; auto. }
  assert (V : forall f, nth k (map (fun z => rc (cabs2 z)) (rfft_scaled sc w f)) (rc 0) = rc (cabs2 (dft w f k) / (fscale sc w * fscale sc w))).
  { intros f. rewrite (nth_indep _ (rc 0) (rc (cabs2 (rc 0)))). rewrite (map_nth (fun z => rc (cabs2 z))). rewrite rfft_any by auto. f_equal. unfold cabs2, cdivr. cbn [fst snd]. field; auto.
    rewrite map_length. destruct sc; cbn [rfft_scaled]; rewrite ?map_length, rfft_length; lia. }
  apply c_ext; cbn [fst snd].
  - match goal with |- _ = fst (rc ?v) => change (fst (rc v)) with v end. f_equal. unfold Sxx. rewrite (sum_ext (HA := CRing_R) n _ (fun i => cabs2 (fbin w s window detrend x i k) * / (fscale sc w * fscale sc w))).
    apply (sum_scal_r (HA := CRing_R)). intros i Hi. now rewrite V.
  - match goal with |- _ = snd (rc ?v) => change (snd (rc v)) with 0 end. rewrite (sum_zero' (HA := CRing_R)). change (@r0 R CRing_R) with 0. unfold Rdiv. ring. intros i Hi. now rewrite V.
Qed.
Lemma cross_any sc w s window detrend x y k : (k <= w / 2)%nat -> (0 < w)%nat -> length y = length x ->
  nth k (average_bins false (w / 2 + 1) (cross_spectra sc w (wframes w s window detrend x) (Some (wframes w s window detrend y)))) (rc 0) =
  cdivr (Sxy (nframes s (length x)) (fun i => fbin w s window detrend x i k) (fun i => fbin w s window detrend y i k)) (fscale sc w * fscale sc w * INR (nframes s (length x))).
Proof.
  intros Hk Hw HL. unfold average_bins, cross_spectra, wframes. rewrite HL. rewrite nth_mk by lia. rewrite combine_mk. rewrite !map_mk. rewrite !mean_mk. cbn [fst snd]. set (n := nframes s (length x)).
  assert (F0 : fscale sc w <> 0). { assert (0 < INR w) by now apply lt_0_INR. destruct sc; cbn; try lra. apply Rgt_not_eq, sqrt_lt_R0; auto. }
  unfold cdivr, Sxy. rewrite csum_fst, csum_snd. assert (Q : forall a : nat -> R, rsum n (fun i => a i * / (fscale sc w * fscale sc w)) / INR n = rsum n a / (fscale sc w * fscale sc w * INR n)).
  { intros a. transitivity ((rsum n a * / (fscale sc w * fscale sc w)) / INR n). f_equal. apply (sum_scal_r (HA := CRing_R)). unfold Rdiv. rewrite (Rinv_mult (fscale sc w * fscale sc w)). ring. }
  f_equal; rewrite <- Q; f_equal; apply sum_ext; intros i Hi; rewrite nth_mk by lia; rewrite !rfft_any by auto; unfold fbin, cdivr, cmul, cconj; cbn [fst snd]; field; auto.
Qed.
Lemma pre_units sc w fs window n k r : (0 < w)%nat -> (0 < n)%nat ->
  (if has_units sc then r / (fscale sc w * fscale sc w) / INR n * (scaling_factor sc w fs (Some window) * onesided w k / 2) else r / (fscale sc w * fscale sc w) / INR n) = r * pre_factor sc w fs window n k.
Proof.
  intros Hw Hn. assert (0 < INR w) by now apply lt_0_INR. assert (0 < INR n) by now apply lt_0_INR.
  destruct sc; cbn [has_units fscale pre_factor]; try (field; lra). rewrite sqrt_sqrt by lra. field; lra.
Qed.
Definition root_if (sc : scaling) (z : C) : C := if is_amplitude sc then csqrt z else z.
Lemma welch_auto sc w s fs window detrend x k : (2 * (w / 2) = w)%nat -> (8 <= w)%nat -> (k <= w / 2)%nat -> (0 < nframes s (length x))%nat ->
  nth k (welch_val x None fs window w s detrend false sc) (rc 0) =
  root_if sc (rc (Sxx (nframes s (length x)) (fun i => fbin w s window detrend x i k) * pre_factor sc w fs window (nframes s (length x)) k)).
Proof.
  intros W2 W8 Hk Hn. unfold welch_val. cbn [option_map]. rewrite welch_scale_entry; auto; [|apply mk_length]. rewrite auto_any by lia. cbv zeta. fold (root_if sc). 
  rewrite <- pre_units by lia. unfold root_if. destruct (has_units sc), (is_amplitude sc); auto; f_equal; apply c_ext; cbn; ring.
Qed.
Lemma welch_cross sc w s fs window detrend x y k : (2 * (w / 2) = w)%nat -> (8 <= w)%nat -> (k <= w / 2)%nat -> (0 < nframes s (length x))%nat -> length y = length x ->
  nth k (welch_val x (Some y) fs window w s detrend false sc) (rc 0) =
  root_if sc (cmulr (Sxy (nframes s (length x)) (fun i => fbin w s window detrend x i k) (fun i => fbin w s window detrend y i k)) (pre_factor sc w fs window (nframes s (length x)) k)).
Proof.
  intros W2 W8 Hk Hn HL. unfold welch_val. cbn [option_map]. rewrite welch_scale_entry; auto; [|apply mk_length]. rewrite cross_any by (auto; lia). cbv zeta. set (n := nframes s (length x)). set (S := Sxy _ _ _).
  assert (E : (if has_units sc then cmulr (cdivr S (fscale sc w * fscale sc w * INR n)) (scaling_factor sc w fs (Some window) * onesided w k / 2) else cdivr S (fscale sc w * fscale sc w * INR n)) = cmulr S (pre_factor sc w fs window n k)).
  { assert (F0 : fscale sc w <> 0). { assert (0 < INR w) by (apply lt_0_INR; lia). destruct sc; cbn; try lra. apply Rgt_not_eq, sqrt_lt_R0; auto. }
    assert (N0 : INR n <> 0) by (apply not_0_INR; unfold n; lia).
    apply c_ext; unfold cmulr at 2; cbn [fst snd]; rewrite <- pre_units by (unfold n; lia); destruct (has_units sc); cbn; field; auto. }
  rewrite E. reflexivity.
Qed.

(** The setting: equal lengths and rates, valid sizes, more than one frame. *)
Record tf_ready (outs ins : list (list R)) (fs : R) (window : list R) (w overlap : nat) : Prop := {
  tr_size : valid_size w = true; tr_over : (overlap < w)%nat; tr_fs : 0 < fs; tr_w1 : 0 < wsum window; tr_w2 : 0 < wsum2 window;
  tr_ch : length ins = 1%nat \/ length ins = length outs; tr_out : outs <> [];
  tr_in_len : forall c, (c < length ins)%nat -> length (nth c ins []) = length (hd [] outs);
  tr_out_len : forall c, (c < length outs)%nat -> length (nth c outs []) = length (hd [] outs);
  tr_long : (w - overlap < length (hd [] outs))%nat }.
Definition frames_of (outs : list (list R)) (w overlap : nat) : nat := ((length (hd [] outs) + (w - overlap - 1)) / (w - overlap))%nat.
Definition in_of (ins : list (list R)) (c : nat) : list R := nth (if (length ins =? 1)%nat then 0%nat else c) ins [].
Lemma hd_nth {T} (d : T) l : hd d l = nth 0 l d.
Proof. now destruct l. Qed.
(** Shape of the result, for every scaling. *)
Lemma tf_result mode outs ins fs window w overlap detrend sc : tf_ready outs ins fs window w overlap ->
  exists res, compute_tf mode outs ins fs fs window w overlap detrend false sc = Ok res /\ length res = length outs /\
    forall c k, (c < length outs)%nat -> (k <= w / 2)%nat ->
      let n := frames_of outs w overlap in let s := (w - overlap)%nat in
      let X f := fbin w s window detrend (in_of ins c) f k in let Y f := fbin w s window detrend (nth c outs []) f k in
      let P := pre_factor sc w fs window n k in
      (0 < n)%nat /\ 0 < P /\
      nth k (fst (nth c res ([], []))) None = tf_bin mode (root_if sc (rc (Sxx n X * P))) (root_if sc (rc (Sxx n Y * P))) (root_if sc (cmulr (Sxy n Y X) P)) (root_if sc (cmulr (Sxy n X Y) P)) /\
      nth k (snd (nth c res ([], []))) None = coherence_bin (root_if sc (rc (Sxx n X * P))) (root_if sc (rc (Sxx n Y * P))) (root_if sc (cmulr (Sxy n X Y) P)).
Proof.
  intros [Hv Ho Hf W1 W2 Hc Hne HI HO Hl]. destruct (valid_even w Hv) as [E2 E8]. unfold compute_tf. destruct (Req_EM_T fs fs) as [_|]; [|congruence].
  assert (Lo : (0 < length outs)%nat) by (destruct outs; [congruence|simpl; lia]). assert (Li : (0 < length ins)%nat) by lia.
  rewrite (hd_nth [] ins), HI by auto. rewrite Nat.eqb_refl. cbn [negb].
  replace ((length ins =? 1)%nat || (length ins =? length outs)%nat) with true by (symmetry; apply orb_true_iff; rewrite !Nat.eqb_eq; auto). cbn [negb].
  set (L := length (hd [] outs)) in *. set (n := ((L + (w - overlap - 1)) / (w - overlap))%nat).
  assert (Hn : (1 < n)%nat). { unfold n. apply Nat.lt_le_trans with 2%nat; auto. apply Nat.div_le_lower_bound; lia. }
  assert (LX : forall c, (c < length outs)%nat -> length (in_of ins c) = L). { intros c Hcc. unfold in_of. apply HI. destruct (Nat.eqb_spec (length ins) 1); lia. }
  set (V := fun (c : nat) x y => welch_val x y fs window w (w - overlap) detrend false sc).
  set (chan := fun c : nat => (mk (w / 2 + 1) (fun k => tf_bin mode (nth k (V c (in_of ins c) None) (rc 0)) (nth k (V c (nth c outs []) None) (rc 0)) (nth k (V c (nth c outs []) (Some (in_of ins c))) (rc 0)) (nth k (V c (in_of ins c) (Some (nth c outs []))) (rc 0))),
     mk (w / 2 + 1) (fun k => coherence_bin (nth k (V c (in_of ins c) None) (rc 0)) (nth k (V c (nth c outs []) None) (rc 0)) (nth k (V c (in_of ins c) (Some (nth c outs []))) (rc 0))))).
  rewrite (sequence_mk _ _ chan).
  2:{ intros c Hcc. fold (in_of ins c). unfold tf_channel.
      assert (WE : forall x y, length x = L -> (forall y0, y = Some y0 -> length y0 = length x) -> welch true x y fs window w overlap detrend false sc = Ok (V c x y)).
      { intros x y Lx Ly. rewrite welch_eq by auto. rewrite Lx. change (nframes (w - overlap) L) with n. destruct (Nat.eqb_spec n 1); [lia|]. reflexivity. }
      rewrite !WE; try (apply LX; auto); try (apply HO; auto); try discriminate. reflexivity.
      intros y0 [= <-]. rewrite LX, HO; auto. intros y0 [= <-]. rewrite LX, HO; auto. }
  eexists. split; [reflexivity|]. split. apply mk_length. intros c k Hcc Hk. cbv zeta. change (frames_of outs w overlap) with n.
  split; [lia|]. split. apply pre_factor_pos; auto; lia. rewrite nth_mk by auto. unfold chan. cbn [fst snd]. rewrite !nth_mk by lia. unfold V.
  rewrite !welch_auto, !welch_cross by (auto; rewrite ?LX, ?HO by auto; auto; change (nframes (w - overlap) L) with n; lia). rewrite !LX, !HO by auto. change (nframes (w - overlap) L) with n. split; reflexivity.
Qed.
Lemma czero_rc r : c_is_zero (rc r) = if Req_EM_T r 0 then true else false.
Proof. unfold c_is_zero, rc. cbn [fst snd]. destruct (Req_EM_T r 0); auto. destruct (Req_EM_T 0 0); congruence. Qed.
Lemma czero_false z : z <> rc 0 -> c_is_zero z = false.
Proof. intros H. unfold c_is_zero. destruct (Req_EM_T (fst z) 0), (Req_EM_T (snd z) 0); auto. exfalso. apply H. apply c_ext; auto. Qed.
Lemma cdiv_rc a r : r <> 0 -> cdiv a (rc r) = Some (cdivr a r).
Proof. intros H. unfold cdiv. rewrite czero_rc. destruct (Req_EM_T r 0); [congruence|]. f_equal. apply c_ext; unfold cinv; cbn; field; auto. Qed.

(** ** Theorems for power scalings *)
Definition power (sc : scaling) : Prop := sc = PowerSpectrum \/ sc = PowerSpectralDensity.
(** H1 is the least-squares transfer function between the frame spectra; H2 the inverse of the least-squares one from output to input. *)
Theorem C50_h1_least_squares :
  forall outs ins fs window w overlap detrend sc, tf_ready outs ins fs window w overlap -> power sc ->
  exists res, compute_tf H1 outs ins fs fs window w overlap detrend false sc = Ok res /\
    forall c k, (c < length outs)%nat -> (k <= w / 2)%nat ->
      let n := frames_of outs w overlap in let X f := fbin w (w - overlap) window detrend (in_of ins c) f k in let Y f := fbin w (w - overlap) window detrend (nth c outs []) f k in
      (exists f, (f < n)%nat /\ X f <> rc 0) ->
      exists H, nth k (fst (nth c res ([], []))) None = Some H /\ forall H', misfit n H X Y <= misfit n H' X Y /\ (misfit n H' X Y = misfit n H X Y -> H' = H).
Proof.
  intros outs ins fs window w overlap detrend sc R Hs. destruct (tf_result H1 outs ins fs window w overlap detrend sc R) as (res & E & _ & V). exists res. split; auto.
  intros c k Hc Hk n X Y (f & Hf & Hx). destruct (V c k Hc Hk) as (N0 & P0 & T & _). clear V. fold n in N0, P0, T. fold X Y in T. set (P := pre_factor sc w fs window n k) in *.
  assert (S0 : 0 < Sxx n X). { destruct (Rle_lt_or_eq_dec 0 _ (Sxx_nonneg n X)) as [|Z]; auto. exfalso. apply Hx. apply (Sxx_zero n X); auto. }
  assert (RI : forall z, root_if sc z = z) by (intros z; destruct Hs as [-> | ->]; reflexivity). rewrite !RI in T. cbn [tf_bin] in T. rewrite cdiv_rc in T by nra.
  exists (cdivr (Sxy n X Y) (Sxx n X)). split. { rewrite T. f_equal. apply c_ext; cbn; field; lra. }
  intros H'. rewrite !misfit_sq by auto. set (S := Sxy n X Y). replace (cabs2 (csub (cdivr S (Sxx n X)) (cdivr S (Sxx n X)))) with 0 by (unfold cabs2, csub; cbn; ring).
  set (d := csub H' (cdivr S (Sxx n X))). assert (D : 0 <= cabs2 d) by (unfold cabs2; nra). split. nra. intros Q. assert (cabs2 d = 0) by nra.
  assert (Z : d = rc 0) by now apply c_norm_zero. unfold d in Z. apply c_ext; [apply (f_equal fst) in Z|apply (f_equal snd) in Z]; cbn in Z; cbn; lra.
Qed.
Print Assumptions C50_h1_least_squares.
(** Coherence lies between 0 and 1; |H1| <= |H3| <= |H2|, and H1 is the coherence times H2. *)
Theorem C50_coherence_and_order :
  forall outs ins fs window w overlap detrend sc, tf_ready outs ins fs window w overlap -> power sc ->
  exists r1 r2 r3, compute_tf H1 outs ins fs fs window w overlap detrend false sc = Ok r1 /\ compute_tf H2 outs ins fs fs window w overlap detrend false sc = Ok r2 /\
    compute_tf H3 outs ins fs fs window w overlap detrend false sc = Ok r3 /\
    forall c k, (c < length outs)%nat -> (k <= w / 2)%nat ->
      let n := frames_of outs w overlap in let X f := fbin w (w - overlap) window detrend (in_of ins c) f k in let Y f := fbin w (w - overlap) window detrend (nth c outs []) f k in
      ((exists f, (f < n)%nat /\ X f <> rc 0) -> (exists f, (f < n)%nat /\ Y f <> rc 0) ->
        exists g, 0 <= g <= 1 /\ (forall r, In r [r1; r2; r3] -> nth k (snd (nth c r ([], []))) None = Some g) /\
        (g <> 0 -> exists h1 h2 h3, nth k (fst (nth c r1 ([], []))) None = Some h1 /\ nth k (fst (nth c r2 ([], []))) None = Some h2 /\ nth k (fst (nth c r3 ([], []))) None = Some h3 /\
          h1 = cmulr h2 g /\ h1 = cmulr h3 (sqrt g) /\ cabs2 h1 <= cabs2 h3 <= cabs2 h2)).
Proof.
  intros outs ins fs window w overlap detrend sc R Hs.
  destruct (tf_result H1 outs ins fs window w overlap detrend sc R) as (r1 & E1 & _ & V1). destruct (tf_result H2 outs ins fs window w overlap detrend sc R) as (r2 & E2 & _ & V2). destruct (tf_result H3 outs ins fs window w overlap detrend sc R) as (r3 & E3 & _ & V3).
  exists r1, r2, r3. do 3 (split; auto). intros c k Hc Hk n X Y (f & Hf & Hx) (f' & Hf' & Hy).
  destruct (V1 c k Hc Hk) as (N0 & P0 & T1 & Co1). destruct (V2 c k Hc Hk) as (_ & _ & T2 & Co2). destruct (V3 c k Hc Hk) as (_ & _ & T3 & Co3). clear V1 V2 V3. fold n in N0, P0, T1, T2, T3, Co1, Co2, Co3. fold X Y in T1, T2, T3, Co1, Co2, Co3. set (P := pre_factor sc w fs window n k) in *.
  assert (RI : forall z, root_if sc z = z) by (intros z; destruct Hs as [-> | ->]; reflexivity). cbn [tf_bin] in T1, T2, T3. rewrite (Sxy_swap n X Y) in T2. rewrite !RI in T1. rewrite !RI in T2. rewrite !RI in T3. rewrite !RI in Co1. rewrite !RI in Co2. rewrite !RI in Co3.
  assert (A0 : 0 < Sxx n X). { destruct (Rle_lt_or_eq_dec 0 _ (Sxx_nonneg n X)) as [|Z]; auto. exfalso. apply Hx. apply (Sxx_zero n X); auto. }
  assert (B0 : 0 < Sxx n Y). { destruct (Rle_lt_or_eq_dec 0 _ (Sxx_nonneg n Y)) as [|Z]; auto. exfalso. apply Hy. apply (Sxx_zero n Y); auto. }
  pose proof (schwarz n X Y) as CS. set (a := Sxx n X) in *. set (b := Sxx n Y) in *. set (S := Sxy n X Y) in *. set (q := cabs2 S) in *. assert (Q0 : 0 <= q) by (unfold q, cabs2; nra).
  assert (AP : a * P <> 0) by nra. assert (BP : b * P <> 0) by nra. set (g := q / (a * b)). assert (AB : 0 < a * b) by now apply Rmult_lt_0_compat.
  assert (G0 : 0 <= g) by (apply Rmult_le_pos; auto; left; now apply Rinv_0_lt_compat).
  assert (G1 : g <= 1). { unfold g. apply (Rmult_le_reg_r (a * b)); auto. unfold Rdiv. rewrite Rmult_assoc, Rinv_l by lra. lra. }
  assert (CB : coherence_bin (rc (a * P)) (rc (b * P)) (cmulr S P) = Some g).
  { unfold coherence_bin. rewrite cdiv_rc by auto. cbn [option_map]. rewrite cdiv_rc by auto. cbn [option_map]. f_equal. unfold cdivr, rc, g, q, cabs2, cmulr. cbn [fst snd]. field. repeat split; lra. }
  exists g. split; auto. split. { intros r [<-|[<-|[<-|[]]]]; congruence. }
  intros Gn. assert (Qp : 0 < q). { destruct (Rle_lt_or_eq_dec 0 q Q0); auto. exfalso. apply Gn. unfold g. rewrite <- e. unfold Rdiv. ring. }
  rewrite cdiv_rc in T1 by auto.
  assert (Nz : cmulr (cconj S) P <> rc 0). { intros Z. assert (fst S = 0 /\ snd S = 0). { pose proof (f_equal fst Z) as Z1. pose proof (f_equal snd Z) as Z2. cbn in Z1, Z2. split; nra. } unfold q, cabs2 in Qp. nra. }
  unfold cdiv in T2. rewrite (czero_false _ Nz) in T2.
  assert (M : cabs2 (cmulr S P) = q * (P * P)) by (unfold q, cabs2, cmulr; cbn [fst snd]; ring).
  assert (SM : sqrt (cabs2 (cmulr S P)) = sqrt q * P). { rewrite M. rewrite sqrt_mult_alt by lra. rewrite sqrt_square by lra. auto. }
  assert (Sq : 0 < sqrt q) by now apply sqrt_lt_R0. assert (Sqq : sqrt q * sqrt q = q) by (apply sqrt_sqrt; lra).
  rewrite SM in T3. rewrite cdiv_rc in T3 by nra. rewrite cdiv_rc in T3 by auto.
  assert (BA : 0 <= b / a) by (apply Rmult_le_pos; [lra|left; now apply Rinv_0_lt_compat]).
  replace (cdivr (rc (b * P)) (a * P)) with (rc (b / a)) in T3 by (apply c_ext; cbn; field; lra). rewrite csqrt_rc in T3 by auto.
  set (h1 := cdivr (cmulr S P) (a * P)) in *. set (h2 := cmul (rc (b * P)) (cinv (cmulr (cconj S) P))) in *. set (h3 := cmul (cdivr (cmulr S P) (sqrt q * P)) (rc (sqrt (b / a)))) in *.
  exists h1, h2, h3. do 3 (split; auto).
  assert (I1 : h1 = cdivr S a) by (unfold h1; apply c_ext; cbn; field; lra).
  assert (I2 : h2 = cmulr S (b / q)). { unfold h2, cinv. cbv zeta. replace (fst (cmulr (cconj S) P) * fst (cmulr (cconj S) P) + snd (cmulr (cconj S) P) * snd (cmulr (cconj S) P)) with (q * (P * P)) by (unfold q, cabs2, cmulr, cconj; cbn [fst snd]; ring).
    apply c_ext; unfold cmulr, cconj, cmul, rc; cbn [fst snd]; field; lra. }
  assert (I3 : h3 = cmulr S (sqrt (b / a) / sqrt q)). { unfold h3. apply c_ext; cbn; field; split; lra. }
  assert (Sg : sqrt g = sqrt q / (sqrt a * sqrt b)). { unfold g. rewrite sqrt_div_alt by auto. now rewrite sqrt_mult_alt by lra. }
  assert (Sba : sqrt (b / a) = sqrt b / sqrt a) by (apply sqrt_div_alt; auto). assert (0 < sqrt a) by now apply sqrt_lt_R0. assert (0 < sqrt b) by now apply sqrt_lt_R0.
  assert (Ha : sqrt a * sqrt a = a) by (apply sqrt_sqrt; lra). assert (Hb : sqrt b * sqrt b = b) by (apply sqrt_sqrt; lra).
  split. { rewrite I1, I2. unfold g. apply c_ext; cbn; field; repeat split; lra. }
  split. { rewrite I1, I3, Sg, Sba. assert (K : / a = sqrt b / sqrt a / sqrt q * (sqrt q / (sqrt a * sqrt b))). { rewrite <- Ha at 1. field. repeat split; lra. }
           unfold cdivr, cmulr. cbn [fst snd]. unfold Rdiv at 1 2. rewrite K. f_equal; ring. }
  assert (C1 : cabs2 h1 = q / (a * a)). { rewrite I1. unfold q, cabs2, cdivr. cbn [fst snd]. field. lra. }
  assert (C2 : cabs2 h2 = b * b / q). { rewrite I2. transitivity (q * (b / q) * (b / q)). unfold q, cabs2, cmulr; cbn [fst snd]; ring. field. lra. }
  assert (C3 : cabs2 h3 = b / a). { rewrite I3, Sba. set (r := sqrt q) in *. transitivity (cabs2 S * (sqrt b * sqrt b) / (sqrt a * sqrt a) / (r * r)). unfold cabs2, cmulr; cbn [fst snd]; field; split; lra. rewrite Ha, Hb, Sqq. fold q. field; lra. }
  rewrite C1, C2, C3. split.
  - apply (Rmult_le_reg_r (a * a)). nra. replace (q / (a * a) * (a * a)) with q by (field; lra). replace (b / a * (a * a)) with (a * b) by (field; lra). auto.
  - apply (Rmult_le_reg_r (a * q)). nra. replace (b / a * (a * q)) with (b * q) by (field; lra). replace (b * b / q * (a * q)) with (b * (a * b)) by (field; lra). apply Rmult_le_compat_l; lra.
Qed.
Print Assumptions C50_coherence_and_order.
Lemma exact_sums n h X Y : (forall f, (f < n)%nat -> Y f = cmul h (X f)) -> Sxy n X Y = cmulr h (Sxx n X) /\ Sxx n Y = cabs2 h * Sxx n X.
Proof.
  intros E. split.
  - unfold Sxy, Sxx. rewrite (sum_ext (HA := CRing_C) n _ (fun f => h *! rc (cabs2 (X f)))). rewrite sum_scal_l, csum_rc. apply c_ext; cbn; ring.
    intros f Hf. rewrite E by auto. apply c_ext; unfold cabs2; cbn; ring.
  - unfold Sxx. rewrite (sum_ext (HA := CRing_R) n _ (fun f => cabs2 h * cabs2 (X f))). apply (sum_scal_l (HA := CRing_R)). intros f Hf. rewrite E by auto. unfold cabs2, cmul. cbn [fst snd]. ring.
Qed.
(** A system that multiplies every frame spectrum by h is found exactly by all three estimators, with coherence one. *)
Theorem C50_exact_system :
  forall mode outs ins fs window w overlap detrend sc, tf_ready outs ins fs window w overlap -> power sc ->
  exists res, compute_tf mode outs ins fs fs window w overlap detrend false sc = Ok res /\
    forall c k h, (c < length outs)%nat -> (k <= w / 2)%nat -> h <> rc 0 ->
      let n := frames_of outs w overlap in let X f := fbin w (w - overlap) window detrend (in_of ins c) f k in let Y f := fbin w (w - overlap) window detrend (nth c outs []) f k in
      (exists f, (f < n)%nat /\ X f <> rc 0) -> (forall f, (f < n)%nat -> Y f = cmul h (X f)) ->
      nth k (fst (nth c res ([], []))) None = Some h /\ nth k (snd (nth c res ([], []))) None = Some 1.
Proof.
  intros mode outs ins fs window w overlap detrend sc R Hs. destruct (tf_result mode outs ins fs window w overlap detrend sc R) as (res & E & _ & V). exists res. split; auto.
  intros c k h Hc Hk Hh n X Y (f & Hf & Hx) Ex. destruct (V c k Hc Hk) as (N0 & P0 & T & Co). clear V. fold n in N0, P0, T, Co. fold X Y in T, Co. set (P := pre_factor sc w fs window n k) in *.
  assert (RI : forall z, root_if sc z = z) by (intros z; destruct Hs as [-> | ->]; reflexivity). rewrite !RI in T. rewrite !RI in Co.
  assert (A0 : 0 < Sxx n X). { destruct (Rle_lt_or_eq_dec 0 _ (Sxx_nonneg n X)) as [|Z]; auto. exfalso. apply Hx. apply (Sxx_zero n X); auto. }
  destruct (exact_sums n h X Y Ex) as [E1 E2]. rewrite (Sxy_swap n X Y) in T. rewrite E1, E2 in T, Co. set (A := Sxx n X) in *.
  assert (H2 : 0 < cabs2 h). { destruct (Rle_lt_or_eq_dec 0 (cabs2 h)) as [|Z]; auto. unfold cabs2; nra. exfalso. apply Hh. now apply c_norm_zero. }
  assert (AP : 0 < A * P) by nra. assert (BP : 0 < cabs2 h * A * P) by nra.
  split.
  - rewrite T. destruct mode; cbn [tf_bin].
    + rewrite cdiv_rc by lra. f_equal. apply c_ext; cbn; field; lra.
    + unfold cdiv. rewrite czero_false.
      2:{ intros Z. apply Hh. pose proof (f_equal fst Z) as Z1. pose proof (f_equal snd Z) as Z2. cbn in Z1, Z2. apply c_ext; cbn; nra. }
      f_equal. unfold cinv. cbv zeta. set (z := cmulr (cconj (cmulr h A)) P). replace (fst z * fst z + snd z * snd z) with (cabs2 h * (A * A * P * P)) by (unfold z, cabs2, cmulr, cconj; cbn [fst snd]; ring).
      unfold z. apply c_ext; unfold cmulr, cconj, cmul, rc; cbn [fst snd]; field; lra.
    + assert (M : sqrt (cabs2 (cmulr (cmulr h A) P)) = sqrt (cabs2 h) * (A * P)).
      { replace (cabs2 (cmulr (cmulr h A) P)) with (cabs2 h * ((A * P) * (A * P))) by (unfold cabs2, cmulr; cbn [fst snd]; ring). rewrite sqrt_mult_alt by lra. rewrite sqrt_square by lra. auto. }
      assert (S0 : 0 < sqrt (cabs2 h)) by now apply sqrt_lt_R0. rewrite M. rewrite cdiv_rc by nra. rewrite cdiv_rc by lra.
      replace (cdivr (rc (cabs2 h * A * P)) (A * P)) with (rc (cabs2 h)) by (apply c_ext; cbn; field; lra). rewrite csqrt_rc by lra. f_equal. apply c_ext; cbn; field; repeat split; lra.
  - rewrite Co. unfold coherence_bin. rewrite cdiv_rc by lra. rewrite cdiv_rc by lra. cbn [option_map]. f_equal.
    replace (cabs2 (cmulr (cmulr h A) P)) with (cabs2 h * (A * A * P * P)) by (unfold cabs2, cmulr; cbn [fst snd]; ring). unfold cdivr, rc. cbn [fst snd]. field. lra.
Qed.
Print Assumptions C50_exact_system.
(** With any amplitude scaling - also the default one, FFTBackward - H1 returns the square root of the system instead. *)
Theorem C50_amplitude_root :
  forall outs ins fs window w overlap detrend sc, tf_ready outs ins fs window w overlap -> ~ power sc ->
  exists res, compute_tf H1 outs ins fs fs window w overlap detrend false sc = Ok res /\
    forall c k h, (c < length outs)%nat -> (k <= w / 2)%nat ->
      let n := frames_of outs w overlap in let X f := fbin w (w - overlap) window detrend (in_of ins c) f k in let Y f := fbin w (w - overlap) window detrend (nth c outs []) f k in
      (exists f, (f < n)%nat /\ X f <> rc 0) -> (forall f, (f < n)%nat -> Y f = cmul h (X f)) ->
      exists g, nth k (fst (nth c res ([], []))) None = Some g /\ cmul g g = h.
Proof.
  intros outs ins fs window w overlap detrend sc R Hs. destruct (tf_result H1 outs ins fs window w overlap detrend sc R) as (res & E & _ & V). exists res. split; auto.
  intros c k h Hc Hk n X Y (f & Hf & Hx) Ex. destruct (V c k Hc Hk) as (N0 & P0 & T & _). clear V. fold n in N0, P0, T. fold X Y in T. set (P := pre_factor sc w fs window n k) in *.
  assert (RI : forall z, root_if sc z = csqrt z). { intros z. unfold root_if. destruct sc; auto; exfalso; apply Hs; [now left|now right]. } rewrite !RI in T.
  assert (A0 : 0 < Sxx n X). { destruct (Rle_lt_or_eq_dec 0 _ (Sxx_nonneg n X)) as [|Z]; auto. exfalso. apply Hx. apply (Sxx_zero n X); auto. }
  destruct (exact_sums n h X Y Ex) as [E1 _]. rewrite E1 in T. set (A := Sxx n X) in *. assert (AP : 0 < A * P) by nra. assert (S0 : 0 < sqrt (A * P)) by now apply sqrt_lt_R0.
  cbn [tf_bin] in T. rewrite csqrt_rc in T by lra. rewrite cdiv_rc in T by lra. eexists. split; [exact T|].
  set (z := cmulr (cmulr h A) P). assert (Q : cmul (csqrt z) (csqrt z) = z).
  { unfold csqrt. set (r := sqrt (cabs2 z)). assert (R2 : r * r = cabs2 z) by (apply sqrt_sqrt; unfold cabs2; nra). assert (R0 : 0 <= r) by apply sqrt_pos.
    assert (fst z <= r /\ - fst z <= r). { unfold cabs2 in R2. split; nra. } 
    assert (U : sqrt ((r + fst z) / 2) * sqrt ((r + fst z) / 2) = (r + fst z) / 2) by (apply sqrt_sqrt; lra). assert (W : sqrt ((r - fst z) / 2) * sqrt ((r - fst z) / 2) = (r - fst z) / 2) by (apply sqrt_sqrt; lra).
    assert (M : sqrt ((r + fst z) / 2) * sqrt ((r - fst z) / 2) = Rabs (snd z) / 2).
    { rewrite <- sqrt_mult_alt by lra. replace ((r + fst z) / 2 * ((r - fst z) / 2)) with (Rabs (snd z) / 2 * (Rabs (snd z) / 2)). apply sqrt_square. pose proof (Rabs_pos (snd z)). lra.
      assert (Rabs (snd z) * Rabs (snd z) = snd z * snd z). { rewrite <- Rabs_mult. apply Rabs_pos_eq. nra. } unfold cabs2 in R2. nra. }
    apply c_ext; unfold cmul; cbn [fst snd]; destruct (Rlt_dec (snd z) 0).
    - nra. - nra. - rewrite (Rabs_left (snd z)) in M by auto. nra. - rewrite (Rabs_right (snd z)) in M by lra. nra. }
  assert (SS : sqrt (A * P) * sqrt (A * P) = A * P) by (apply sqrt_sqrt; lra). set (u := csqrt z) in *. set (r := sqrt (A * P)) in *.
  transitivity (cdivr z (A * P)); [|apply c_ext; unfold z; cbn; field; lra]. rewrite <- Q, <- SS. apply c_ext; cbn; field; lra.
Qed.
Print Assumptions C50_amplitude_root.
Lemma fbin_scale w s window detrend x a i k : fbin w s window detrend (map (fun v => a * v) x) i k = cmul (rc a) (fbin w s window detrend x i k).
Proof.
  unfold fbin, dft. assert (WS : forall t, wsample s window (map (fun v => a * v) x) i t = a * wsample s window x i t).
  { intros t. unfold wsample. replace (get (map (fun v => a * v) x) (i * s + t)) with (a * get x (i * s + t)). ring. unfold get. change (@r0 R CRing_R) with 0. replace 0 with (a * 0) at 2 by ring. symmetry. apply (map_nth (fun v => a * v)). }
  assert (WV : forall t, wvalue w s window detrend (map (fun v => a * v) x) i t = a * wvalue w s window detrend x i t).
  { intros t. unfold wvalue. destruct detrend; [|apply WS]. rewrite WS. rewrite (sum_ext (HA := CRing_R) w (wsample s window (map (fun v => a * v) x) i) (fun t => a * wsample s window x i t)) by (intros; apply WS).
    replace (rsum w (fun t0 => a * wsample s window x i t0)) with (a * rsum w (wsample s window x i)) by (symmetry; apply (sum_scal_l (HA := CRing_R))). unfold Rdiv. ring. }
  transitivity (csum w (fun t => rc a *! (rc (get (mk w (wvalue w s window detrend x i)) t) *! root w (- (Z.of_nat t * Z.of_nat k))))).
  { apply sum_ext. intros t Ht. rewrite !get_mk by auto. rewrite WV, rc_mul. change cmul with (@rmul C CRing_C). ring. }
  rewrite sum_scal_l. reflexivity.
Qed.
(** In particular a gain: found exactly with a power scaling, for every signal. *)
Theorem C50_gain :
  forall mode x a fs window w overlap detrend sc, tf_ready [map (fun v => a * v) x] [x] fs window w overlap -> power sc -> a <> 0 ->
  exists tf coh, compute_tf mode [map (fun v => a * v) x] [x] fs fs window w overlap detrend false sc = Ok [(tf, coh)] /\
    forall k, (k <= w / 2)%nat -> (exists f, (f < frames_of [x] w overlap)%nat /\ fbin w (w - overlap) window detrend x f k <> rc 0) -> nth k tf None = Some (rc a) /\ nth k coh None = Some 1.
Proof.
  intros mode x a fs window w overlap detrend sc R Hs Ha. destruct (C50_exact_system mode _ _ fs window w overlap detrend sc R Hs) as (res & E & V).
  destruct (tf_result mode _ _ fs window w overlap detrend sc R) as (res' & E' & L & _). rewrite E in E'. injection E' as <-. destruct res as [|[tf coh] [|]]; try discriminate L. exists tf, coh. split; auto.
  intros k Hk Hx. apply (V 0%nat k (rc a)); auto. intros Z. apply (f_equal fst) in Z. cbn in Z. lra.
  - unfold frames_of in *. cbn [hd] in *. rewrite map_length. exact Hx.
  - intros f Hf. apply fbin_scale.
Qed.
Print Assumptions C50_gain.
Lemma ready_ones : tf_ready [map (fun v => 4 * v) (repeat 1 16)] [repeat 1 16] 48000 (repeat 1 8) 8 4.
Proof.
  constructor; try reflexivity; try lia; try lra.
  - rewrite wsum_ones. simpl; lra. - rewrite wsum2_ones. simpl; lra. - now left. - discriminate.
  - intros [|c] Hc; [reflexivity|simpl in Hc; lia]. - intros [|c] Hc; [reflexivity|simpl in Hc; lia]. - simpl. lia.
Qed.
Example C50_example : tf_ready [map (fun v => 4 * v) (repeat 1 16)] [repeat 1 16] 48000 (repeat 1 8) 8 4 /\ fbin 8 4 (repeat 1 8) false (repeat 1 16) 0 0 <> rc 0.
Proof.
  split. apply ready_ones. assert (E : fbin 8 4 (repeat 1 8) false (repeat 1 16) 0 0 = rc (INR 8)).
  { unfold fbin. rewrite <- dft_ones_0. f_equal. apply mk_eq. intros t Ht. unfold wvalue, wsample. rewrite !get_rep by lia. ring. }
  rewrite E. intros Z. apply (f_equal fst) in Z. simpl in Z. lra.
Qed.
(** With the default scaling a gain of 4 is not reported as 4. *)
Theorem C50_default_scaling_refuted :
  ~ (forall x a fs window w overlap tf coh, tf_ready [map (fun v => a * v) x] [x] fs window w overlap -> 0 < a ->
      compute_tf H1 [map (fun v => a * v) x] [x] fs fs window w overlap false false FFTBackward = Ok [(tf, coh)] ->
      fbin w (w - overlap) window false x 0 0 <> rc 0 -> nth 0 tf None = Some (rc a)).
Proof.
  intros H. destruct C50_example as [R Hx].
  destruct (C50_amplitude_root _ _ _ _ _ _ false FFTBackward R) as (res & E & V). { intros [C|C]; discriminate C. }
  destruct (tf_result H1 _ _ _ _ _ _ false FFTBackward R) as (res' & E' & L & _). rewrite E in E'. injection E' as <-. destruct res as [|[tf coh] [|]]; try (simpl in L; lia).
  destruct (V 0%nat 0%nat (rc 4)) as (g & G & GG); try (simpl; lia).
  - exists 0%nat. split; [apply Nat.ltb_lt; reflexivity|]. exact Hx.
  - intros f Hf. apply fbin_scale.
  - cbn [nth fst] in G. rewrite (H (repeat 1 16) 4 48000 (repeat 1 8) 8%nat 4%nat tf coh R ltac:(lra) E Hx) in G. injection G as <-. apply (f_equal fst) in GG. cbn in GG. lra.
Qed.
Print Assumptions C50_default_scaling_refuted.
