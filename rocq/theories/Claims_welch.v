(** C48, C49: Welch's method and cross-spectral matrices. *)
From Coq Require Import List Arith Lia ZArith Bool Reals Lra Psatz.
From Verif Require Import Alg Spec M_arrays M_frames P_arrays Dft P_parseval M_scaling Claims_scaling M_welch P_welch.
Import ListNotations.
Local Open Scope R_scope.
Add Ring crcw : (@rth C CRing_C).

(** ** C48 *)
Lemma welch_power_entry x fs window w s detrend sc k : valid_size w = true -> has_units sc = true -> is_amplitude sc = false -> (k <= w / 2)%nat ->
  nth k (welch_val x None fs window w s detrend false sc) (rc 0) =
  rc (scaling_factor sc w fs (Some window) / 2 / INR (nframes s (length x)) * (onesided w k * rsum (nframes s (length x)) (fun i => cabs2 (fbin w s window detrend x i k)))).
Proof.
  intros Hv Hu Ha Hk. destruct (valid_even w Hv) as [W2 W8]. unfold welch_val. cbn [option_map]. rewrite welch_scale_entry; auto; [|apply mk_length]. rewrite auto_mean by auto. rewrite Hu, Ha.
  cbv zeta. apply c_ext; cbn; unfold Rdiv; ring.
Qed.
(** The energy of the windowed frame i (zero padding after the end of the signal). *)
Definition frame_energy (w s : nat) (window x : list R) (i : nat) : R := rsum w (fun t => (get window t * get x (i * s + t)%nat) * (get window t * get x (i * s + t)%nat)).
(** Parseval for Welch: the density integrates to the mean energy of the windowed frames over the energy of the window. *)
Theorem C48_total_power :
  forall one_d x fs window w overlap, valid_size w = true -> (overlap < w)%nat -> (w - overlap < length x)%nat -> 0 < fs -> 0 < wsum2 window ->
  let s := (w - overlap)%nat in let n := ((length x + (s - 1)) / s)%nat in
  exists psd, welch one_d x None fs window w overlap false false PowerSpectralDensity = Ok psd /\ length psd = (w / 2 + 1)%nat /\
    rsum (w / 2 + 1) (fun k => fst (nth k psd (rc 0)) * (fs / INR w)) = rsum n (frame_energy w s window x) / INR n / wsum2 window.
Proof.
  intros one_d x fs window w overlap Hv Ho Hl Hf Hw s n. destruct (valid_even w Hv) as [W2 W8].
  assert (Hn : (1 < n)%nat). { unfold n. apply Nat.lt_le_trans with 2%nat; auto. apply Nat.div_le_lower_bound; lia. }
  exists (welch_val x None fs window w s false false PowerSpectralDensity). rewrite welch_eq by (auto; discriminate). fold s. change (nframes s (length x)) with n.
  destruct (Nat.eqb_spec n 1); [lia|]. rewrite andb_false_r. split; auto. split. apply welch_val_length.
  assert (N0 : 0 < INR n) by (apply lt_0_INR; lia). assert (W0 : 0 < INR w) by (apply lt_0_INR; lia).
  set (g := scaling_factor PowerSpectralDensity w fs (Some window)). assert (G : g = 2 / wsum2 window / fs).
  { unfold g. cbn. apply sqrt_sqrt. left. apply Rdiv_lt_0_compat; auto. apply Rdiv_lt_0_compat; lra. }
  rewrite (sum_ext (HA := CRing_R) (w / 2 + 1) _ (fun k => g / 2 / INR n * (fs / INR w) * rsum n (fun i => onesided w k * cabs2 (fbin w s window false x i k)))).
  2:{ intros k Hk. rewrite welch_power_entry by (auto; lia). cbn [rc fst]. fold g. change (nframes s (length x)) with n.
      replace (rsum n (fun i => onesided w k * cabs2 (fbin w s window false x i k))) with (onesided w k * rsum n (fun i => cabs2 (fbin w s window false x i k))) by (symmetry; apply (sum_scal_l (HA := CRing_R))). unfold rc; cbn [fst]. ring. }
  transitivity (g / 2 / INR n * (fs / INR w) * rsum (w / 2 + 1) (fun k => rsum n (fun i => onesided w k * cabs2 (fbin w s window false x i k)))); [apply (sum_scal_l (HA := CRing_R))|].
  rewrite (sum_exchange (HA := CRing_R)).
  rewrite (sum_ext (HA := CRing_R) n _ (fun i => INR w * frame_energy w s window x i)).
  - transitivity (g / 2 / INR n * (fs / INR w) * (INR w * rsum n (frame_energy w s window x))). f_equal. apply (sum_scal_l (HA := CRing_R)). rewrite G. field. lra.
  - intros i Hi. unfold fbin. rewrite parseval_onesided by lia. f_equal. unfold frame_energy. apply sum_ext. intros t Ht. now rewrite get_mk.
Qed.
Print Assumptions C48_total_power.
(** The auto spectrum is real, never negative, and a gain a on the signal multiplies it by a squared. *)
Theorem C48_real_and_homogeneous :
  forall one_d x a fs window w overlap detrend s out, valid_size w = true -> (overlap < w)%nat -> x <> [] -> s = PowerSpectrum \/ s = PowerSpectralDensity ->
  welch one_d x None fs window w overlap detrend false s = Ok out ->
  (forall k, (k <= w / 2)%nat -> snd (nth k out (rc 0)) = 0 /\ 0 <= fst (nth k out (rc 0))) /\
  exists out', welch one_d (map (fun v => a * v) x) None fs window w overlap detrend false s = Ok out' /\ forall k, (k <= w / 2)%nat -> fst (nth k out' (rc 0)) = a * a * fst (nth k out (rc 0)).
Proof.
  intros one_d x a fs window w overlap detrend sc out Hv Ho Hx Hs E. assert (Hu : has_units sc = true /\ is_amplitude sc = false) by (destruct Hs as [-> | ->]; auto). destruct Hu as [Hu Ha].
  destruct (valid_even w Hv) as [W2 W8]. rewrite welch_eq in E by (auto; discriminate). set (s := (w - overlap)%nat) in *.
  rewrite welch_eq by (auto; discriminate). fold s. rewrite map_length. set (n := nframes s (length x)) in *. destruct (one_d && (n =? 1)%nat); [discriminate|]. injection E as <-.
  assert (Hn : (0 < n)%nat). { destruct x; [congruence|]. unfold n, nframes. simpl length. apply Nat.div_str_pos. unfold s. lia. }
  assert (N0 : 0 < INR n) by now apply lt_0_INR.
  assert (G : 0 <= scaling_factor sc w fs (Some window)) by (destruct Hs as [-> | ->]; cbn; apply Rle_0_sqr).
  split.
  - intros k Hk. rewrite welch_power_entry by auto. cbn [rc fst snd]. split; [reflexivity|]. unfold rc; cbn [fst]. fold n. apply Rmult_le_pos.
    + apply Rmult_le_pos; [lra|]. left. now apply Rinv_0_lt_compat.
    + apply Rmult_le_pos. unfold onesided. destruct (k =? 0)%nat; [lra|]. destruct (2 * k =? w)%nat; lra.
      clear. induction n. simpl; lra. cbn [sum]. change (@radd R CRing_R) with Rplus. assert (0 <= cabs2 (fbin w s window detrend x n k)) by (unfold cabs2; nra). lra.
  - eexists. split; [reflexivity|]. intros k Hk. rewrite !welch_power_entry by auto. rewrite map_length. fold n. unfold rc; cbn [fst].
    assert (Fb : forall i, (i < n)%nat -> fbin w s window detrend (map (fun v => a * v) x) i k = cmulr (fbin w s window detrend x i k) a).
    { intros i Hi. unfold fbin, dft. assert (WS : forall t, wsample s window (map (fun v => a * v) x) i t = a * wsample s window x i t).
      { intros t. unfold wsample. replace (get (map (fun v => a * v) x) (i * s + t)) with (a * get x (i * s + t)). ring. unfold get. change (@r0 R CRing_R) with 0. replace 0 with (a * 0) at 2 by ring. symmetry. apply (map_nth (fun v => a * v)). }
      assert (WV : forall t, wvalue w s window detrend (map (fun v => a * v) x) i t = a * wvalue w s window detrend x i t).
      { intros t. unfold wvalue. destruct detrend; [|apply WS]. rewrite WS. rewrite (sum_ext (HA := CRing_R) w (wsample s window (map (fun v => a * v) x) i) (fun t => a * wsample s window x i t)) by (intros; apply WS).
        replace (rsum w (fun t0 => a * wsample s window x i t0)) with (a * rsum w (wsample s window x i)) by (symmetry; apply (sum_scal_l (HA := CRing_R))). unfold Rdiv. ring. }
      transitivity (csum w (fun t => rc a *! (rc (get (mk w (wvalue w s window detrend x i)) t) *! root w (- (Z.of_nat t * Z.of_nat k))))).
      { apply sum_ext. intros t Ht. rewrite !get_mk by auto. rewrite WV, rc_mul. change cmul with (@rmul C CRing_C). ring. }
      rewrite sum_scal_l. apply c_ext; cbn; ring. }
    rewrite (sum_ext (HA := CRing_R) n _ (fun i => a * a * cabs2 (fbin w s window detrend x i k))).
    + replace (rsum n (fun i => a * a * cabs2 (fbin w s window detrend x i k))) with (a * a * rsum n (fun i => cabs2 (fbin w s window detrend x i k))) by (symmetry; apply (sum_scal_l (HA := CRing_R))). ring.
    + intros i Hi. rewrite Fb by auto. unfold cabs2, cmulr. cbn [fst snd]. ring.
Qed.
Print Assumptions C48_real_and_homogeneous.
(** Detrending empties bin 0. *)
Theorem C48_detrend_removes_dc :
  forall one_d x fs window w overlap s out, valid_size w = true -> (overlap < w)%nat -> s = PowerSpectrum \/ s = PowerSpectralDensity ->
  welch one_d x None fs window w overlap true false s = Ok out -> nth 0 out (rc 0) = rc 0.
Proof.
  intros one_d x fs window w overlap sc out Hv Ho Hs E. assert (Hu : has_units sc = true /\ is_amplitude sc = false) by (destruct Hs as [-> | ->]; auto). destruct Hu as [Hu Ha].
  destruct (valid_even w Hv) as [W2 W8]. rewrite welch_eq in E by (auto; discriminate). destruct (one_d && _); [discriminate|]. injection E as <-. rewrite welch_power_entry by (auto; lia).
  rewrite (sum_zero' (HA := CRing_R)). change (@r0 R CRing_R) with 0. f_equal. ring. intros i Hi. assert (W0 : 0 < INR w) by (apply lt_0_INR; lia).
  set (s := (w - overlap)%nat). assert (Z : fbin w s window true x i 0 = rc 0).
  { unfold fbin, dft. rewrite (sum_ext (HA := CRing_C) w _ (fun t => rc (wvalue w s window true x i t))).
    - rewrite csum_rc. f_equal. unfold wvalue. set (mu := rsum w (wsample s window x i) / INR w). transitivity (rsum w (wsample s window x i) - rsum w (fun _ => mu)); [apply (sum_sub (HA := CRing_R))|].
      assert (K : forall c n, rsum n (fun _ => c) = INR n * c). { intros c n. induction n. simpl; ring. rewrite S_INR. cbn [sum]. rewrite IHn. change (@radd R CRing_R) with Rplus. ring. }
      rewrite K. unfold mu. field. lra.
    - intros t Ht. rewrite get_mk by auto. rewrite Z.mul_0_r. cbn [Z.opp]. rewrite root_0. apply c_ext; simpl; ring. }
  rewrite Z. unfold cabs2. cbn. ring.
Qed.
Print Assumptions C48_detrend_removes_dc.
(** Amplitude scalings: the square of the result is not the power result, it lacks one factor. *)
Theorem C48_amplitude_missing_factor :
  forall one_d x fs window w overlap detrend sa sp a p, valid_size w = true -> (overlap < w)%nat -> x <> [] -> 0 < fs -> 0 < wsum window -> 0 < wsum2 window ->
  (sa, sp) = (AmplitudeSpectrum, PowerSpectrum) \/ (sa, sp) = (AmplitudeSpectralDensity, PowerSpectralDensity) ->
  welch one_d x None fs window w overlap detrend false sa = Ok a -> welch one_d x None fs window w overlap detrend false sp = Ok p ->
  forall k, (k <= w / 2)%nat -> snd (nth k a (rc 0)) = 0 /\ fst (nth k a (rc 0)) * fst (nth k a (rc 0)) * scaling_factor sa w fs (Some window) = fst (nth k p (rc 0)).
Proof.
  intros one_d x fs window w overlap detrend sa sp a p Hv Ho Hx Hf Hw1 Hw2 Hs Ea Ep k Hk. destruct (valid_even w Hv) as [W2 W8].
  rewrite welch_eq in Ea, Ep by (auto; discriminate). destruct (one_d && _); [discriminate|]. injection Ea as <-. injection Ep as <-. set (s := (w - overlap)%nat) in *.
  assert (Hu : has_units sa = true /\ is_amplitude sa = true /\ has_units sp = true /\ is_amplitude sp = false /\ 0 < scaling_factor sa w fs (Some window) /\
     scaling_factor sp w fs (Some window) = scaling_factor sa w fs (Some window) * scaling_factor sa w fs (Some window)).
  { assert (0 < sqrt 2) by (apply sqrt_lt_R0; lra). destruct Hs as [[= -> ->]|[= -> ->]]; cbn [scaling_factor is_density is_amplitude has_units].
    - do 4 (split; [reflexivity|]). split; [|reflexivity]. apply Rdiv_lt_0_compat; assumption.
    - do 4 (split; [reflexivity|]). split; [|reflexivity]. apply sqrt_lt_R0. apply Rdiv_lt_0_compat; auto. apply Rdiv_lt_0_compat; lra. }
  destruct Hu as (U1 & A1 & U2 & A2 & G0 & GG). rewrite (welch_power_entry x fs window w s detrend sp) by auto.
  unfold welch_val at 1 2 3. cbn [option_map]. rewrite welch_scale_entry; auto; [|apply mk_length]. rewrite auto_mean by auto. rewrite U1, A1. cbv zeta.
  set (n := nframes s (length x)). assert (Hn : (0 < n)%nat). { destruct x; [congruence|]. unfold n, nframes. simpl length. apply Nat.div_str_pos. unfold s. lia. }
  assert (N0 : 0 < INR n) by now apply lt_0_INR.
  set (P := rsum n _). assert (P0 : 0 <= P). { unfold P. clear. induction n. simpl; lra. cbn [sum]. change (@radd R CRing_R) with Rplus. assert (0 <= cabs2 (fbin w s window detrend x n k)) by (unfold cabs2; nra). lra. }
  set (g := scaling_factor sa w fs (Some window)) in *. assert (O0 : 0 <= onesided w k) by (unfold onesided; destruct (k =? 0)%nat; [lra|]; destruct (2 * k =? w)%nat; lra).
  replace (cmulr (rc (P / INR n)) (g * onesided w k / 2)) with (rc (P / INR n * (g * onesided w k / 2))) by (apply c_ext; cbn; ring).
  assert (Q0 : 0 <= P / INR n * (g * onesided w k / 2)). { apply Rmult_le_pos. apply Rmult_le_pos; auto. left. now apply Rinv_0_lt_compat. apply Rmult_le_pos; [|lra]. apply Rmult_le_pos; lra. }
  rewrite csqrt_rc by auto. unfold rc; cbn [fst snd]. split; auto. rewrite sqrt_sqrt by auto. rewrite GG. fold g. unfold Rdiv. ring.
Qed.
Print Assumptions C48_amplitude_missing_factor.
(** The claim that fails: a constant 1 should read 1 in bin 0 of the amplitude spectrum. *)
Lemma dft_ones_0 n : dft n (mk n (fun _ => 1)) 0 = rc (INR n).
Proof.
  unfold dft. rewrite (sum_ext (HA := CRing_C) n _ (fun t => rc 1)).
  - rewrite (csum_rc n (fun _ => 1)). f_equal. clear. induction n. reflexivity. rewrite S_INR. cbn [sum]. rewrite IHn. reflexivity.
  - intros t Ht. rewrite Z.mul_0_r. cbn [Z.opp]. rewrite root_0, get_mk by auto. apply c_ext; simpl; ring.
Qed.
Lemma get_rep (v : R) n i : (i < n)%nat -> get (repeat v n) i = v.
Proof. intros. unfold get. rewrite (nth_indep _ _ v) by now rewrite repeat_length. apply nth_repeat. Qed.
Theorem C48_amplitude_refuted :
  ~ (forall x fs window w overlap a p, valid_size w = true -> (overlap < w)%nat -> welch true x None fs window w overlap false false AmplitudeSpectrum = Ok a ->
     welch true x None fs window w overlap false false PowerSpectrum = Ok p -> fst (nth 0 a (rc 0)) * fst (nth 0 a (rc 0)) = fst (nth 0 p (rc 0))).
Proof.
  intros H. set (x := repeat 1 16). set (win := repeat 1 8).
  assert (V : valid_size 8 = true) by reflexivity.
  assert (EA : forall sc, welch true x None 48000 win 8 0 false false sc = Ok (welch_val x None 48000 win 8 8 false false sc)) by (intros sc; rewrite welch_eq; [reflexivity|exact V|lia|intros y C; discriminate C]).
  destruct (C48_amplitude_missing_factor true x 48000 win 8 0 false AmplitudeSpectrum PowerSpectrum _ _ V ltac:(lia) ltac:(discriminate) ltac:(lra)
    ltac:(unfold win; rewrite wsum_ones; simpl; lra) ltac:(unfold win; rewrite wsum2_ones; simpl; lra) ltac:(now left) (EA _) (EA _) 0%nat ltac:(simpl; lia)) as [_ Q].
  rewrite (H x 48000 win 8%nat 0%nat _ _ V ltac:(lia) (EA AmplitudeSpectrum) (EA PowerSpectrum)) in Q. assert (P : fst (nth 0 (welch_val x None 48000 win 8 8 false false PowerSpectrum) (rc 0)) <> 0).
  { rewrite welch_power_entry by (auto; simpl; lia). unfold rc at 1; cbn [fst]. change (nframes 8 (length x)) with 2%nat. change (onesided 8 0) with 1. cbn [scaling_factor is_density is_amplitude].
    unfold win. rewrite wsum_ones. cbn [sum]. change (@radd R CRing_R) with Rplus. change (@r0 R CRing_R) with 0.
    assert (F : forall i, (i < 2)%nat -> fbin 8 8 (repeat 1 8) false x i 0 = rc (INR 8)).
    { intros i Hi. unfold fbin. rewrite <- dft_ones_0. f_equal. apply mk_eq. intros t Ht. unfold wvalue, wsample, x. rewrite !get_rep by lia. ring. }
    rewrite !F by lia. unfold cabs2. cbn [rc fst snd]. assert (0 < sqrt 2) by (apply sqrt_lt_R0; lra). pose proof (sqrt_sqrt 2 ltac:(lra)). unfold rc; cbn [fst snd]. simpl INR. nra. }
  apply P. cbn [scaling_factor is_density is_amplitude] in Q. unfold win in Q at 2. rewrite wsum_ones in Q. set (p := fst _) in *.
  assert (sqrt 2 / INR 8 <> 1). { assert (sqrt 2 < 2). { replace 2 with (sqrt (2 * 2)) at 2 by (rewrite sqrt_square; lra). apply sqrt_lt_1; lra. } simpl INR. lra. }
  nra.
Qed.
Print Assumptions C48_amplitude_refuted.
(** Median: for a signal that repeats a block as long as the window (no overlap) all frames are equal; the median of the power should be
    the mean up to a bounded bias, but the result grows with the number of frames. *)
Definition odd_count (n : nat) : nat := if (n mod 2 =? 1)%nat then n else (n - 1)%nat.
Theorem C48_median_grows :
  forall block n fs window w s m d, valid_size w = true -> length block = w -> (1 < n)%nat -> s = PowerSpectrum \/ s = PowerSpectralDensity ->
  let x := concat (repeat block n) in
  welch true x None fs window w 0 false false s = Ok m -> welch true x None fs window w 0 false true s = Ok d ->
  forall k, (k <= w / 2)%nat -> nth k d (rc 0) = cmulr (nth k m (rc 0)) (INR (odd_count n)).
Proof.
  intros block n fs window w sc m d Hv Hb Hn Hs x Em Ed k Hk. assert (Hu : has_units sc = true /\ is_amplitude sc = false) by (destruct Hs as [-> | ->]; auto). destruct Hu as [Hu Ha].
  destruct (valid_even w Hv) as [W2 W8]. rewrite welch_eq in Em, Ed by (auto; try lia; discriminate). rewrite Nat.sub_0_r in *. destruct (true && _); [discriminate|]. injection Em as <-. injection Ed as <-.
  assert (Lx : length x = (n * w)%nat). { unfold x. clear - Hb. induction n; auto. cbn [repeat concat]. rewrite app_length, IHn, Hb. reflexivity. }
  assert (Nf : nframes w (length x) = n). { unfold nframes. rewrite Lx. rewrite Nat.add_comm, Nat.div_add by lia. rewrite Nat.div_small by lia. reflexivity. }
  assert (Gx : forall i t, (i < n)%nat -> (t < w)%nat -> get x (i * w + t) = get block t).
  { unfold x. clear - Hb. induction n; intros i t Hi Ht. lia. cbn [repeat concat]. destruct i.
    - rewrite get_app_l by lia. reflexivity.
    - rewrite get_app_r by lia. rewrite Hb. replace (S i * w + t - w)%nat with (i * w + t)%nat by lia. apply IHn; lia. }
  rewrite welch_power_entry by auto. rewrite Nf. unfold welch_val. cbn [option_map]. rewrite welch_scale_entry; auto; [|apply mk_length]. rewrite Hu, Ha. cbv zeta.
  set (F := mk w (fun t => get window t * get block t)).
  assert (FW : wframes w w window false x = repeat F n).
  { unfold wframes. rewrite Nf. rewrite <- mk_const. apply mk_eq. intros i Hi. apply mk_eq. intros t Ht. unfold wvalue, wsample. now rewrite Gx. }
  rewrite (sum_ext (HA := CRing_R) n _ (fun _ => cabs2 (dft w F k))).
  2:{ intros i Hi. unfold fbin. f_equal. f_equal. apply mk_eq. intros t Ht. unfold wvalue, wsample. now rewrite Gx. }
  assert (K : forall c q, rsum q (fun _ => c) = INR q * c). { intros c q. induction q. simpl; ring. rewrite S_INR. cbn [sum]. rewrite IHq. change (@radd R CRing_R) with Rplus. ring. }
  rewrite K. unfold average_bins, cross_spectra. rewrite FW, nth_mk by lia. rewrite !map_length, repeat_length. fold (odd_count n).
  assert (MR : forall T U (h : T -> U) v q, map h (repeat v q) = repeat (h v) q) by (intros T U h v q; induction q; simpl; congruence).
  rewrite !MR. rewrite !median_repeat by lia.
  assert (E : nth k (map (fun z => rc (cabs2 z)) (rfft_scaled sc w F)) (rc 0) = rc (cabs2 (dft w F k))).
  { rewrite (nth_indep _ (rc 0) (rc (cabs2 (rc 0)))). rewrite (map_nth (fun z => rc (cabs2 z))). now rewrite rfft_units. rewrite map_length. destruct sc; cbn [rfft_scaled]; rewrite ?map_length, rfft_length; lia. }
  rewrite E. assert (N0 : 0 < INR n) by (apply lt_0_INR; lia). assert (O0 : 0 < INR (odd_count n)). { apply lt_0_INR. unfold odd_count. destruct (n mod 2 =? 1)%nat; lia. }
  apply c_ext; cbn; field; lra.
Qed.
Print Assumptions C48_median_grows.
(** Signals not longer than the hop: a mono signal fails, the same signal in two channels works. *)
Theorem C48_short_mono_refuted :
  forall x fs window w overlap detrend md s, valid_size w = true -> (overlap < w)%nat -> x <> [] -> (length x <= w - overlap)%nat ->
  welch_channels [x] fs window w overlap detrend md s = Err IndexError /\ exists out, welch_channels [x; x] fs window w overlap detrend md s = Ok out.
Proof.
  intros x fs window w overlap detrend md sc Hv Ho Hx Hl. unfold welch_channels. cbn [length Nat.eqb map sequence]. rewrite !welch_eq by (auto; discriminate). cbn [andb].
  assert (N : nframes (w - overlap) (length x) = 1%nat). { unfold nframes. destruct x; [congruence|]. simpl length in *. symmetry. apply (Nat.div_unique _ _ _ (length x)); lia. }
  rewrite N. cbn [Nat.eqb bind]. split; auto. eexists. reflexivity.
Qed.
Print Assumptions C48_short_mono_refuted.
Example C48_example : valid_size 1024 = true /\ (512 < 1024)%nat /\ 0 < wsum2 [1; 1/2].
Proof. split. reflexivity. split. apply Nat.ltb_lt. reflexivity. unfold wsum2. cbn. lra. Qed.

(** ** C49 *)
Definition entry3 (m : list (list (list C))) (i j k : nat) : C := nth k (nth j (nth i m []) []) (rc 0).
Lemma hermitize_entry bins n L i j k : (i < n)%nat -> (j < n)%nat -> (k < bins)%nat -> (forall i j, (j <= i < n)%nat -> length (L i j) = bins) ->
  entry3 (hermitize bins n L) i j k = if (j <? i)%nat then nth k (L i j) (rc 0) else if (i =? j)%nat then rc (fst (nth k (L i j) (rc 0))) else cconj (nth k (L j i) (rc 0)).
Proof.
  intros Hi Hj Hk HL. unfold entry3, hermitize. rewrite !nth_mk by auto. unfold cadd_list.
  set (part := fun a b => if (b <? a)%nat then L a b else if (a =? b)%nat then map (fun z => cmulr z (1 / 2)) (L a b) else repeat (rc 0) bins).
  assert (LP : forall a b, (a < n)%nat -> (b < n)%nat -> length (part a b) = bins).
  { intros a b Ha Hb. unfold part. destruct (Nat.ltb_spec b a). apply HL; lia. destruct (Nat.eqb_spec a b). rewrite map_length. apply HL; lia. apply repeat_length. }
  change (if (j <? i)%nat then L i j else if (i =? j)%nat then map (fun z => cmulr z (1 / 2)) (L i j) else repeat (rc 0) bins) with (part i j).
  change (if (i <? j)%nat then L j i else if (j =? i)%nat then map (fun z => cmulr z (1 / 2)) (L j i) else repeat (rc 0) bins) with (part j i).
  rewrite LP by auto. rewrite nth_mk by auto.
  assert (NC : forall l, length l = bins -> nth k (map cconj l) (rc 0) = cconj (nth k l (rc 0))). { intros l Hl. rewrite (nth_indep _ (rc 0) (cconj (rc 0))) by (rewrite map_length; lia). apply map_nth. }
  rewrite NC by auto.
  assert (NZ : forall q, nth k (repeat (rc 0) q) (rc 0) = rc 0). { intros q. destruct (lt_dec k q). apply nth_repeat. apply nth_overflow. rewrite repeat_length. lia. }
  assert (NM : forall a b, (b <= a < n)%nat -> nth k (map (fun z => cmulr z (1 / 2)) (L a b)) (rc 0) = cmulr (nth k (L a b) (rc 0)) (1 / 2)).
  { intros a b Hab. rewrite (nth_indep _ (rc 0) (cmulr (rc 0) (1 / 2))) by (rewrite map_length, HL; lia). apply (map_nth (fun z => cmulr z (1 / 2))). }
  unfold part. destruct (Nat.ltb_spec j i) as [H|H].
  - destruct (Nat.ltb_spec i j); [lia|]. destruct (Nat.eqb_spec j i); [lia|]. rewrite NZ. apply c_ext; simpl; ring.
  - destruct (Nat.eqb_spec i j) as [->|H'].
    + rewrite Nat.ltb_irrefl, Nat.eqb_refl. rewrite NM by lia. apply c_ext; simpl; field.
    + destruct (Nat.ltb_spec i j); [|lia]. rewrite NZ. apply c_ext; simpl; ring.
Qed.
Lemma csm_welch_eq xs fs window w overlap detrend md sc : valid_size w = true -> (overlap < w)%nat -> (forall i, (i < length xs)%nat -> length (nth i xs []) = length (hd [] xs)) ->
  nframes (w - overlap) (length (hd [] xs)) <> 1%nat ->
  csm_welch xs fs window w overlap detrend md sc = Ok (hermitize (w / 2 + 1) (length xs) (fun i j =>
    nth (i - j) (nth j (mk (length xs) (fun j => mk (length xs - j) (fun d => welch_val (nth j xs []) (if (j + d =? j)%nat then None else Some (nth (j + d) xs [])) fs window w (w - overlap) detrend md sc))) []) [])).
Proof.
  intros Hv Ho HL Hn. unfold csm_welch.
  rewrite (sequence_mk _ _ (fun j => mk (length xs - j) (fun d => welch_val (nth j xs []) (if (j + d =? j)%nat then None else Some (nth (j + d) xs [])) fs window w (w - overlap) detrend md sc))).
  - reflexivity.
  - intros j Hj. apply sequence_mk. intros d Hd. rewrite welch_eq; auto.
    + rewrite HL by auto. destruct (Nat.eqb_spec (nframes (w - overlap) (length (hd [] xs))) 1); [congruence|]. reflexivity.
    + destruct (j + d =? j)%nat; [discriminate|]. intros y [= <-]. rewrite !HL by lia. auto.
Qed.
Lemma csm_welch_part xs fs window w s detrend md sc i j : (j <= i < length xs)%nat ->
  nth (i - j) (nth j (mk (length xs) (fun j => mk (length xs - j) (fun d => welch_val (nth j xs []) (if (j + d =? j)%nat then None else Some (nth (j + d) xs [])) fs window w s detrend md sc))) []) [] =
  welch_val (nth j xs []) (if (i =? j)%nat then None else Some (nth i xs [])) fs window w s detrend md sc.
Proof. intros H. rewrite nth_mk by lia. rewrite nth_mk by lia. replace (j + (i - j))%nat with i by lia. reflexivity. Qed.
Definition csm_ready (xs : list (list R)) (w overlap : nat) : Prop :=
  valid_size w = true /\ (overlap < w)%nat /\ (forall i, (i < length xs)%nat -> length (nth i xs []) = length (hd [] xs)) /\ (w - overlap < length (hd [] xs))%nat.
Lemma ready_frames xs w overlap : csm_ready xs w overlap -> (1 < nframes (w - overlap) (length (hd [] xs)))%nat.
Proof. intros (_ & Ho & _ & Hl). unfold nframes. apply Nat.lt_le_trans with 2%nat; auto. apply Nat.div_le_lower_bound; lia. Qed.
(** For every scaling and average the matrix is Hermitian with the Welch spectra of the channels on its diagonal (for power scalings). *)
Theorem C49_hermitian :
  forall xs fs window w overlap detrend md s, csm_ready xs w overlap ->
  exists m, csm_welch xs fs window w overlap detrend md s = Ok m /\
    forall i j k, (i < length xs)%nat -> (j < length xs)%nat -> (k <= w / 2)%nat -> entry3 m i j k = cconj (entry3 m j i k).
Proof.
  intros xs fs window w overlap detrend md sc R. pose proof (ready_frames _ _ _ R) as Hn. destruct R as (Hv & Ho & HL & Hl). rewrite csm_welch_eq by (auto; lia). eexists. split; [reflexivity|].
  intros i j k Hi Hj Hk. rewrite !hermitize_entry by (auto; try lia; intros a b Hab; rewrite csm_welch_part by lia; apply welch_val_length).
  destruct (Nat.ltb_spec j i), (Nat.ltb_spec i j); try lia.
  - destruct (Nat.eqb_spec j i); [lia|]. now rewrite cconj_conj.
  - destruct (Nat.eqb_spec i j); [lia|]. auto.
  - assert (i = j) by lia. subst. rewrite Nat.eqb_refl. apply c_ext; simpl; ring.
Qed.
Print Assumptions C49_hermitian.
Theorem C49_diagonal :
  forall xs fs window w overlap detrend s, csm_ready xs w overlap -> s = PowerSpectrum \/ s = PowerSpectralDensity ->
  exists m, csm_welch xs fs window w overlap detrend false s = Ok m /\
    forall i k, (i < length xs)%nat -> (k <= w / 2)%nat -> exists p, welch true (nth i xs []) None fs window w overlap detrend false s = Ok p /\ entry3 m i i k = nth k p (rc 0).
Proof.
  intros xs fs window w overlap detrend sc R Hs. pose proof (ready_frames _ _ _ R) as Hn. destruct R as (Hv & Ho & HL & Hl). assert (Hu : has_units sc = true /\ is_amplitude sc = false) by (destruct Hs as [-> | ->]; auto). destruct Hu as [Hu Ha].
  rewrite csm_welch_eq by (auto; lia). eexists. split; [reflexivity|].
  intros i k Hi Hk. exists (welch_val (nth i xs []) None fs window w (w - overlap) detrend false sc). rewrite welch_eq by (auto; discriminate). rewrite HL by auto.
  destruct (Nat.eqb_spec (nframes (w - overlap) (length (hd [] xs))) 1); [lia|]. split; [reflexivity|].
  rewrite hermitize_entry by (auto; try lia; intros a b Hab; rewrite csm_welch_part by lia; apply welch_val_length). rewrite Nat.ltb_irrefl, Nat.eqb_refl. rewrite csm_welch_part by lia. rewrite Nat.eqb_refl.
  rewrite welch_power_entry by auto. reflexivity.
Qed.
Print Assumptions C49_diagonal.
(** Entry (i, j) is the mean over the frames of X_i conj(X_j), scaled; hence the matrix is positive semidefinite in every bin. *)
Theorem C49_entries :
  forall xs fs window w overlap detrend s, csm_ready xs w overlap -> s = PowerSpectrum \/ s = PowerSpectralDensity ->
  exists m, csm_welch xs fs window w overlap detrend false s = Ok m /\
    let n := nframes (w - overlap) (length (hd [] xs)) in
    forall i j k, (i < length xs)%nat -> (j < length xs)%nat -> (k <= w / 2)%nat ->
      entry3 m i j k = cmulr (csum n (fun f => cmul (fbin w (w - overlap) window detrend (nth i xs []) f k) (cconj (fbin w (w - overlap) window detrend (nth j xs []) f k))))
        (scaling_factor s w fs (Some window) * onesided w k / 2 / INR n).
Proof.
  intros xs fs window w overlap detrend sc R Hs. pose proof (ready_frames _ _ _ R) as Hn. destruct R as (Hv & Ho & HL & Hl). assert (Hu : has_units sc = true /\ is_amplitude sc = false) by (destruct Hs as [-> | ->]; auto). destruct Hu as [Hu Ha].
  destruct (valid_even w Hv) as [W2 W8]. rewrite csm_welch_eq by (auto; lia). eexists. split; [reflexivity|]. cbv zeta. set (n := nframes (w - overlap) (length (hd [] xs))) in *. set (s := (w - overlap)%nat) in *.
  assert (N0 : 0 < INR n) by (apply lt_0_INR; lia). set (g := scaling_factor sc w fs (Some window)).
  assert (Low : forall i j k, (j < i)%nat -> (i < length xs)%nat -> (k <= w / 2)%nat -> nth k (welch_val (nth j xs []) (Some (nth i xs [])) fs window w s detrend false sc) (rc 0) =
     cmulr (csum n (fun f => cmul (cconj (fbin w s window detrend (nth j xs []) f k)) (fbin w s window detrend (nth i xs []) f k))) (g * onesided w k / 2 / INR n)).
  { intros i j k Hij Hi Hk. unfold welch_val. cbn [option_map]. rewrite welch_scale_entry; auto; [|apply mk_length]. rewrite cross_mean by (auto; rewrite !HL by lia; auto). rewrite HL by lia. fold n.
    rewrite Hu, Ha. cbv zeta. fold g. apply c_ext; cbn; field; lra. }
  intros i j k Hi Hj Hk. rewrite !hermitize_entry by (auto; try lia; intros a b Hab; rewrite csm_welch_part by lia; apply welch_val_length).
  destruct (Nat.ltb_spec j i).
  - rewrite csm_welch_part by lia. destruct (Nat.eqb_spec i j); [lia|]. rewrite Low by auto. f_equal. apply sum_ext. intros f Hf. apply (Rmul_comm crt).
  - destruct (Nat.eqb_spec i j) as [->|].
    + rewrite csm_welch_part by lia. rewrite Nat.eqb_refl. rewrite welch_power_entry by auto. rewrite HL by lia. fold n g.
      rewrite (sum_ext (HA := CRing_C) n _ (fun f => rc (cabs2 (fbin w s window detrend (nth j xs []) f k)))).
      2:{ intros f Hf. rewrite <- cabs2_conj. apply (Rmul_comm crt). }
      rewrite csum_rc. apply c_ext; cbn; field; lra.
    + rewrite csm_welch_part by lia. destruct (Nat.eqb_spec j i); [lia|]. rewrite Low by lia.
      replace (csum n (fun f => cmul (fbin w s window detrend (nth i xs []) f k) (cconj (fbin w s window detrend (nth j xs []) f k)))) with (cconj (csum n (fun f => cmul (cconj (fbin w s window detrend (nth i xs []) f k)) (fbin w s window detrend (nth j xs []) f k)))).
      * apply c_ext; cbn; ring.
      * rewrite csum_conj. apply sum_ext. intros f Hf. rewrite cconj_mul, cconj_conj. reflexivity.
Qed.
Print Assumptions C49_entries.
Theorem C49_positive_semidefinite :
  forall xs fs window w overlap detrend s, csm_ready xs w overlap -> s = PowerSpectrum \/ s = PowerSpectralDensity ->
  exists m, csm_welch xs fs window w overlap detrend false s = Ok m /\
    forall (v : nat -> C) k, (k <= w / 2)%nat -> exists q, 0 <= q /\
      csum (length xs) (fun i => csum (length xs) (fun j => cmul (cmul (cconj (v i)) (entry3 m i j k)) (v j))) = rc q.
Proof.
  intros xs fs window w overlap detrend sc R Hs. destruct (C49_entries xs fs window w overlap detrend sc R Hs) as (m & E & V). exists m. split; auto. cbv zeta in V.
  pose proof (ready_frames _ _ _ R) as Hn. intros v k Hk. set (n := nframes (w - overlap) (length (hd [] xs))) in *. set (s := (w - overlap)%nat) in *. set (ch := length xs) in *.
  set (G := scaling_factor sc w fs (Some window) * onesided w k / 2 / INR n) in *. set (S := fun i f => fbin w s window detrend (nth i xs []) f k).
  assert (G0 : 0 <= G). { assert (N0 : 0 < INR n) by (apply lt_0_INR; lia). assert (0 <= scaling_factor sc w fs (Some window)) by (destruct Hs as [-> | ->]; cbn; apply Rle_0_sqr).
    assert (0 <= onesided w k) by (unfold onesided; destruct (k =? 0)%nat; [lra|]; destruct (2 * k =? w)%nat; lra). unfold G. apply Rmult_le_pos. apply Rmult_le_pos; [|lra]. now apply Rmult_le_pos. left. now apply Rinv_0_lt_compat. }
  set (Y := fun f => csum ch (fun i => cmul (cconj (v i)) (S i f))). exists (G * rsum n (fun f => cabs2 (Y f))). split.
  - apply Rmult_le_pos; auto. clear. induction n. simpl; lra. cbn [sum]. change (@radd R CRing_R) with Rplus. assert (0 <= cabs2 (Y n)) by (unfold cabs2; nra). lra.
  - transitivity (rc G *! csum n (fun f => Y f *! cconj (Y f))).
    2:{ rewrite (sum_ext (HA := CRing_C) n _ (fun f => rc (cabs2 (Y f)))). rewrite csum_rc. now rewrite <- rc_mul. intros f Hf. rewrite <- cabs2_conj. apply (Rmul_comm crt). }
    rewrite <- sum_scal_l.
    transitivity (csum ch (fun i => csum ch (fun j => csum n (fun f => rc G *! ((cconj (v i) *! S i f) *! (cconj (S j f) *! v j)))))).
    { apply sum_ext. intros i Hi. apply sum_ext. intros j Hj. rewrite V by auto. fold G.
      transitivity (rc G *! cconj (v i) *! v j *! csum n (fun f => S i f *! cconj (S j f))). { unfold S. apply c_ext; cbn; ring. }
      rewrite <- sum_scal_l. apply sum_ext. intros f Hf. ring. }
    transitivity (csum ch (fun i => csum n (fun f => csum ch (fun j => rc G *! ((cconj (v i) *! S i f) *! (cconj (S j f) *! v j)))))). { apply sum_ext. intros i Hi. apply sum_exchange. }
    rewrite sum_exchange. apply sum_ext. intros f Hf. unfold Y at 1 2. rewrite csum_conj. rewrite sum_mul_sum. rewrite <- sum_scal_l. apply sum_ext. intros i Hi. rewrite <- sum_scal_l. apply sum_ext. intros j Hj.
    rewrite cconj_mul, cconj_conj. change cmul with (@rmul C CRing_C). ring.
Qed.
Print Assumptions C49_positive_semidefinite.
Example C49_example : csm_ready [repeat 1 20; repeat 2 20] 8 4.
Proof. split. reflexivity. split. lia. split. intros [|[|i]] Hi; try reflexivity. simpl in Hi; lia. simpl; lia. Qed.

(** FFT method without scaling: exactly the products X_i conj(X_j). *)
Theorem C49_fft_products :
  forall X fs window, (forall i, (i < length X)%nat -> length (nth i X []) = length (hd [] X)) ->
  exists m, csm_fft X FFTBackward window fs = Ok m /\
    forall i j k, (i < length X)%nat -> (j < length X)%nat -> (k < length (hd [] X))%nat -> entry3 m i j k = cmul (nth k (nth i X []) (rc 0)) (cconj (nth k (nth j X []) (rc 0))).
Proof.
  intros X fs window HL. eexists. split; [reflexivity|]. intros i j k Hi Hj Hk. rewrite hermitize_entry by (auto; intros; apply mk_length).
  destruct (Nat.ltb_spec j i). rewrite nth_mk by auto. apply (Rmul_comm crt).
  destruct (Nat.eqb_spec i j) as [->|]. rewrite nth_mk by auto. apply c_ext; simpl; ring.
  rewrite nth_mk by auto. apply c_ext; simpl; ring.
Qed.
Print Assumptions C49_fft_products.
(** With a power scaling the length used is bins // 2 + 1 instead of the FFT length n: the diagonal is the power spectrum times
    (n / (bins // 2 + 1)) squared, for the density times n / (bins // 2 + 1). *)
Theorem C49_fft_diagonal :
  forall xs n fs s, (length xs > 1)%nat -> (2 <= n)%nat -> Nat.even n = true -> 0 < fs -> s = PowerSpectrum \/ s = PowerSpectralDensity ->
  exists m, get_csm_fft s xs n None fs = (s, Ok m) /\
    forall i k, (i < length xs)%nat -> (k <= n / 2)%nat -> exists p, fft_spectrum (nth i xs []) s n fs None = Ok p /\
      entry3 m i i k = cmulr (nth k p (rc 0)) (scaling_factor s ((n / 2 + 1) / 2 + 1) fs None / scaling_factor s n fs None).
Proof.
  intros xs n fs sc Hx Hn He Hf Hs. assert (Hu : has_units sc = true /\ is_amplitude sc = false /\ sc <> FFTBackward) by (destruct Hs as [-> | ->]; repeat split; auto; discriminate). destruct Hu as (Hu & Ha & Hb).
  unfold get_csm_fft. destruct (Nat.leb_spec (length xs) 1); [lia|]. rewrite (sequence_map _ (rfft n)) by reflexivity.
  apply Nat.even_spec in He as [h Eh]. assert (E2 : (n / 2 = h)%nat) by (rewrite Eh, Nat.mul_comm, Nat.div_mul; lia).
  assert (Ef : scaling_factor FFTBackward ((n / 2 + 1) / 2 + 1) fs None = 1) by reflexivity.
  assert (HB : length (hd [] (map (rfft n) xs)) = (n / 2 + 1)%nat). { destruct xs; [simpl in Hx; lia|]. cbn [map hd]. apply rfft_length. }
  unfold csm_fft. rewrite HB, map_length.
  set (L := fun i j => mk (n / 2 + 1) (fun k => cmul (cconj (nth k (nth j (map (rfft n) xs) []) (rc 0))) (nth k (nth i (map (rfft n) xs) []) (rc 0)))).
  set (factor := conversion_factor FFTBackward sc ((n / 2 + 1) / 2 + 1) fs None).
  assert (Ff : factor = scaling_factor sc ((n / 2 + 1) / 2 + 1) fs None). { unfold factor, conversion_factor. rewrite Ha. cbn [is_amplitude Bool.eqb]. rewrite Ef. field. }
  set (fin := fun l => let l := map (fun z => cmulr z factor) (let l := upd l 0 (cdivr (nth 0 l (rc 0)) 2) in upd l (length l - 1) (cdivr (nth (length l - 1) l (rc 0)) 2)) in if is_amplitude sc then map csqrt l else l).
  exists (map (map fin) (hermitize (n / 2 + 1) (length xs) L)). split. { destruct sc; try discriminate; reflexivity. }
  intros i k Hi Hk. unfold fft_spectrum. rewrite Hu. replace (rfft_scaled sc n (nth i xs [])) with (rfft n (nth i xs [])) by (destruct sc; auto; discriminate).
  destruct (scale_spectrum_eq (nth i xs []) sc n fs None ltac:(lia)) as (p & Ep & Lp & Vp). exists p. split; auto. rewrite Vp by auto. rewrite Ha. cbv zeta.
  unfold entry3. assert (LH : length (hermitize (n / 2 + 1) (length xs) L) = length xs) by apply mk_length.
  rewrite (nth_indep _ [] (map fin [])) by (rewrite map_length; lia). rewrite (map_nth (map fin)).
  assert (LR : length (nth i (hermitize (n / 2 + 1) (length xs) L) []) = length xs) by (unfold hermitize; rewrite nth_mk by auto; apply mk_length).
  rewrite (nth_indep _ [] (fin [])) by (rewrite map_length; lia). rewrite (map_nth fin). set (row := nth i (nth i (hermitize _ _ L) []) []).
  assert (Lrow : length row = (n / 2 + 1)%nat). { unfold row, hermitize. rewrite !nth_mk by auto. unfold cadd_list. rewrite mk_length. rewrite Nat.ltb_irrefl, Nat.eqb_refl, map_length. unfold L. apply mk_length. }
  assert (Vrow : forall k, (k <= n / 2)%nat -> nth k row (rc 0) = rc (cabs2 (dft n (nth i xs []) k))).
  { intros q Hq. change (nth q row (rc 0)) with (entry3 (hermitize (n / 2 + 1) (length xs) L) i i q). rewrite hermitize_entry by (auto; try lia; intros; apply mk_length). rewrite Nat.ltb_irrefl, Nat.eqb_refl.
    unfold L. rewrite nth_mk by lia. rewrite (nth_indep (map (rfft n) xs) [] (rfft n [])) by (rewrite map_length; lia). rewrite (map_nth (rfft n)). unfold rfft. rewrite nth_mk by lia. now rewrite cabs2_conj. }
  unfold fin. rewrite Ha. cbv zeta. rewrite !upd_length, Lrow. replace (n / 2 + 1 - 1)%nat with (n / 2)%nat by lia.
  rewrite (nth_indep _ (rc 0) (cmulr (rc 0) factor)) by (rewrite map_length, !upd_length; lia). rewrite (map_nth (fun z => cmulr z factor)).
  assert (N0 : 0 < INR n) by (apply lt_0_INR; lia). assert (S2 : 0 < sqrt 2) by (apply sqrt_lt_R0; lra).
  assert (SF : scaling_factor sc n fs None <> 0).
  { destruct Hs as [-> | ->]; cbn. apply Rmult_integral_contrapositive_currified; apply Rgt_not_eq, Rdiv_lt_0_compat; lra.
    apply Rmult_integral_contrapositive_currified; apply Rgt_not_eq, sqrt_lt_R0; apply Rdiv_lt_0_compat; auto; apply Rdiv_lt_0_compat; lra. }
  assert (Q : cabs2 (cdivr (dft n (nth i xs []) k) (edge_div n k)) = cabs2 (dft n (nth i xs []) k) * (onesided n k / 2)).
  { rewrite <- edge_onesided. pose proof (edge_pos n k). unfold cabs2, cdivr. cbn [fst snd]. field. lra. }
  rewrite Q. rewrite nth_upd_c by (rewrite upd_length; lia). rewrite Ff. unfold onesided. destruct (Nat.eqb_spec k (n / 2)) as [E|E].
  - rewrite nth_upd_c by lia. destruct (Nat.eqb_spec (n / 2) 0); [lia|]. destruct (Nat.eqb_spec k 0); [lia|]. destruct (Nat.eqb_spec (2 * k) n); [|lia]. rewrite Vrow by lia. rewrite <- E. apply c_ext; cbn; field; auto.
  - rewrite nth_upd_c by lia. destruct (Nat.eqb_spec k 0) as [->|].
    + rewrite Vrow by lia. apply c_ext; cbn; field; auto.
    + destruct (Nat.eqb_spec (2 * k) n); [lia|]. rewrite Vrow by lia. apply c_ext; cbn; field; auto.
Qed.
Print Assumptions C49_fft_diagonal.
(** So the diagonal is the power spectrum only if the factors agree; they do not, e.g. for n = 8 (3 instead of 8). *)
Theorem C49_fft_diagonal_refuted :
  ~ (forall xs n fs m i k p, (length xs > 1)%nat -> 0 < fs -> (i < length xs)%nat -> (k <= n / 2)%nat -> get_csm_fft PowerSpectrum xs n None fs = (PowerSpectrum, Ok m) ->
      fft_spectrum (nth i xs []) PowerSpectrum n fs None = Ok p -> entry3 m i i k = nth k p (rc 0)).
Proof.
  intros H. destruct (C49_fft_diagonal [mk 8 (fun _ => 1); mk 8 (fun _ => 1)] 8 48000 PowerSpectrum ltac:(simpl; lia) ltac:(lia) eq_refl ltac:(lra) ltac:(now left)) as (m & E & V).
  destruct (V 0%nat 0%nat ltac:(simpl; lia) ltac:(simpl; lia)) as (p & Ep & Q). specialize (H [mk 8 (fun _ => 1); mk 8 (fun _ => 1)] 8%nat 48000 m 0%nat 0%nat p ltac:(simpl; lia) ltac:(lra) ltac:(simpl; lia) ltac:(simpl; lia) E Ep).
  rewrite H in Q. assert (P : nth 0 p (rc 0) = rc 1).
  { unfold fft_spectrum in Ep. cbn [has_units rfft_scaled] in Ep. destruct (scale_spectrum_eq (mk 8 (fun _ => 1)) PowerSpectrum 8 48000 None ltac:(lia)) as (p' & Ep' & _ & Vp).
    cbn [nth] in Ep. rewrite Ep' in Ep. injection Ep as <-. rewrite Vp by (simpl; lia). cbv zeta. rewrite dft_ones_0. cbn [is_amplitude scaling_factor is_density]. change (edge_div 8 0) with (sqrt 2).
    rewrite cdivr_sqrt2. pose proof (sqrt_sqrt 2 ltac:(lra)) as S2. replace (sqrt 2 / INR 8 * (sqrt 2 / INR 8)) with (sqrt 2 * sqrt 2 / (INR 8 * INR 8)) by (simpl INR; field). rewrite S2.
    unfold cabs2. apply c_ext; unfold cmulr, rc; cbn [fst snd]; simpl INR; field. }
  rewrite P in Q. apply (f_equal fst) in Q. unfold cmulr, rc in Q; cbn [fst] in Q. change ((8 / 2 + 1) / 2 + 1)%nat with 3%nat in Q. cbn [scaling_factor is_amplitude is_density] in Q.
  pose proof (sqrt_sqrt 2 ltac:(lra)) as S2. assert (0 < sqrt 2) by (apply sqrt_lt_R0; lra).
  replace (sqrt 2 / INR 3 * (sqrt 2 / INR 3) / (sqrt 2 / INR 8 * (sqrt 2 / INR 8))) with (64 / 9) in Q. lra.
  simpl INR. field. lra.
Qed.
Print Assumptions C49_fft_diagonal_refuted.
(** With a stored window the FFT matrix cannot be computed, and the failed call leaves the scaling changed. *)
Theorem C49_windowed_refuted :
  forall xs n fs w s, (length xs > 1)%nat -> s <> FFTBackward -> get_csm_fft s xs n (Some w) fs = (FFTBackward, Err ValueError).
Proof.
  intros xs n fs w s Hx Hs. unfold get_csm_fft. destruct (Nat.leb_spec (length xs) 1); [lia|]. rewrite (sequence_map _ (rfft n)) by reflexivity. unfold csm_fft. destruct s; auto. congruence.
Qed.
Print Assumptions C49_windowed_refuted.
