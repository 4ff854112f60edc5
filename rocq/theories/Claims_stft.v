(** C59: the short-time Fourier transform and its inverse. *)
From Coq Require Import List Arith Lia ZArith Bool Reals Lra Psatz.
From Verif Require Import Alg Spec M_arrays M_frames P_realtime P_arrays P_arrays2 P_frames Dft M_scaling M_welch P_welch Claims_fade M_stft P_stft.
Import ListNotations.
Local Open Scope R_scope.
Add Ring crst : (@rth C CRing_C).

(** ** Specification *)
(** Window lengths the functions take. *)
Definition window_size (w : nat) : Prop := exists e, (4 <= e <= 16)%nat /\ w = (2 ^ e)%nat.
(** Every sample is seen with enough energy by the windows over it (non-zero overlap-add): for each phase j of the step the squares
    of the window values j, j + step, j + 2 step, ... add up to at least 1e-4. *)
Definition nola (step : nat) (window : list R) : Prop := forall j, (j < step)%nat -> 1 / 10000 <= phase_energy step window j.
(** Transform and back. *)
Definition there_and_back (x : list R) (fs : R) (window : list R) (w : nat) (ov : R) (fft : option nat) (padding : bool) (s : scaling) (original : option nat) : result (list R) :=
  bind (stft x fs window w ov fft false padding s) (fun X => istft X fs window w ov fft padding s original).

Lemma ov_range w ov o : (0 < w)%nat -> (o < w)%nat -> ov / 100 * INR w = INR o -> 0 <= ov < 100.
Proof.
  intros Hw Ho E. apply lt_0_INR in Hw. apply lt_INR in Ho. pose proof (pos_INR o).
  assert (ov = 100 * (INR o / INR w)) by (rewrite <- E; field; lra). subst ov.
  assert (0 <= INR o / INR w < 1). { split. apply Rmult_le_pos; auto. left. now apply Rinv_0_lt_compat. apply (Rmult_lt_reg_r (INR w)); auto. unfold Rdiv. rewrite Rmult_assoc, Rinv_l by lra. lra. }
  lra.
Qed.
Lemma there_eq x fs window w ov fft padding s original : window_size w -> 0 <= ov < 100 -> (stft_overlap w ov < w)%nat ->
  there_and_back x fs window w ov fft padding s original = istft (stft_val x fs window w (stft_overlap w ov) (fft_len fft w) false padding s) fs window w ov fft padding s original.
Proof. intros Hw Hov Ho. unfold there_and_back. rewrite stft_eq; auto. now apply stft_size_spec. Qed.
Lemma nola_gain st nf window k : (0 < st)%nat -> (length window <= k + st)%nat -> (k < nf * st)%nat -> nola st window ->
  Rmax (envelope st nf window k) (1 / 10000) = envelope st nf window k /\ envelope st nf window k <> 0.
Proof.
  intros Hs Hk Hn HN. rewrite envelope_phase by auto. specialize (HN (k mod st)%nat ltac:(apply Nat.mod_upper_bound; lia)).
  rewrite Rmax_left by lra. split; auto. lra.
Qed.

(** ** Padded: the inverse gives the signal back *)
Theorem C59_round_trip x fs window w ov o fft s :
  window_size w -> ov / 100 * INR w = INR o -> (0 < o < w)%nat -> length window = w -> nola (w - o) window ->
  (match fft with Some n => (w <= n)%nat | None => True end) -> has_units s = false ->
  there_and_back x fs window w ov fft true s (Some (length x)) = Ok x /\
  exists zeros, there_and_back x fs window w ov fft true s None = Ok (x ++ repeat 0 zeros).
Proof.
  intros Hw Eov Ho Hl HN Hfft Hs. pose proof (proj2 (stft_size_spec w) Hw) as Hw'. destruct (stft_size_even w Hw') as [Wp _].
  pose proof (ov_range w ov o Wp ltac:(lia) Eov) as Hov. pose proof (overlap_exact w ov o Eov) as Eo.
  assert (Hn : (w <= fft_len fft w)%nat) by (destruct fft; simpl; lia).
  pose proof (step_exact w ov o Eov ltac:(lia)) as E1. assert (E2 : Z.to_nat (Int_part (ov / 100 * INR w)) = o) by (apply floor_nat; lra).
  assert (G : forall original, there_and_back x fs window w ov fft true s original = Ok (trim_to original (x ++ repeat 0 ((w - o) * nframes (w - o) (length x + 2 * o) - o - length x)))).
  { intros original. rewrite there_eq by (auto; lia). rewrite Eo.
    rewrite (istft_padded x fs window w ov o fft s original (w - o) o) by (auto; lia).
    set (st := (w - o)%nat) in *. set (nf := nframes st (length x + 2 * o)) in *. pose proof (nframes_cover st (length x + 2 * o) ltac:(lia)) as Hc. fold nf in Hc.
    do 2 f_equal. apply (get_ext (HA := CRing_R)). rewrite mk_length, app_length, repeat_length. lia.
    intros k Hk. rewrite mk_length in Hk. rewrite get_mk by auto. rewrite drifted_same.
    destruct (nola_gain st nf window (o + k) ltac:(lia) ltac:(lia) ltac:(nia) HN) as [-> Hz].
    replace (get (padded true o x) (o + k) * envelope st nf window (o + k) / envelope st nf window (o + k)) with (get (padded true o x) (o + k)) by (field; auto).
    rewrite padded_get. destruct (Nat.ltb_spec (o + k) o); [lia|]. replace (o + k - o)%nat with k by lia.
    destruct (Nat.lt_ge_cases k (length x)). now rewrite get_app_l. rewrite get_app_r by auto. rewrite (get_out x) by auto. symmetry. apply (get_repeat0 (HA := CRing_R)). }
  split; [|eexists; apply (G None)]. rewrite G. f_equal. cbn [trim_to]. rewrite pad_trim_end_trim by (rewrite app_length; lia). rewrite firstn_app, Nat.sub_diag, firstn_all. simpl. apply app_nil_r.
Qed.
Print Assumptions C59_round_trip.

(** A case: 16 samples, half of them overlapping, a rectangular window. *)
Lemma ones_get w j : get (repeat 1 w) j = if (j <? w)%nat then 1 else 0.
Proof. destruct (Nat.ltb_spec j w). unfold get. now rewrite nth_repeat_lt. apply (get_out (HA := CRing_R)). now rewrite repeat_length. Qed.
Lemma ones_nola st w : (0 < w)%nat -> (st <= w)%nat -> nola st (repeat 1 w).
Proof.
  intros Hw Hs j Hj. unfold phase_energy. rewrite repeat_length. destruct w as [|w]; [lia|]. rewrite (sum_S_front (HA := CRing_R)). rewrite ones_get.
  destruct (Nat.ltb_spec (j + 0 * st) (S w)); [|lia].
  assert (P : forall m, 0 <= rsum m (fun i => get (repeat 1 (S w)) (j + S i * st)%nat * get (repeat 1 (S w)) (j + S i * st)%nat)).
  { induction m as [|m IH]. apply Rle_refl. cbn [sum]. change (@radd R CRing_R) with Rplus. pose proof (Rle_0_sqr (get (repeat 1 (S w)) (j + S m * st)%nat)) as S1. unfold Rsqr in S1. lra. }
  specialize (P w). change (@radd R CRing_R) with Rplus. lra.
Qed.
Lemma size16 : window_size 16.
Proof. exists 4%nat. split; [lia|reflexivity]. Qed.
Example C59_round_trip_case x fs : there_and_back x fs (repeat 1 16) 16 50 None true FFTBackward (Some (length x)) = Ok x.
Proof.
  apply (C59_round_trip x fs (repeat 1 16) 16 50 8 None FFTBackward); auto; try lia. apply size16. simpl. lra. apply ones_nola; simpl; lia.
Qed.

(** ** Percentages that are not a whole number of samples *)
(** Rounded up by the transform, cut by the inverse: the result is one sample late. *)
Theorem C59_late_refuted x fs window w ov o fft s :
  window_size w -> INR o - 1 / 2 <= ov / 100 * INR w < INR o -> (2 <= o < w)%nat -> length window = w -> nola (w - o) window ->
  (match fft with Some n => (w <= n)%nat | None => True end) -> has_units s = false ->
  there_and_back x fs window w ov fft true s (Some (length x)) = Ok (firstn (length x) (0 :: x)).
Proof.
  intros Hw Eov Ho Hl HN Hfft Hs. pose proof (proj2 (stft_size_spec w) Hw) as Hw'. destruct (stft_size_even w Hw') as [Wp _].
  assert (Hwp : 0 < INR w) by (now apply lt_0_INR). assert (How : INR o <= INR w - 1) by (change 1 with (INR 1); rewrite <- minus_INR by lia; apply le_INR; lia).
  assert (Ho2 : 2 <= INR o) by (change 2 with (INR 2); apply le_INR; lia).
  assert (Hov : 0 <= ov < 100).
  { split. destruct (Rle_dec 0 ov); auto. assert (ov / 100 * INR w < 0) by nra. lra.
    destruct (Rlt_dec ov 100); auto. assert (INR w <= ov / 100 * INR w) by nra. lra. }
  assert (Eo : stft_overlap w ov = o) by (unfold stft_overlap; apply floor_nat; lra).
  assert (Hn : (w <= fft_len fft w)%nat) by (destruct fft; simpl; lia).
  rewrite there_eq by (auto; lia). rewrite Eo.
  assert (E1 : Z.to_nat (Int_part ((1 - ov / 100) * INR w)) = (w - o)%nat) by (apply floor_nat; rewrite minus_INR by lia; lra).
  assert (E2 : Z.to_nat (Int_part (ov / 100 * INR w)) = (o - 1)%nat) by (apply floor_nat; rewrite minus_INR by lia; simpl (INR 1); lra).
  rewrite (istft_padded x fs window w ov o fft s (Some (length x)) (w - o) (o - 1)) by (auto; lia).
  set (st := (w - o)%nat) in *. set (nf := nframes st (length x + 2 * o)) in *. pose proof (nframes_cover st (length x + 2 * o) ltac:(lia)) as Hc. fold nf in Hc.
  f_equal. cbn [trim_to]. apply (get_ext (HA := CRing_R)). rewrite pad_trim_length, firstn_length. simpl. lia.
  intros k Hk. rewrite pad_trim_length in Hk. rewrite pad_trim_end by auto. rewrite get_mk by lia. rewrite drifted_same, padded_get.
  rewrite get_firstn. destruct (Nat.ltb_spec k (length x)); [|lia]. destruct (Nat.ltb_spec (o - 1 + k) o).
  - replace k with 0%nat by lia. change (get (0 :: x) 0) with 0. unfold Rdiv. ring.
  - destruct (nola_gain st nf window (o - 1 + k) ltac:(lia) ltac:(lia) ltac:(nia) HN) as [-> Hz].
    destruct k as [|k]; [lia|]. replace (o - 1 + S k - o)%nat with k by lia. change (get (0 :: x) (S k)) with (get x k). field. auto.
Qed.
Print Assumptions C59_late_refuted.
Example C59_late_case x fs : there_and_back x fs (repeat 1 16) 16 30 None true FFTBackward (Some (length x)) = Ok (firstn (length x) (0 :: x)).
Proof. apply (C59_late_refuted x fs (repeat 1 16) 16 30 5 None FFTBackward); auto; try lia. apply size16. simpl. lra. apply ones_nola; simpl; lia. Qed.

(** Rounded down by the transform: the inverse puts the frames one sample closer than they were taken, so the frames slide over each
    other. Sample k of the result mixes, for every frame i over it, the sample of the signal i places further on. *)
Theorem C59_drift_refuted x fs window w ov o fft s :
  window_size w -> INR o < ov / 100 * INR w < INR o + 1 / 2 -> (0 < o < w)%nat -> length window = w ->
  (match fft with Some n => (w <= n)%nat | None => True end) -> has_units s = false ->
  let st := (w - o - 1)%nat in let nf := ((length x + 2 * o + (w - o - 1)) / (w - o))%nat in
  exists y, there_and_back x fs window w ov fft true s (Some (length x)) = Ok y /\ length y = length x /\
    forall k, (k < length x)%nat -> (k + o + o < st * nf + (w - st))%nat ->
      get y k = rsum nf (fun i => if (i * st <=? k + o)%nat && (k + o <? i * st + w)%nat
                   then Rsqr (get window (k + o - i * st)%nat) * get x (k + i)%nat else 0)
                / Rmax (rsum nf (fun i => if (i * st <=? k + o)%nat && (k + o <? i * st + w)%nat then Rsqr (get window (k + o - i * st)%nat) else 0)) (1 / 10000).
Proof.
  intros Hw Eov Ho Hl Hfft Hs st nf. pose proof (proj2 (stft_size_spec w) Hw) as Hw'. destruct (stft_size_even w Hw') as [Wp _].
  assert (Hwp : 0 < INR w) by (now apply lt_0_INR). assert (How : INR o <= INR w - 1) by (change 1 with (INR 1); rewrite <- minus_INR by lia; apply le_INR; lia).
  assert (Ho2 : 1 <= INR o) by (change 1 with (INR 1); apply le_INR; lia).
  assert (Hov : 0 <= ov < 100).
  { split. destruct (Rle_dec 0 ov); auto. assert (ov / 100 * INR w < 0) by nra. lra.
    destruct (Rlt_dec ov 100); auto. assert (INR w <= ov / 100 * INR w) by nra. lra. }
  assert (Eo : stft_overlap w ov = o) by (unfold stft_overlap; apply floor_nat; lra).
  assert (Hn : (w <= fft_len fft w)%nat) by (destruct fft; simpl; lia).
  rewrite there_eq by (auto; lia). rewrite Eo.
  assert (E1 : Z.to_nat (Int_part ((1 - ov / 100) * INR w)) = st) by (apply floor_nat; unfold st; rewrite !minus_INR by lia; simpl (INR 1); lra).
  assert (E2 : Z.to_nat (Int_part (ov / 100 * INR w)) = o) by (apply floor_nat; lra).
  rewrite (istft_padded x fs window w ov o fft s (Some (length x)) st o) by (auto; lia).
  eexists. split; [reflexivity|]. cbn [trim_to]. split; [apply pad_trim_length|].
  intros k Hk Hk2. rewrite pad_trim_end by auto. fold nf. assert (Enf : nframes (w - o) (length x + 2 * o) = nf) by (unfold nframes, nf; do 2 f_equal; lia). rewrite Enf. rewrite get_mk by lia.
  unfold drifted. rewrite Hl. replace (o + k)%nat with (k + o)%nat by lia. f_equal.
  - apply sum_ext. intros i Hi. unfold covers. destruct (_ && _) eqn:E; auto. apply andb_true_iff in E. rewrite Nat.leb_le, Nat.ltb_lt in E.
    rewrite padded_get. unfold Rsqr. replace (i * (w - o) + (k + o - i * st))%nat with (k + o + i)%nat by (unfold st in *; nia).
    destruct (Nat.ltb_spec (k + o + i) o); [lia|]. replace (k + o + i - o)%nat with (k + i)%nat by lia. simpl. ring.
  - f_equal. unfold envelope. apply sum_ext. intros i Hi. rewrite Hl. reflexivity.
Qed.
Print Assumptions C59_drift_refuted.
(** An impulse at sample 18 comes back at sample 17. *)
Example C59_drift_case fs : exists y, there_and_back (repeat 0 18 ++ 1 :: repeat 0 13) fs (repeat 1 16) 16 15 None true FFTBackward (Some 32%nat) = Ok y /\
  get (repeat 0 18 ++ 1 :: repeat 0 13) 17 = 0 /\ get y 17 = 1.
Proof.
  destruct (C59_drift_refuted (repeat 0 18 ++ 1 :: repeat 0 13) fs (repeat 1 16) 16 15 2 None FFTBackward) as (y & H & L & G); auto; try lia. apply size16. simpl. lra.
  exists y. split; [exact H|]. split; [reflexivity|]. rewrite G by (simpl; lia). cbv [length repeat app Nat.add Nat.mul Nat.sub Nat.div Nat.divmod fst Nat.leb Nat.ltb andb sum get nth Rsqr].
  simpl. rewrite Rmax_left by lra. field.
Qed.

(** No overlap and padding: nothing to pad, and the inverse cuts everything away. *)
Theorem C59_no_overlap_refuted x fs window w fft s : window_size w -> length window = w -> x <> [] ->
  (match fft with Some n => (w <= n)%nat | None => True end) ->
  there_and_back x fs window w 0 fft true s None = Ok [] /\ there_and_back x fs window w 0 fft true s (Some (length x)) = Ok (repeat 0 (length x)).
Proof.
  intros Hw Hl Hx Hfft. pose proof (proj2 (stft_size_spec w) Hw) as Hw'. destruct (stft_size_even w Hw') as [Wp _].
  assert (Eov : 0 / 100 * INR w = INR 0) by (simpl; lra). assert (Hn : (w <= fft_len fft w)%nat) by (destruct fft; simpl; lia).
  assert (Hlx : (0 < length x)%nat) by (destruct x; [easy|simpl; lia]).
  assert (G : forall original, there_and_back x fs window w 0 fft true s original = Ok (trim_to original [])).
  { intros original. rewrite there_eq by (auto; try lra; rewrite (overlap_exact w 0 0 Eov); auto). rewrite (overlap_exact w 0 0 Eov). unfold istft.
    rewrite (istft_n fft w) by (auto; intros ->; apply stft_val_n; auto; rewrite padded_length; lia).
    destruct (Nat.ltb_spec (fft_len fft w) w); [lia|]. rewrite (step_exact w 0 0) by (auto; lia). rewrite (floor_nat _ 0) by (simpl; lra).
    set (frs := map _ _). destruct (reconstruct_gen (w - 0) window (1 / 10000) frs ((w - 0) * length frs + (w - (w - 0)))) as (fr & win & E).
    { intros f Hf. unfold frs in Hf. apply in_map_iff in Hf. destruct Hf as (X & <- & _). unfold istft_frame. destruct (has_units s); rewrite ?map_length, firstn_length, irfft_scaled_length; lia. }
    { intros i Hi. rewrite Hl. nia. }
    rewrite E. reflexivity. }
  split; [apply (G None)|]. rewrite (G (Some (length x))). f_equal. cbn [trim_to]. rewrite pad_trim_end_pad by (simpl; lia). simpl. now rewrite Nat.sub_0_r.
Qed.
Print Assumptions C59_no_overlap_refuted.
Example C59_no_overlap_case fs : there_and_back [1; 2] fs (repeat 1 16) 16 0 None true FFTBackward (Some 2%nat) = Ok [0; 0].
Proof. apply (C59_no_overlap_refuted [1; 2] fs (repeat 1 16) 16 None FFTBackward); auto. apply size16. discriminate. Qed.

(** ** Unpadded *)
(** From the overlap on every sample is recovered; before it the extra empty frame takes part in the normalisation, though it holds
    nothing: the sample is multiplied by E / max (E + window²). *)
Theorem C59_unpadded x fs window w ov o fft s :
  window_size w -> ov / 100 * INR w = INR o -> (o < w)%nat -> length window = w -> nola (w - o) window -> x <> [] ->
  (match fft with Some n => (w <= n)%nat | None => True end) -> has_units s = false ->
  exists y, there_and_back x fs window w ov fft false s (Some (length x)) = Ok y /\ length y = length x /\
    (forall k, (o <= k < length x)%nat -> get y k = get x k) /\
    (forall k, (k < length x)%nat -> (k < o)%nat -> let E := envelope (w - o) ((length x + (w - o - 1)) / (w - o)) window k in
       get y k = get x k * (E / Rmax (E + Rsqr (get window (k + (w - o))%nat)) (1 / 10000))).
Proof.
  intros Hw Eov Ho Hl HN Hx Hfft Hs. pose proof (proj2 (stft_size_spec w) Hw) as Hw'. destruct (stft_size_even w Hw') as [Wp _].
  pose proof (ov_range w ov o Wp ltac:(lia) Eov) as Hov. pose proof (overlap_exact w ov o Eov) as Eo.
  assert (Hn : (w <= fft_len fft w)%nat) by (destruct fft; simpl; lia).
  rewrite there_eq by (auto; lia). rewrite Eo. destruct (istft_unpadded x fs window w ov o fft s (Some (length x)) Hw' Ho Hl Hn Hs Hx Eov) as (td & -> & L & G).
  pose proof (nframes_cover (w - o) (length x) ltac:(lia)) as Hc.
  eexists. split; [reflexivity|]. cbn [trim_to]. split; [apply pad_trim_length|]. split.
  - intros k Hk. rewrite pad_trim_end by lia. rewrite G by lia. destruct (Nat.ltb_spec k o); [lia|]. rewrite Rplus_0_r.
    destruct (nola_gain (w - o) (nframes (w - o) (length x)) window k ltac:(lia) ltac:(lia) ltac:(nia) HN) as [-> Hz]. field. auto.
  - intros k Hk Hk2. rewrite pad_trim_end by lia. rewrite G by lia. destruct (Nat.ltb_spec k o); [|lia]. reflexivity.
Qed.
Print Assumptions C59_unpadded.
Lemma envelope_nonneg st n window k : 0 <= envelope st n window k.
Proof.
  unfold envelope. induction n as [|n IH]. apply Rle_refl. cbn [sum]. change (@radd R CRing_R) with Rplus.
  destruct (_ && _); [|lra]. pose proof (Rle_0_sqr (get window (k - n * st))) as P. unfold Rsqr in P. lra.
Qed.
(** Without overlap the whole signal comes back; with overlap no non-zero sample before the overlap does where the window is not zero. *)
Theorem C59_unpadded_start x fs window w ov o fft s :
  window_size w -> ov / 100 * INR w = INR o -> (o < w)%nat -> length window = w -> nola (w - o) window -> x <> [] ->
  (match fft with Some n => (w <= n)%nat | None => True end) -> has_units s = false ->
  exists y, there_and_back x fs window w ov fft false s (Some (length x)) = Ok y /\ (o = 0%nat -> y = x) /\
    forall k, (k < length x)%nat -> (k < o)%nat -> get x k <> 0 -> get window (k + (w - o))%nat <> 0 -> Rabs (get y k) < Rabs (get x k).
Proof.
  intros Hw Eov Ho Hl HN Hx Hfft Hs. destruct (C59_unpadded x fs window w ov o fft s Hw Eov Ho Hl HN Hx Hfft Hs) as (y & H & L & G1 & G2).
  exists y. split; auto. split.
  - intros ->. apply (get_ext (HA := CRing_R)); auto. intros k Hk. apply G1. lia.
  - intros k Hk Hk2 Hxk Hwk. rewrite G2 by auto. cbv zeta. set (E := envelope _ _ _ _). pose proof (envelope_nonneg (w - o) ((length x + (w - o - 1)) / (w - o)) window k) as PE. fold E in PE.
    pose proof (Rlt_0_sqr _ Hwk) as PW. set (W := Rsqr _) in *. pose proof (Rmax_l (E + W) (1 / 10000)) as M. set (D := Rmax _ _) in *.
    assert (B : 0 <= E / D < 1). { assert (0 < D) by lra. split. apply Rmult_le_pos; auto. left. now apply Rinv_0_lt_compat. apply (Rmult_lt_reg_r D); auto. unfold Rdiv. rewrite Rmult_assoc, Rinv_l by lra. lra. }
    rewrite Rabs_mult, (Rabs_pos_eq (E / D)) by lra. pose proof (Rabs_pos_lt _ Hxk). nra.
Qed.
Print Assumptions C59_unpadded_start.
Example C59_unpadded_case fs : exists y, there_and_back [3; 4] fs (repeat 1 16) 16 50 None false FFTBackward (Some 2%nat) = Ok y /\ Rabs (get y 1) < Rabs (get [3; 4] 1).
Proof.
  destruct (C59_unpadded_start [3; 4] fs (repeat 1 16) 16 50 8 None FFTBackward) as (y & H & _ & G); auto; try lia. apply size16. simpl. lra. apply ones_nola; simpl; lia. discriminate.
  exists y. split; auto. apply G. simpl; lia. lia. unfold get; simpl; lra. unfold get; simpl; lra.
Qed.

(** ** Scalings with physical units *)
Lemma dft_const n c k : (0 < n)%nat -> (k < n)%nat -> dft n (repeat c n) k = if (k =? 0)%nat then rc (INR n * c) else rc 0.
Proof.
  intros Hn Hk. unfold dft. rewrite (sum_ext (HA := CRing_C) n _ (fun t => rc c *! root n (Z.of_nat t * - Z.of_nat k))).
  - rewrite (sum_scal_l (HA := CRing_C)). rewrite root_sum by auto. destruct (Nat.eqb_spec k 0) as [->|Hne].
    + rewrite Z.mod_0_l by lia. simpl (0 =? 0)%Z. cbn iota. apply c_ext; simpl; ring.
    + replace ((- Z.of_nat k) mod Z.of_nat n =? 0)%Z with false. apply c_ext; simpl; ring.
      symmetry. apply Z.eqb_neq. intros E. apply Z.mod_divide in E; [|lia]. destruct E as [q E]. assert (q = 0)%Z by nia. lia.
  - intros t Ht. f_equal. f_equal. unfold get. now rewrite nth_repeat_lt. f_equal. ring.
Qed.
Lemma wsum_ones w : wsum (repeat 1 w) = INR w.
Proof. induction w. reflexivity. rewrite S_INR. cbn [repeat]. unfold wsum in *. cbn [fold_right]. rewrite IHw. ring. Qed.
Lemma wsum2_ones w : wsum2 (repeat 1 w) = INR w.
Proof. induction w. reflexivity. rewrite S_INR. cbn [repeat]. unfold wsum2 in *. cbn [map fold_right]. rewrite IHw. ring. Qed.
Lemma factor_ones s w fs : has_units s = true -> is_amplitude s = true -> (0 < w)%nat -> 0 < fs -> scaling_factor s w fs (Some (repeat 1 w)) <> 0.
Proof.
  intros Hu Ha Hw Hf. pose proof (lt_0_INR _ Hw). pose proof (sqrt_lt_R0 2 ltac:(lra)).
  destruct s; try discriminate; cbn [scaling_factor is_density is_amplitude]; rewrite ?wsum_ones, ?wsum2_ones.
  - apply Rgt_not_eq. apply Rdiv_lt_0_compat; lra.
  - apply Rgt_not_eq. apply sqrt_lt_R0. apply Rdiv_lt_0_compat; auto. apply Rdiv_lt_0_compat; lra.
Qed.
(** A constant signal comes back divided by the square root of two: the transform divides bin 0 (and the last one), the inverse does
    not multiply them back. *)
Theorem C59_units_refuted c fs w s :
  window_size w -> has_units s = true -> is_amplitude s = true -> 0 < fs ->
  there_and_back (repeat c w) fs (repeat 1 w) w 0 None false s (Some w) = Ok (repeat (c / sqrt 2) w).
Proof.
  intros Hw Hu Ha Hf. pose proof (proj2 (stft_size_spec w) Hw) as Hw'. destruct (stft_size_even w Hw') as [Wp We].
  assert (Eov : 0 / 100 * INR w = INR 0) by (simpl; lra). pose proof (factor_ones s w fs Hu Ha Wp Hf) as HF. pose proof (lt_0_INR _ Wp) as HW.
  pose proof (sqrt_lt_R0 2 ltac:(lra)) as Hq. pose proof (Nat.div_mod w 2 ltac:(lia)) as Dm. assert (Hm : (w mod 2 = 0)%nat) by lia.
  rewrite there_eq by (auto; try lra; rewrite (overlap_exact w 0 0 Eov); auto). rewrite (overlap_exact w 0 0 Eov).
  assert (NF : nframes w w = 1%nat) by (unfold nframes; rewrite <- (Nat.div_unique (w + (w - 1)) w 1 (w - 1)); lia).
  assert (EX : stft_val (repeat c w) fs (repeat 1 w) w 0 (fft_len None w) false false s =
    [mk (w / 2 + 1) (fun k => if (k =? 0)%nat then rc (INR w * c / sqrt 2 * scaling_factor s w fs (Some (repeat 1 w))) else rc 0)]).
  { unfold stft_val. cbn [padded fft_len]. rewrite Nat.sub_0_r. unfold wframes. rewrite repeat_length, NF. unfold mk at 1. cbn [seq map]. f_equal.
    assert (Ef : mk w (wvalue w w (repeat 1 w) false (repeat c w) 0) = repeat c w).
    { apply (get_ext (HA := CRing_R)). now rewrite mk_length, repeat_length. intros t Ht. rewrite mk_length in Ht. rewrite get_mk by auto. unfold wvalue, wsample.
      rewrite ones_get. destruct (Nat.ltb_spec t w); [|lia]. simpl (0 * w + t)%nat. ring. }
    rewrite Ef. assert (Er : rfft_scaled s w (repeat c w) = rfft w (repeat c w)) by (destruct s; auto; discriminate). rewrite Er. clear Ef Er.
    unfold stft_scale. rewrite Hu, Ha, Hm. cbn [Nat.eqb].
    apply nth_ext with (d := cmulr (rc 0) (scaling_factor s w fs (Some (repeat 1 w)))) (d' := rc 0); [now rewrite map_length, !upd_length, rfft_length, mk_length|].
    intros k Hk. rewrite map_length, !upd_length, rfft_length in Hk. rewrite (map_nth (fun z => cmulr z (scaling_factor s w fs (Some (repeat 1 w))))). rewrite nth_mk by auto.
    rewrite nth_upd by (rewrite !upd_length, rfft_length; lia). rewrite !upd_length, rfft_length. rewrite !nth_upd by (rewrite rfft_length; lia).
    assert (V : forall k, (k < w / 2 + 1)%nat -> nth k (rfft w (repeat c w)) (rc 0) = if (k =? 0)%nat then rc (INR w * c) else rc 0).
    { intros k0 Hk0. unfold rfft. rewrite nth_mk by auto. apply dft_const; lia. }
    rewrite !V by lia. destruct (Nat.eqb_spec (w / 2 + 1 - 1) 0); [apply Nat.eqb_eq in We; lia|].
    destruct (Nat.eqb_spec k (w / 2 + 1 - 1)); destruct (Nat.eqb_spec k 0); try lia; cbn [Nat.eqb]; apply c_ext; simpl; field; lra. }
  rewrite EX. unfold istft. cbn [hd length]. rewrite mk_length. replace (2 * (w / 2 + 1 - 1))%nat with w by lia.
  destruct (Nat.ltb_spec w w); [lia|]. cbn [map].
  assert (EFr : istft_frame s w w fs (repeat 1 w) (mk (w / 2 + 1) (fun k => if (k =? 0)%nat then rc (INR w * c / sqrt 2 * scaling_factor s w fs (Some (repeat 1 w))) else rc 0)) = repeat (c / sqrt 2) w).
  { unfold istft_frame. rewrite Hu. assert (Er : forall X, irfft_scaled s w X = irfft_n w X) by (intros; destruct s; auto; discriminate). rewrite Er. clear Er.
    rewrite firstn_all2 by (rewrite irfft_n_length; lia). apply (get_ext (HA := CRing_R)). now rewrite map_length, irfft_n_length, repeat_length.
    intros t Ht. rewrite map_length, irfft_n_length in Ht. unfold get at 1. rewrite (nth_map' _ _ t 0) by (rewrite irfft_n_length; auto). unfold irfft_n. rewrite nth_mk by auto.
    rewrite (sum_ext (HA := CRing_C) w _ (fun k => if (k =? 0)%nat then rc (INR w * c / sqrt 2 * scaling_factor s w fs (Some (repeat 1 w))) else r0)).
    2:{ intros k Hk. unfold herm. destruct (Nat.leb_spec k (w / 2)).
        - rewrite nth_mk by lia. destruct (Nat.eqb_spec k 0) as [->|]. rewrite Z.mul_0_l, root_0. apply c_ext; simpl; ring. apply c_ext; simpl; ring.
        - rewrite nth_mk by lia. destruct (Nat.eqb_spec (w - k) 0); [lia|]. destruct (Nat.eqb_spec k 0); [lia|]. apply c_ext; simpl; ring. }
    rewrite (sum_delta (HA := CRing_C) w 0 (fun _ => rc (INR w * c / sqrt 2 * scaling_factor s w fs (Some (repeat 1 w))))) by auto.
    unfold get. rewrite nth_repeat_lt by auto. simpl. field. repeat split; auto; lra. }
  rewrite EFr. rewrite (step_exact w 0 0) by (auto; lia). rewrite Nat.sub_0_r.
  set (frs := repeat 0 w :: [repeat (c / sqrt 2) w] ++ [repeat 0 w]).
  destruct (reconstruct_gen w (repeat 1 w) (1 / 10000) frs (w * length frs + (w - w))) as (fr & win & E).
  { intros f [<-|[<-|[<-|[]]]]; now rewrite !repeat_length. }
  { intros i Hi. rewrite repeat_length. nia. }
  cbv beta iota zeta. change (repeat 0 w :: [repeat (c / sqrt 2) w] ++ [repeat 0 w]) with frs. change (S (length ([repeat (c / sqrt 2) w] ++ [repeat 0 w]))) with (length frs). rewrite E. cbn [bind fst]. rewrite cut_mk by auto. f_equal. apply (get_ext (HA := CRing_R)). now rewrite pad_trim_length, repeat_length.
  intros k Hk. rewrite pad_trim_length in Hk. rewrite pad_trim_end by auto. unfold frs. cbn [length app]. rewrite get_mk by lia. rewrite repeat_length. unfold envelope. rewrite repeat_length.
  cbn [sum]. unfold covers. simpl (0 * w)%nat. rewrite Nat.mul_1_l.
  destruct (Nat.leb_spec 0 (w + k)); [|lia]. destruct (Nat.ltb_spec (w + k) (0 + w)); [lia|]. destruct (Nat.leb_spec w (w + k)); [|lia]. destruct (Nat.ltb_spec (w + k) (w + w)); [|lia]. destruct (Nat.leb_spec (2 * w) (w + k)); [lia|].
  cbn [andb nth]. replace (w + k - w)%nat with k by lia. rewrite ones_get. destruct (Nat.ltb_spec k w); [|lia]. unfold get. rewrite !nth_repeat_lt by auto. simpl. rewrite Rmax_left by lra. field. lra.
Qed.
Print Assumptions C59_units_refuted.
Example C59_units_case : there_and_back (repeat 2 16) 48000 (repeat 1 16) 16 0 None false AmplitudeSpectrum (Some 16%nat) = Ok (repeat (sqrt 2) 16).
Proof. rewrite (C59_units_refuted 2 48000 16 AmplitudeSpectrum); auto; try lra. do 2 f_equal. pose proof (sqrt_lt_R0 2 ltac:(lra)). rewrite <- (sqrt_sqrt 2) at 1 by lra. field. lra. apply size16. Qed.

(** Power scalings keep no phase: a signal and its negative have the same transform, so nothing can turn it back. *)
Lemma dft_neg n x k : dft n (map Ropp x) k = (- fst (dft n x k), - snd (dft n x k)).
Proof.
  assert (G : forall t, get (map Ropp x) t = - get x t) by (intros t; unfold get; change (@r0 R CRing_R) with 0; rewrite <- Ropp_0 at 1; apply (map_nth Ropp)).
  unfold dft. apply c_ext; cbn [fst snd]; rewrite ?csum_fst, ?csum_snd; rewrite <- (sum_opp (HA := CRing_R)); apply sum_ext; intros t Ht; rewrite G; simpl; ring.
Qed.
Lemma wframes_neg w s window detrend x : wframes w s window detrend (map Ropp x) = map (map Ropp) (wframes w s window detrend x).
Proof.
  assert (G : forall t, get (map Ropp x) t = - get x t) by (intros t; unfold get; change (@r0 R CRing_R) with 0; rewrite <- Ropp_0 at 1; apply (map_nth Ropp)).
  unfold wframes. rewrite map_length, map_mk. apply mk_eq. intros i Hi. rewrite map_mk. apply mk_eq. intros t Ht.
  assert (W : forall t, wsample s window (map Ropp x) i t = - wsample s window x i t) by (intros; unfold wsample; rewrite G; ring).
  unfold wvalue. destruct detrend; [|apply W]. rewrite W, (sum_ext (HA := CRing_R) w _ (fun t => - wsample s window x i t)) by (intros; apply W).
  rewrite (sum_opp (HA := CRing_R)). change (@ropp R CRing_R) with Ropp. unfold Rdiv. ring.
Qed.
Theorem C59_power_sign x fs window w ov fft detrend padding s : has_units s = true -> is_amplitude s = false ->
  stft (map Ropp x) fs window w ov fft detrend padding s = stft x fs window w ov fft detrend padding s.
Proof.
  intros Hu Ha. unfold stft. destruct (negb (stft_size w)); auto. destruct (negb _); auto. destruct (Nat.leb_spec w (stft_overlap w ov)); auto.
  rewrite !welch_frames_eq by auto. cbn [bind]. f_equal.
  change (if padding then repeat 0 (stft_overlap w ov) ++ map Ropp x ++ repeat 0 (stft_overlap w ov) else map Ropp x) with (padded padding (stft_overlap w ov) (map Ropp x)).
  change (if padding then repeat 0 (stft_overlap w ov) ++ x ++ repeat 0 (stft_overlap w ov) else x) with (padded padding (stft_overlap w ov) x).
  assert (E : padded padding (stft_overlap w ov) (map Ropp x) = map Ropp (padded padding (stft_overlap w ov) x)).
  { destruct padding; auto. unfold padded. rewrite !map_app. assert (Z0 : forall m, map Ropp (repeat 0 m) = repeat 0 m) by (induction m as [|m IH]; simpl; rewrite ?Ropp_0, ?IH; reflexivity). now rewrite Z0. }
  rewrite E, wframes_neg, map_map. apply map_ext. intros f.
  assert (Er : forall f, rfft_scaled s (match fft with Some n => n | None => w end) f = rfft (match fft with Some n => n | None => w end) f) by (intros; destruct s; auto; discriminate). rewrite !Er.
  set (n := match fft with Some n => n | None => w end). unfold stft_scale. rewrite Hu, Ha. f_equal. rewrite !upd_length, !rfft_length.
  assert (N : forall k, nth k (rfft n (map Ropp f)) (rc 0) = (- fst (nth k (rfft n f) (rc 0)), - snd (nth k (rfft n f) (rc 0)))).
  { intros k. unfold rfft. destruct (Nat.lt_ge_cases k (n / 2 + 1)). rewrite !nth_mk by auto. apply dft_neg. rewrite !nth_mk_out by auto. apply c_ext; simpl; ring. }
  assert (F : forall a b : list C, length a = length b -> (forall k, nth k a (rc 0) = (- fst (nth k b (rc 0)), - snd (nth k b (rc 0)))) -> map (fun z => rc (cabs2 z)) a = map (fun z => rc (cabs2 z)) b).
  { intros a b Lab H2. apply nth_ext with (d := rc (cabs2 (rc 0))) (d' := rc (cabs2 (rc 0))); [now rewrite !map_length|]. intros k _. rewrite !(map_nth (fun z => rc (cabs2 z))). rewrite H2. apply c_ext; [|reflexivity]. unfold cabs2. simpl. ring. }
  apply F. { destruct (n mod 2 =? 0)%nat; rewrite !upd_length, !rfft_length; reflexivity. }
  assert (U : forall (a b : list C) i r, length a = length b -> (i < length b)%nat -> (forall k, nth k a (rc 0) = (- fst (nth k b (rc 0)), - snd (nth k b (rc 0)))) ->
     forall k, nth k (upd a i (cdivr (nth i a (rc 0)) r)) (rc 0) = (- fst (nth k (upd b i (cdivr (nth i b (rc 0)) r)) (rc 0)), - snd (nth k (upd b i (cdivr (nth i b (rc 0)) r)) (rc 0)))).
  { intros a b i r Lab Hi H2 k. rewrite !nth_upd by lia. destruct (Nat.eqb_spec k i); [|apply H2]. rewrite H2. apply c_ext; unfold cdivr; cbn [fst snd]; unfold Rdiv; ring. }
  assert (U0 := U (rfft n (map Ropp f)) (rfft n f) 0%nat (sqrt 2) ltac:(now rewrite !rfft_length) ltac:(rewrite rfft_length; lia) N).
  destruct (n mod 2 =? 0)%nat; [|exact U0]. apply U; auto; rewrite !upd_length, !rfft_length; lia.
Qed.
Print Assumptions C59_power_sign.
(** ... so no function of the transform returns the signal, for any accepted arguments. *)
Theorem C59_power_refuted (inverse : result (list (list C)) -> list R) fs window w ov fft detrend padding s :
  has_units s = true -> is_amplitude s = false ->
  exists x, length x = 1%nat /\ inverse (stft x fs window w ov fft detrend padding s) <> x.
Proof.
  intros Hu Ha. pose proof (C59_power_sign [1] fs window w ov fft detrend padding s Hu Ha) as E. cbn [map] in E.
  destruct (list_eq_dec Req_EM_T (inverse (stft [1] fs window w ov fft detrend padding s)) [1]) as [H|H].
  - exists [-1]. split; auto. change (-1) with (- (1)). rewrite E, H. intros K. injection K as K. lra.
  - exists [1]. auto.
Qed.
Print Assumptions C59_power_refuted.
Example C59_power_case : has_units PowerSpectrum = true /\ is_amplitude PowerSpectrum = false /\ has_units PowerSpectralDensity = true /\ is_amplitude PowerSpectralDensity = false.
Proof. repeat split. Qed.

(** ** Shapes *)
(** One spectrum per step of the (padded) signal, each with half the FFT length plus one bins; the frequency vector belongs to the
    window length instead, so it has the wrong length for a longer FFT; and a shorter FFT cannot be inverted. *)
Theorem C59_shape x fs window w ov fft detrend padding s :
  window_size w -> 0 <= ov < 100 -> (stft_overlap w ov < w)%nat ->
  let n := match fft with Some n => n | None => w end in let o := stft_overlap w ov in
  exists X, stft x fs window w ov fft detrend padding s = Ok X /\
    length X = ((length x + (if padding then 2 * o else 0) + (w - o - 1)) / (w - o))%nat /\ (forall f, In f X -> length f = (n / 2 + 1)%nat) /\
    (forall f, In f X -> length f = length (stft_frequencies w fs) <-> (n / 2 = w / 2)%nat) /\
    ((n < w)%nat -> fft <> None -> forall original, istft X fs window w ov fft padding s original = Err ValueError).
Proof.
  intros Hw Hov Ho n o. pose proof (proj2 (stft_size_spec w) Hw) as Hw'. rewrite stft_eq by auto. eexists. split; [reflexivity|]. fold o in Ho |- *.
  assert (LF : forall f, In f (stft_val x fs window w o (fft_len fft w) detrend padding s) -> length f = (n / 2 + 1)%nat).
  { intros f Hf. unfold stft_val in Hf. apply in_map_iff in Hf. destruct Hf as (g & <- & _). rewrite stft_scale_length, rfft_scaled_length. reflexivity. }
  split; [|split; [exact LF|split]].
  - unfold stft_val. rewrite map_length, wframes_length, padded_length. unfold nframes. f_equal.
  - intros f Hf. rewrite LF by auto. unfold stft_frequencies. rewrite mk_length. lia.
  - intros Hn Hf original. destruct fft as [m|]; [|easy]. unfold istft. simpl in n. destruct (Nat.ltb_spec m w); [auto|unfold n in Hn; lia].
Qed.
Print Assumptions C59_shape.
Example C59_shape_case fs : exists X, stft [1; 2; 3] fs (repeat 1 16) 16 50 (Some 32%nat) false true FFTBackward = Ok X /\ length X = 3%nat /\
  length (stft_frequencies 16 fs) = 9%nat /\ forall f, In f X -> length f = 17%nat.
Proof.
  assert (E : stft_overlap 16 50 = 8%nat) by (apply overlap_exact; simpl; lra).
  destruct (C59_shape [1; 2; 3] fs (repeat 1 16) 16 50 (Some 32%nat) false true FFTBackward size16 ltac:(lra) ltac:(rewrite E; lia)) as (X & H & L & F & _).
  rewrite E in L. exists X. split; [exact H|]. split; [exact L|]. split; [apply mk_length|]. exact F.
Qed.
