(** C96: the low-frequency oscillator and the tremolo. *)
From Coq Require Import List Arith Lia ZArith Bool Reals Lra.
From Verif Require Import Alg Spec M_arrays M_signal M_effects P_arrays P_signal Claims_distortion Claims_fvec.
Import ListNotations.
Local Open Scope R_scope.

(** ** spec: waveforms as functions of the phase in turns *)
Definition turns (o : lfo) (fs : R) (t : nat) : R := l_freq o / fs * INR t.
Definition between (lo hi : R) (w : list R) : Prop := forall v, In v w -> lo <= v <= hi.

(** ** lemmas *)
Lemma wave_arg : forall o fs n t, (t < n)%nat -> nth t (mk n (fun t => l_freq o / fs * (2 * PI) * INR t + phase_of o)) 0 = 2 * PI * turns o fs t + phase_of o.
Proof. intros o fs n t H. rewrite nth_mk by exact H. unfold turns. ring. Qed.
Lemma sin_shift : forall a (k : nat), sin (2 * PI * INR k + a) = sin a.
Proof. intros a k. rewrite Rplus_comm. replace (2 * PI * INR k) with (2 * INR k * PI) by ring. apply sin_period. Qed.
Lemma frac_shift : forall x (k : nat), frac_part (INR k + x) = frac_part x.
Proof.
  intros x k. unfold frac_part. rewrite (Int_part_unique (INR k + x) (Z.of_nat k + Int_part x)); [rewrite plus_IZR, <- INR_IZR_INZ; ring|].
  rewrite plus_IZR, <- INR_IZR_INZ. pose proof (Int_part_bounds x). lra.
Qed.
Lemma wave_harmonic : forall o fs n, l_wave o = Harmonic -> waveform o fs n = Ok (Some (mk n (fun t => sin (2 * PI * turns o fs t + phase_of o)))).
Proof.
  intros o fs n H. unfold waveform. rewrite H. do 2 f_equal. unfold mk. rewrite map_map. apply map_ext. intro t. f_equal. unfold turns. ring.
Qed.
Lemma wave_square : forall o fs n, l_wave o = Square -> l_smooth o = 0 -> waveform o fs n = Ok (Some (mk n (fun t => sign (sin (2 * PI * turns o fs t + phase_of o))))).
Proof.
  intros o fs n H Hs. unfold waveform. rewrite H. do 2 f_equal. unfold mk. rewrite map_map. apply map_ext. intro t. rewrite Hs. destruct (Req_EM_T 0 0); [|lra]. do 2 f_equal. unfold turns. ring.
Qed.
Lemma wave_smooth : forall o fs n, l_wave o = Square -> l_smooth o <> 0 -> waveform o fs n = Ok (Some (mk n (fun t => atan (40 / l_smooth o * sin (2 * PI * turns o fs t + phase_of o))))).
Proof.
  intros o fs n H Hs. unfold waveform. rewrite H. do 2 f_equal. unfold mk. rewrite map_map. apply map_ext. intro t. destruct (Req_EM_T (l_smooth o) 0); [lra|]. f_equal.
  replace (l_freq o / fs * (2 * PI) * INR t + phase_of o) with (2 * PI * turns o fs t + phase_of o) by (unfold turns; ring). field. exact Hs.
Qed.
Lemma wave_sawtooth : forall o fs n, l_wave o = Sawtooth -> l_smooth o = 0 -> waveform o fs n = Ok (Some (mk n (fun t => 2 * frac_part (turns o fs t + phase_of o) - 1))).
Proof.
  intros o fs n H Hs. unfold waveform. rewrite H, Hs. destruct (Req_EM_T 0 0); [|lra]. do 2 f_equal. unfold mk. apply map_ext. intro t. unfold turns. field.
Qed.
Definition triangle_raw (o : lfo) (fs : R) (t : nat) : R :=
  if Req_EM_T (l_smooth o) 0 then 2 / PI * asin (sin (2 * PI * turns o fs t + phase_of o)) else 1 - 2 / PI * acos ((1 - l_smooth o * (8 / 1000)) * sin (2 * PI * turns o fs t + phase_of o)).
Lemma wave_triangle : forall o fs n, l_wave o = Triangle -> waveform o fs n = Ok (divide (mk n (triangle_raw o fs)) (vpeak (mk n (triangle_raw o fs)))).
Proof.
  intros o fs n H. unfold waveform. rewrite H. f_equal.
  replace (map _ (mk n (fun t => l_freq o / fs * (2 * PI) * INR t + phase_of o))) with (mk n (triangle_raw o fs)); [reflexivity|]. unfold mk. rewrite map_map. apply map_ext. intro t. unfold triangle_raw.
  replace (l_freq o / fs * (2 * PI) * INR t + phase_of o) with (2 * PI * turns o fs t + phase_of o) by (unfold turns; ring). reflexivity.
Qed.
Lemma in_mk : forall (T : Type) n (f : nat -> T) v, In v (mk n f) -> exists t, (t < n)%nat /\ v = f t.
Proof. intros T n f v H. unfold mk in H. apply in_map_iff in H. destruct H as (t & <- & Ht). apply in_seq in Ht. exists t. split; [lia|reflexivity]. Qed.

(** The plain waveforms: what they are at each sample; they stay between -1 and 1, a longer one starts with the shorter one, and with k samples per
    period every sample is repeated after k samples. *)
Definition plain (o : lfo) : Prop := l_wave o = Harmonic \/ (l_wave o = Square \/ l_wave o = Sawtooth) /\ l_smooth o = 0.
Theorem C96_plain : forall o fs n, plain o -> exists w, waveform o fs n = Ok (Some w) /\ length w = n /\ between (-1) 1 w /\
  (forall t, (t < n)%nat -> nth t w 0 = match l_wave o with
     | Harmonic => sin (2 * PI * turns o fs t + phase_of o)
     | Square => let s := sin (2 * PI * turns o fs t + phase_of o) in if Rlt_dec 0 s then 1 else if Rlt_dec s 0 then -1 else 0
     | _ => 2 * frac_part (turns o fs t + phase_of o) - 1 end) /\
  (forall m w', waveform o fs (n + m) = Ok (Some w') -> firstn n w' = w) /\
  (forall k, (0 < k)%nat -> l_freq o <> 0 -> fs = INR k * l_freq o -> forall t, (t + k < n)%nat -> nth (t + k) w 0 = nth t w 0).
Proof.
  intros o fs n H. 
  assert (FN : forall (f : nat -> R) m, firstn n (mk (n + m) f) = mk n f).
  { intros f m. apply list_eq_nth with (d := 0); [rewrite firstn_length, !mk_length; lia|]. intros i Hi. rewrite firstn_length, mk_length in Hi. rewrite nth_firstn by lia. rewrite !nth_mk by lia. reflexivity. }
  assert (PER : forall k, (0 < k)%nat -> l_freq o <> 0 -> fs = INR k * l_freq o -> forall t, turns o fs (t + k) = INR 1 + turns o fs t).
  { intros k Hk Hf -> t. unfold turns. rewrite plus_INR. cbn [INR]. field. split; [exact Hf|]. apply not_0_INR. lia. }
  assert (G : forall f : nat -> R, waveform o fs n = Ok (Some (mk n f)) -> (forall m, waveform o fs (n + m) = Ok (Some (mk (n + m) f))) -> (forall t, -1 <= f t <= 1) ->
    (forall k, (0 < k)%nat -> l_freq o <> 0 -> fs = INR k * l_freq o -> forall t, f (t + k)%nat = f t) ->
    (forall t, f t = match l_wave o with
     | Harmonic => sin (2 * PI * turns o fs t + phase_of o)
     | Square => let s := sin (2 * PI * turns o fs t + phase_of o) in if Rlt_dec 0 s then 1 else if Rlt_dec s 0 then -1 else 0
     | _ => 2 * frac_part (turns o fs t + phase_of o) - 1 end) ->
    exists w, waveform o fs n = Ok (Some w) /\ length w = n /\ between (-1) 1 w /\
  (forall t, (t < n)%nat -> nth t w 0 = match l_wave o with
     | Harmonic => sin (2 * PI * turns o fs t + phase_of o)
     | Square => let s := sin (2 * PI * turns o fs t + phase_of o) in if Rlt_dec 0 s then 1 else if Rlt_dec s 0 then -1 else 0
     | _ => 2 * frac_part (turns o fs t + phase_of o) - 1 end) /\
  (forall m w', waveform o fs (n + m) = Ok (Some w') -> firstn n w' = w) /\
  (forall k, (0 < k)%nat -> l_freq o <> 0 -> fs = INR k * l_freq o -> forall t, (t + k < n)%nat -> nth (t + k) w 0 = nth t w 0)).
  { intros f E1 E2 B P Q. exists (mk n f). split; [exact E1|]. split; [apply mk_length|]. split; [intros v Hv; apply in_mk in Hv; destruct Hv as (t & _ & ->); apply B|]. split; [intros t Ht; rewrite nth_mk by exact Ht; apply Q|].
    split; [intros m w' E; rewrite E2 in E; injection E as <-; apply FN|]. intros k Hk Hf Hfs t Ht. rewrite !nth_mk by lia. apply (P k Hk Hf Hfs). }
  destruct H as [H|[[H|H] Hs]].
  - apply (G (fun t => sin (2 * PI * turns o fs t + phase_of o))).
    + apply wave_harmonic, H.
    + intro m. apply wave_harmonic, H.
    + intro t. apply SIN_bound.
    + intros k Hk Hf Hfs t. cbv beta. rewrite (PER k Hk Hf Hfs). replace (2 * PI * (INR 1 + turns o fs t) + phase_of o) with (2 * PI * INR 1 + (2 * PI * turns o fs t + phase_of o)) by ring. apply sin_shift.
    + intro t. rewrite H. reflexivity.
  - apply (G (fun t => sign (sin (2 * PI * turns o fs t + phase_of o)))).
    + apply wave_square; assumption.
    + intro m. apply wave_square; assumption.
    + intro t. unfold sign. destruct (Rlt_dec _ _); [lra|]. destruct (Rlt_dec _ _); lra.
    + intros k Hk Hf Hfs t. cbv beta. rewrite (PER k Hk Hf Hfs). replace (2 * PI * (INR 1 + turns o fs t) + phase_of o) with (2 * PI * INR 1 + (2 * PI * turns o fs t + phase_of o)) by ring. rewrite sin_shift. reflexivity.
    + intro t. rewrite H. unfold sign. cbv zeta. destruct (Rlt_dec _ 0), (Rlt_dec 0 _); try reflexivity; lra.
  - apply (G (fun t => 2 * frac_part (turns o fs t + phase_of o) - 1)).
    + apply wave_sawtooth; assumption.
    + intro m. apply wave_sawtooth; assumption.
    + intro t. destruct (base_fp (turns o fs t + phase_of o)). lra.
    + intros k Hk Hf Hfs t. cbv beta. rewrite (PER k Hk Hf Hfs). rewrite Rplus_assoc, frac_shift. reflexivity.
    + intro t. rewrite H. reflexivity.
Qed.
Print Assumptions C96_plain.
Example C96_plain_example : plain (mkLfo 2 Square 0 None).
Proof. right. split; [left; reflexivity|reflexivity]. Qed.

(** The smoothed square wave leaves the range: with a smoothness up to 10 its crests are above 1. *)
Theorem C96_smooth_square_refuted : forall o fs n t, l_wave o = Square -> 0 < l_smooth o <= 10 -> (t < n)%nat -> sin (2 * PI * turns o fs t + phase_of o) = 1 ->
  exists w, waveform o fs n = Ok (Some w) /\ 1 < nth t w 0.
Proof.
  intros o fs n t H Hs Ht E. eexists. split; [apply wave_smooth; [exact H|lra]|]. rewrite nth_mk by exact Ht. rewrite E, Rmult_1_r. assert (S4 : 4 <= 40 / l_smooth o) by (apply Rmult_le_reg_r with (l_smooth o); [lra|]; unfold Rdiv; rewrite Rmult_assoc, Rinv_l by lra; lra).
  assert (P3 : 3 < PI) by (pose proof PI2_3_2; lra). apply Rlt_trans with (PI / 3); [lra|]. rewrite <- (atan_tan (PI / 3)) by lra. apply atan_increasing. rewrite tan_PI3. assert (sqrt 3 < 4); [|lra].
  rewrite <- (sqrt_square 4) by lra. apply sqrt_lt_1; lra.
Qed.
Print Assumptions C96_smooth_square_refuted.
Example C96_smooth_square_example : sin (2 * PI * turns (mkLfo 1 Square 5 None) 4 1 + phase_of (mkLfo 1 Square 5 None)) = 1.
Proof. unfold turns, phase_of. cbn [l_freq l_phase INR]. replace (2 * PI * (1 / 4 * 1) + 0) with (PI / 2) by field. apply sin_PI2. Qed.

(** The triangle is divided by its largest sample: a waveform of any length reaches 1 in magnitude or is nan, as one sample without phase is; so what a
    sample is depends on how many are asked for. *)
Theorem C96_triangle_refuted :
  (forall o fs n w, l_wave o = Triangle -> (0 < n)%nat -> waveform o fs n = Ok (Some w) -> length w = n /\ peak_of w 1) /\
  (forall f fs, waveform (mkLfo f Triangle 0 None) fs 1 = Ok None) /\
  (exists w w', waveform (mkLfo 1 Triangle 0 None) 8 2 = Ok (Some w) /\ waveform (mkLfo 1 Triangle 0 None) 8 3 = Ok (Some w') /\ nth 1 w 0 = 1 /\ nth 1 w' 0 = 1 / 2).
Proof.
  assert (A : forall f fs t, triangle_raw (mkLfo f Triangle 0 None) fs t = 2 / PI * asin (sin (2 * PI * (f / fs * INR t)))).
  { intros f fs t. unfold triangle_raw, turns, phase_of. cbn [l_freq l_smooth l_phase]. destruct (Req_EM_T 0 0); [|lra]. rewrite Rplus_0_r. reflexivity. }
  split; [|split].
  - intros o fs n w H Hn E. rewrite wave_triangle in E by exact H. set (r := mk n (triangle_raw o fs)) in *. unfold divide in E. destruct (Req_EM_T (vpeak r) 0) as [|Z]; [discriminate|]. injection E as <-.
    assert (Lr : length r = n) by apply mk_length. split; [rewrite map_length; exact Lr|]. assert (Hr : peak_of r (vpeak r)) by (apply vpeak_peak_of; intro K; rewrite K in Lr; cbn in Lr; lia).
    assert (V : 0 < vpeak r) by (pose proof (vpeak_pos r); lra). assert (AB : forall v, Rabs (v / vpeak r) = Rabs v / vpeak r) by (intro v; unfold Rdiv; rewrite Rabs_mult, (Rabs_right (/ vpeak r)) by (left; apply Rinv_0_lt_compat, V); reflexivity).
    destruct Hr as (B & v & Hv & Ev). split.
    + intros u Hu. apply in_map_iff in Hu. destruct Hu as (a & <- & Ha). rewrite AB. apply Rmult_le_reg_r with (vpeak r); [exact V|]. unfold Rdiv. rewrite Rmult_assoc, Rinv_l, Rmult_1_r, Rmult_1_l by lra. apply B, Ha.
    + exists (v / vpeak r). split; [apply (in_map (fun v => v / vpeak r)), Hv|]. rewrite AB, Ev. field. lra.
  - intros f fs. rewrite wave_triangle by reflexivity. f_equal. unfold divide. cbn [mk seq map]. rewrite A. cbn [INR]. rewrite !Rmult_0_r, sin_0, asin_0, Rmult_0_r. cbn [vpeak fold_right]. rewrite Rabs_R0, Rmax_left by lra. destruct (Req_EM_T 0 0); [reflexivity|lra].
  - assert (PP : 0 < PI) by apply PI_RGT_0. assert (T0 : triangle_raw (mkLfo 1 Triangle 0 None) 8 0 = 0) by (rewrite A; cbn [INR]; rewrite !Rmult_0_r, sin_0, asin_0; ring).
    assert (T1 : triangle_raw (mkLfo 1 Triangle 0 None) 8 1 = 1 / 2).
    { rewrite A. replace (2 * PI * (1 / 8 * INR 1)) with (PI / 4) by (cbn [INR]; field). rewrite asin_sin by lra. field. lra. }
    assert (T2 : triangle_raw (mkLfo 1 Triangle 0 None) 8 2 = 1).
    { rewrite A. replace (2 * PI * (1 / 8 * INR 2)) with (PI / 2) by (cbn [INR]; field). rewrite asin_sin by lra. field. lra. }
    rewrite !wave_triangle by reflexivity. cbn [mk seq map]. rewrite T0, T1, T2. unfold divide. cbn [vpeak fold_right]. rewrite Rabs_R0, (Rabs_right (1 / 2)), (Rabs_right 1) by lra.
    replace (Rmax 0 (Rmax (1 / 2) 0)) with (1 / 2) by (rewrite (Rmax_left (1 / 2)) by lra; rewrite Rmax_right by lra; reflexivity).
    replace (Rmax 0 (Rmax (1 / 2) (Rmax 1 0))) with 1 by (rewrite (Rmax_left 1) by lra; rewrite (Rmax_right (1 / 2)) by lra; rewrite Rmax_right by lra; reflexivity).
    destruct (Req_EM_T (1 / 2) 0); [lra|]. destruct (Req_EM_T 1 0); [lra|]. do 2 eexists. repeat split; cbn [map nth]; field.
Qed.
Print Assumptions C96_triangle_refuted.

(** ** tremolo *)
(** Each sample gets the factor |1 + depth * waveform|, the same for all channels. With a waveform between -1 and 1 and the depths that are accepted the
    factor lies between 1 - depth and 1 + depth. *)
Theorem C96_tremolo : forall o depth fs m, plain o -> 0 < depth <= 1 -> (forall x, In x m -> length x = nrows m) ->
  exists w, waveform o fs (nrows m) = Ok (Some w) /\
  exists m', apply_tremolo (mkT (MLfo o) depth) fs m = Ok (Some m') /\ length m' = length m /\
  forall c t, (c < length m)%nat -> (t < nrows m)%nat -> 0 <= 1 + depth * nth t w 0 /\ 1 - depth <= 1 + depth * nth t w 0 <= 1 + depth /\
    nth t (nth c m' []) 0 = (1 + depth * nth t w 0) * nth t (nth c m []) 0.
Proof.
  intros o depth fs m Ho Hd Hm. destruct (C96_plain o fs (nrows m) Ho) as (w & E & L & B & _). exists w. split; [exact E|]. unfold apply_tremolo. cbn [t_mod t_depth]. rewrite E. cbn [bind option_map]. eexists. split; [reflexivity|].
  split; [apply map_length|]. intros c t Hc Ht. assert (Bt : -1 <= nth t w 0 <= 1) by (apply B, nth_In; lia). assert (P : 0 <= 1 + depth * nth t w 0) by nra. split; [exact P|]. split; [nra|].
  rewrite (nth_map' _ m c [] []) by exact Hc. assert (Lc : length (nth c m []) = nrows m) by (apply Hm, nth_In, Hc).
  rewrite (nth_map' _ (combine (nth c m []) w) t (0, 0) 0) by (rewrite combine_length; lia). rewrite combine_nth by lia. cbn [fst snd]. rewrite Rabs_right by lra. ring.
Qed.
Print Assumptions C96_tremolo.

(** Arrays as modulators are refused, always; so whatever the history of calls, the modulator is an oscillator and the depth in ]0, 1]. *)
Definition calls (t : tremolo) (l : list (option R * option modulator)) : tremolo := fold_left (fun t a => fst (set_tremolo (fst a) (snd a) t)) l t.
Theorem C96_array_refuted : (forall depth a t, set_tremolo depth (Some (MArray a)) t = (t, Err AssertionError)) /\ (forall depth a, new_tremolo depth (Some (MArray a)) = Err AssertionError) /\
  (forall depth m t l, new_tremolo depth m = Ok t -> exists o, t_mod (calls t l) = MLfo o /\ 0 < t_depth (calls t l) <= 1).
Proof.
  split; [reflexivity|]. split; [reflexivity|].
  assert (ST : forall t dp md, (exists o, t_mod t = MLfo o /\ 0 < t_depth t <= 1) -> exists o, t_mod (fst (set_tremolo dp md t)) = MLfo o /\ 0 < t_depth (fst (set_tremolo dp md t)) <= 1).
  { intros t dp md (o & E & B). unfold set_tremolo. destruct md as [[o'|a]|]; [| |].
    - cbn [t_mod]. destruct dp as [v|]; [|exists o'; split; [reflexivity|exact B]]. destruct (Rlt_dec 0 v); [|exists o'; split; [reflexivity|exact B]]. destruct (Rle_dec v 1); exists o'; cbn; split; try reflexivity; [lra|exact B].
    - exists o. split; [exact E|exact B].
    - destruct dp as [v|]; [|exists o; split; [exact E|exact B]]. rewrite E. destruct (Rlt_dec 0 v); [|exists o; split; [exact E|exact B]]. destruct (Rle_dec v 1); exists o; cbn; (split; [reflexivity || exact E|]); [lra|exact B]. }
  intros depth m t l H. assert (K : exists o, t_mod t = MLfo o /\ 0 < t_depth t <= 1).
  { unfold new_tremolo in H. unfold set_tremolo in H. destruct m as [[o|a]|]; cbn in H; try discriminate.
    - destruct (Rlt_dec 0 depth); [|discriminate]. destruct (Rle_dec depth 1); [|discriminate]. injection H as <-. exists o. cbn. split; [reflexivity|lra].
    - destruct (Rlt_dec 0 depth); [|discriminate]. destruct (Rle_dec depth 1); [|discriminate]. injection H as <-. exists default_lfo. cbn. split; [reflexivity|lra]. }
  clear H. revert t K. induction l as [|(dp, md) l IH]; intros t K; [exact K|]. cbn [calls fold_left fst snd]. apply IH. apply ST, K.
Qed.
Print Assumptions C96_array_refuted.
Example C96_array_example : exists t, new_tremolo (1 / 2) None = Ok t.
Proof. unfold new_tremolo, set_tremolo. cbn. destruct (Rlt_dec 0 (1 / 2)); [|lra]. destruct (Rle_dec (1 / 2) 1); [|lra]. eexists. reflexivity. Qed.

(** A call refused for its depth has already exchanged the oscillator. *)
Theorem C96_refused_refuted : forall t o d, ~ (0 < d <= 1) -> set_tremolo (Some d) (Some (MLfo o)) t = (mkT (MLfo o) (t_depth t), Err AssertionError).
Proof. intros t o d H. unfold set_tremolo. cbn [t_mod]. destruct (Rlt_dec 0 d); [|reflexivity]. destruct (Rle_dec d 1); [lra|reflexivity]. Qed.
Print Assumptions C96_refused_refuted.
