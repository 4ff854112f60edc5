(** Properties C10, C16-C18, C28, C29: block FIR filtering, polyphase and multirate filtering, framing. *)
From Coq Require Import List Arith Lia ZArith Bool Reals Lra.
From Verif Require Import Alg Spec M_arrays M_frames P_realtime P_arrays P_arrays2 P_frames.
Import ListNotations.
Local Open Scope nat_scope.

(** ** C10 *)
(** Any way of cutting the signal gives the output and the final condition of one call, and these are the convolution
    plus the initial condition. *)
Theorem C10_chunks_equal_whole :
  forall (A : Type) (HA : CRing A) (b : list A) (blocks : list (list A)) (zi : list A),
  2 <= length b -> blocks <> [] -> Forall (fun x => x <> []) blocks -> length zi = length b - 1 ->
  exists y zf,
    lfilter_fir_blocks b blocks zi = Ok (y, zf) /\
    lfilter_fir_zi b (concat blocks) zi = Ok (y, zf) /\
    length y = length (concat blocks) /\ length zf = length b - 1 /\
    (forall n, n < length y -> get y n = conv b (concat blocks) n +! get zi n).
Proof.
  intros A HA b blocks zi Hb Hne HF Hz.
  assert (Hc : concat blocks <> []).
  { destruct blocks as [|x t]; [easy|]. inversion HF; subst. destruct x; [easy|]. simpl. discriminate. }
  rewrite lfilter_fir_chunks, lfilter_fir_zi_eq by auto.
  eexists _, _. split; [reflexivity|]. split; [reflexivity|]. rewrite !mk_length. split; auto. split; auto.
  intros n Hn. now rewrite get_mk.
Qed.
Print Assumptions C10_chunks_equal_whole.

(** From a zero condition the blocks give the plain filtered signal. *)
Theorem C10_chunks_from_rest :
  forall (A : Type) (HA : CRing A) (b : list A) (blocks : list (list A)),
  2 <= length b -> Forall (fun x => x <> []) blocks ->
  exists zf, lfilter_fir_blocks b blocks (repeat r0 (length b - 1)) = Ok (lfilter_fir b (concat blocks), zf).
Proof.
  intros A HA b blocks Hb HF.
  assert (b <> []) by (intros ->; simpl in *; lia).
  rewrite lfilter_fir_chunks by (auto; now rewrite repeat_length). rewrite lfilter_fir_eq by auto.
  eexists. f_equal. f_equal. apply mk_ext. intros. rewrite get_repeat0.
  rewrite (Radd_comm (@rth A HA)). apply (Radd_0_l (@rth A HA)).
Qed.
Print Assumptions C10_chunks_from_rest.

Example C10_example :
  lfilter_fir_blocks [1;2;3]%Z [[1];[0;1;5];[2;2]]%Z [10;20]%Z = Ok ([11;22;4;7;15;21], [10;6])%Z /\
  lfilter_fir_zi [1;2;3]%Z [1;0;1;5;2;2]%Z [10;20]%Z = Ok ([11;22;4;7;15;21], [10;6])%Z.
Proof. split; reflexivity. Qed.

(** A single coefficient: the returned condition has the length of the block instead of length 0. *)
Theorem C10_single_coefficient_condition_refuted :
  forall (A : Type) (HA : CRing A) (b0 : A) (x : list A), x <> [] ->
  exists y zf, lfilter_fir_zi [b0] x [] = Ok (y, zf) /\ length zf = length x.
Proof.
  intros A HA b0 x Hx. unfold lfilter_fir_zi. cbn [length]. destruct (Nat.ltb_spec (length (conv_full x [b0])) 0); try lia.
  cbn [Nat.eqb]. eexists _, _. split; [reflexivity|].
  change (vadd (firstn 0 (conv_full x [b0])) [] ++ skipn 0 (conv_full x [b0])) with (conv_full x [b0]).
  rewrite conv_full_length by easy. simpl. lia.
Qed.
Print Assumptions C10_single_coefficient_condition_refuted.

(** ** C16 *)
Theorem C16_polyphase_lossless :
  forall (A : Type) (HA : CRing A) (n : nat) (v : list A), 0 < n ->
  exists poly pad, polyphase n false v = Ok (poly, pad) /\ length poly = n /\
    polyphase_reconstruct poly = repeat r0 (pad mod n) ++ v /\
    polyphase n true v = Ok (rev poly, pad).
Proof.
  intros A HA n v Hn. destruct (polyphase_roundtrip n v Hn) as [poly [pad [E1 [E2 E3]]]].
  exists poly, pad. split; auto. split; auto.
  pose proof (polyphase_eq n false v Hn) as F. rewrite E1 in F. injection F as F1 F2.
  split. rewrite E3, F2. reflexivity. rewrite polyphase_eq by auto. cbv zeta. now rewrite F1, F2.
Qed.
Print Assumptions C16_polyphase_lossless.

(** The padding that the decomposition reports is n, not 0, when nothing was padded. *)
Theorem C16_reported_padding_refuted :
  forall (A : Type) (HA : CRing A) (n : nat) (v : list A), 0 < n -> length v mod n = 0 ->
  exists poly, polyphase n false v = Ok (poly, n) /\ polyphase_reconstruct poly = v.
Proof.
  intros A HA n v Hn Hm. destruct (C16_polyphase_lossless A HA n v Hn) as [poly [pad [E1 [_ [E3 _]]]]].
  exists poly. pose proof (polyphase_eq n false v Hn) as F. rewrite E1 in F. injection F as F1 F2.
  rewrite Hm, Nat.sub_0_r in F2. subst pad. rewrite Nat.mod_same in E3 by lia. split; [exact E1|exact E3].
Qed.
Print Assumptions C16_reported_padding_refuted.

Example C16_example :
  polyphase 3 false [1;2;3;4]%Z = Ok ([[0;2];[0;3];[1;4]]%Z, 2) /\
  polyphase_reconstruct [[0;2];[0;3];[1;4]]%Z = [0;0;1;2;3;4]%Z /\
  polyphase 2 true [1;2;3;4]%Z = Ok ([[2;4];[1;3]]%Z, 2).
Proof. repeat split; reflexivity. Qed.

(** ** C17 *)
(** Sample i of the output is the full convolution at (half/d + i)*d + d-1, counted in the front-padded time axis. *)
Theorem C17_downsample_is_decimated_convolution :
  forall (A : Type) (HA : CRing A) (d : nat) (b x : list A), 0 < d -> 3 <= length b -> x <> [] ->
  let half := (length b - 1) / 2 in
  let px := (d - length x mod d) mod d in
  let pb := (d - length b mod d) mod d in
  exists out, filter_downsample d b x = Ok out /\
    length out = (length x + px) / d + (length b + pb) / d - 1 - half / d - (half + (d - 1)) / d /\
    forall i, i < length out ->
      let t := (half / d + i) * d + (d - 1) in
      get out i = if t <? px + pb then r0 else conv b x (t - (px + pb)).
Proof.
  intros A HA d b x Hd Hb Hx half px pb.
  assert (b <> []) by (intros ->; simpl in *; lia).
  assert (0 < half) by (unfold half; apply Nat.div_str_pos; lia).
  destruct (downsample_eq d b x Hd H Hx) as [out [E1 [_ E3]]]. exists out. split; auto.
Qed.
Print Assumptions C17_downsample_is_decimated_convolution.

(** The distance between the time of output sample i and the ideal half + i*d is less than 2d-1 input samples. *)
Theorem C17_alignment :
  forall d half i lx lb : nat, 0 < d ->
  let t := ((half / d + i) * d + (d - 1) - ((d - lx mod d) mod d + (d - lb mod d) mod d))%nat in
  half + i * d <= t + 2 * (d - 1) /\ t <= half + i * d + (d - 1).
Proof.
  intros d half i lx lb Hd t.
  pose proof (Nat.div_mod half d ltac:(lia)). pose proof (Nat.mod_upper_bound half d ltac:(lia)).
  pose proof (Nat.mod_upper_bound (d - lx mod d) d ltac:(lia)). pose proof (Nat.mod_upper_bound (d - lb mod d) d ltac:(lia)).
  assert (half / d * d <= half) by lia. unfold t. split; nia.
Qed.
Print Assumptions C17_alignment.

Theorem C17_short_filter_output_empty :
  forall (A : Type) (HA : CRing A) (d : nat) (b x : list A), 0 < d -> 1 <= length b <= 2 -> x <> [] ->
  filter_downsample d b x = Ok [].
Proof.
  intros A HA d b x Hd Hb Hx. assert (b <> []) by (intros ->; simpl in *; lia).
  destruct (downsample_eq d b x Hd H Hx) as [out [E1 [E2 _]]]. rewrite E1. f_equal. apply E2.
  destruct b as [|? [|? [|? ?]]]; simpl in *; auto; lia.
Qed.
Print Assumptions C17_short_filter_output_empty.

Example C17_example :
  filter_downsample 2 [1;2;3;4]%Z [1;1;0;0;2]%Z = Ok [1;5;6]%Z /\ conv [1;2;3;4]%Z [1;1;0;0;2]%Z 2 = 5%Z /\
  filter_downsample 2 [1;2]%Z [1;1;0;0;2]%Z = Ok [].
Proof. repeat split; reflexivity. Qed.

(** The branch for other filters takes samples 0, d, 2d, ... of the filtered signal. *)
Theorem C17_decimate :
  forall (A : Type) (HA : CRing A) (d : nat) (y : list A), 0 < d ->
  length (decimate d y) = (length y + (d - 1)) / d /\
  forall i, i < length (decimate d y) -> get (decimate d y) i = get y (i * d).
Proof.
  intros. unfold decimate, get_stride. rewrite mk_length, Nat.sub_0_r. split; auto.
  intros. now rewrite get_mk.
Qed.
Print Assumptions C17_decimate.

(** ** C18 *)
Theorem C18_upsample_is_interpolated_convolution :
  forall (A : Type) (HA : CRing A) (u : nat) (b x : list A), 0 < u -> b <> [] -> x <> [] ->
  let half := (length b - 1) / 2 in
  let p := (u - length b mod u) mod u in
  p < half ->
  exists out, filter_upsample u b x = Ok out /\
    length out = (length x + (length b + p) / u - 1) * u - 2 * half /\
    forall i, i < length out -> get out i = times u (conv b (zeros_between u x) (half + i)).
Proof.
  intros A HA u b x Hu Hb Hx half p Hp.
  destruct (upsample_eq u b x Hu Hb Hx) as [out [E1 [_ E3]]]. exists out. split; auto.
Qed.
Print Assumptions C18_upsample_is_interpolated_convolution.

(** When half the filter is not longer than the padding added to it, nothing is returned. *)
Theorem C18_short_filter_output_empty :
  forall (A : Type) (HA : CRing A) (u : nat) (b x : list A), 0 < u -> b <> [] -> x <> [] ->
  (length b - 1) / 2 <= (u - length b mod u) mod u -> filter_upsample u b x = Ok [].
Proof.
  intros A HA u b x Hu Hb Hx Hp. destruct (upsample_eq u b x Hu Hb Hx) as [out [E1 [E2 _]]].
  rewrite E1. f_equal. now apply E2.
Qed.
Print Assumptions C18_short_filter_output_empty.

Example C18_example :
  filter_upsample 2 [1;2;3;2;1]%Z [1;10]%Z = Ok [26;44;62;40]%Z /\
  times 2 (conv [1;2;3;2;1]%Z (zeros_between 2 [1;10]%Z) 4) = 62%Z /\
  filter_upsample 5 [1;2;1]%Z [1;10]%Z = Ok [].
Proof. repeat split; reflexivity. Qed.

Theorem C18_zero_stuffing :
  forall (A : Type) (HA : CRing A) (u : nat) (x : list A), 0 < u ->
  zero_stuff u x = map (times u) (zeros_between u x).
Proof. intros. now apply zero_stuff_eq. Qed.
Print Assumptions C18_zero_stuffing.

(** ** C29 *)
(** With padding every sample lies in some frame, all frames fit, and frame i holds the signal from i*step on. *)
Theorem C29_padded_frames :
  forall (A : Type) (HA : CRing A) (w s : nat) (v : list A), 0 < s ->
  exists frames, framed w s true v = Ok frames /\
    length frames = (length v + (s - 1)) / s /\
    (forall i, i < length frames -> length (nth i frames []) = w /\
       forall k, k < w -> get (nth i frames []) k = get v (i * s + k)) /\
    (s <= w -> forall j, j < length v -> exists i k, i < length frames /\ k < w /\ j = i * s + k).
Proof.
  intros A HA w s v Hs. destruct (framed_keep w s v Hs) as [frames [E [F1 F2]]].
  exists frames. split; auto. rewrite F1. split; auto. split; auto.
  intros Hw j Hj. exists (j / s), (j mod s).
  pose proof (Nat.div_mod j s ltac:(lia)). pose proof (Nat.mod_upper_bound j s ltac:(lia)).
  split; [|split; lia]. apply Nat.lt_le_trans with (S (j / s)); [lia|]. apply Nat.div_le_lower_bound; lia.
Qed.
Print Assumptions C29_padded_frames.

(** Without padding no frame leaves the signal. *)
Theorem C29_unpadded_frames :
  forall (A : Type) (HA : CRing A) (w s : nat) (v : list A), 0 < s -> w <= length v ->
  exists frames, framed w s false v = Ok frames /\
    length frames = (length v - w + (s - 1)) / s /\
    (forall i, i < length frames -> i * s + w <= length v /\ length (nth i frames []) = w /\
       forall k, k < w -> get (nth i frames []) k = get v (i * s + k)).
Proof.
  intros A HA w s v Hs Hw. destruct (framed_full w s v Hs Hw) as [frames [E [F1 F2]]].
  exists frames. split; auto. rewrite F1. split; auto. intros i Hi. split; auto.
  pose proof (Nat.div_mod (length v - w + (s - 1)) s ltac:(lia)). nia.
Qed.
Print Assumptions C29_unpadded_frames.

(** The complete frames are those with i*step + window <= length; one is missing exactly when step divides length - window. *)
Theorem C29_last_frame_missing_iff :
  forall (A : Type) (HA : CRing A) (w s : nat) (v : list A), 0 < s -> w <= length v ->
  exists frames, framed w s false v = Ok frames /\
    (length frames * s + w <= length v <-> (length v - w) mod s = 0).
Proof.
  intros A HA w s v Hs Hw. destruct (framed_full w s v Hs Hw) as [frames [E [F1 F2]]].
  exists frames. split; auto. rewrite F1.
  pose proof (Nat.div_mod (length v - w) s ltac:(lia)) as D. pose proof (Nat.mod_upper_bound (length v - w) s ltac:(lia)).
  pose proof (Nat.div_mod (length v - w + (s - 1)) s ltac:(lia)) as D2.
  pose proof (Nat.mod_upper_bound (length v - w + (s - 1)) s ltac:(lia)).
  set (q := (length v - w) / s) in *. set (r := (length v - w) mod s) in *.
  destruct (Nat.eq_dec r 0) as [Er|Er].
  - assert (Eq : (length v - w + (s - 1)) / s = q) by (symmetry; apply (Nat.div_unique _ s q (s - 1)); lia).
    rewrite Eq. split; intros; lia.
  - assert (Eq : (length v - w + (s - 1)) / s = S q) by (symmetry; apply (Nat.div_unique _ s (S q) (r - 1)); nia).
    rewrite Eq. split; intros; [nia|lia].
Qed.
Print Assumptions C29_last_frame_missing_iff.

Theorem C29_short_signal :
  forall (A : Type) (HA : CRing A) (w s : nat) (v : list A), 0 < s -> length v < w ->
  framed w s false v = if w - length v <? s then Ok [] else Err ValueError.
Proof. intros. now apply framed_short. Qed.
Print Assumptions C29_short_signal.

Example C29_example :
  framed 3 2 true [1;2;3;4;5]%Z = Ok [[1;2;3];[3;4;5];[5;0;0]]%Z /\
  framed 3 2 false [1;2;3;4;5]%Z = Ok [[1;2;3]]%Z /\
  framed 3 2 false [1;2;3;4;5;6]%Z = Ok [[1;2;3];[3;4;5]]%Z /\
  framed 5 2 false [1;2]%Z = Err ValueError.
Proof. repeat split; reflexivity. Qed.

(** ** C28 *)
(** Plain overlap-add counts every sample once per frame containing it. *)
Theorem C28_overlap_add_counts :
  forall (A : Type) (HA : CRing A) (w s : nat) (v : list A), 0 < s -> s <= w ->
  exists frames, framed w s true v = Ok frames /\
    let n := length frames in
    overlap_add s w frames (s * n + w - s) =
      Ok (mk (s * n + w - s) (fun k =>
        times (length (filter (fun i => (i * s <=? k) && (k <? i * s + w)) (seq 0 n))) (get v k))).
Proof.
  intros A HA w s v Hs Hw. destruct (framed_keep w s v Hs) as [frames [E F]]. exists frames. split; auto.
  pose proof F as [F1 _]. cbv zeta. rewrite (ola_frames s w (length frames) v).
  - reflexivity.
  - now rewrite F1.
  - intros i Hi. nia.
Qed.
Print Assumptions C28_overlap_add_counts.

(** When the step divides the window, the count is window/step from sample window - step on. *)
Theorem C28_constant_overlap :
  forall s r n k : nat, 0 < s -> 0 < r -> (r - 1) * s <= k -> k < n * s ->
  length (filter (fun i => (i * s <=? k) && (k <? i * s + r * s)) (seq 0 n)) = r.
Proof. intros. now apply coverage_full. Qed.
Print Assumptions C28_constant_overlap.

(** With a window: frames multiplied by the window once more, added up and divided by the envelope of squares return
    the signal wherever this envelope reaches the threshold. *)
Theorem C28_windowed_reconstruction :
  forall (s n : nat) (window : list R) (thr : R) (v : list R) (frames : list (list R)) (total : nat),
  (0 < thr)%R -> length frames = n ->
  (forall i, i < n -> length (nth i frames []) = length window /\
     forall k, k < length window -> get (nth i frames []) k = (get window k * get v (i * s + k))%R) ->
  (forall i, i < n -> i * s + length window <= total) ->
  exists out fr win, reconstruct_windowed s window thr frames total = Ok (out, fr, win) /\ length out = total /\
    forall k, k < total ->
      (thr <= sum n (fun i => if (i * s <=? k) && (k <? i * s + length window)
                  then (get window (k - i * s) * get window (k - i * s))%R else 0%R))%R ->
      get out k = get v k.
Proof.
  intros s n window thr v frames total Ht HL HF Htot.
  destruct (reconstruct_windowed_eq s n window thr v frames total) as [out [fr [win [E1 [E2 E3]]]]]; auto.
  { split; auto. }
  exists out, fr, win. split; auto. split; auto. intros k Hk He. rewrite E3 by auto.
  fold (envelope s n window k) in He. rewrite Rmax_left by lra. field. lra.
Qed.
Print Assumptions C28_windowed_reconstruction.

(** The caller's window and frames are overwritten: the window is squared, the frames multiplied by it. *)
Theorem C28_arguments_overwritten :
  forall (s n : nat) (window : list R) (thr : R) (v : list R) (frames : list (list R)) (total : nat) out fr win,
  reconstruct_windowed s window thr frames total = Ok (out, fr, win) ->
  (forall k, k < length window -> get win k = (get window k * get window k)%R) /\
  (forall i k, i < length frames -> k < length (nth i frames []) ->
     get (nth i fr []) k = (get window k * get (nth i frames []) k)%R).
Proof.
  intros s n window thr v frames total out fr win E. unfold reconstruct_windowed in E.
  destruct (overlap_add s (length window) (map (vmul window) frames) total); cbn [bind] in E; [|discriminate].
  destruct (overlap_add _ _ _ _) in E; cbn [bind] in E; [|discriminate]. inversion E; subst. split.
  - intros k Hk. unfold get at 1. now rewrite (nth_map' _ _ k 0%R).
  - intros i k Hi Hk. rewrite (nth_map' _ frames i []) by auto. now rewrite get_vmul.
Qed.
Print Assumptions C28_arguments_overwritten.

(** So a second call with the same arrays gives something else: with window [1,2] and two frames the middle sample is
    3/5 after the first call and 9/17 after the second. *)
Theorem C28_second_call_differs_refuted :
  exists window frames out1 fr1 win1 out2 fr2 win2,
    reconstruct_windowed 1 window (1/10)%R frames 3 = Ok (out1, fr1, win1) /\
    reconstruct_windowed 1 win1 (1/10)%R fr1 3 = Ok (out2, fr2, win2) /\
    get out1 1 = (3 / 5)%R /\ get out2 1 = (9 / 17)%R.
Proof.
  exists [1%R; 2%R], [[1%R; 1%R]; [1%R; 1%R]].
  eexists _, _, _, _, _, _. split; [reflexivity|]. split; [reflexivity|].
  cbn. unfold vmul. cbn. unfold get. cbn. rewrite !Rmax_left by lra. split; lra.
Qed.
Print Assumptions C28_second_call_differs_refuted.

(** The length of the reconstruction is computed in floating point and truncated; it can be one sample short, and the
    call then raises although the frames were produced by the library itself. *)
Theorem C28_float_length_refuted :
  exists (w s : nat) (v : list Z), 0 < s <= w /\ v <> [] /\
    exists frames, framed w s true v = Ok frames /\
      ola_total_float s w (length frames) = Some (Z.of_nat (s * length frames + w - s) - 1)%Z /\
      reconstruct_frames s w frames None = Err ValueError.
Proof.
  exists 31, 13, [1;2;3]%Z. split; [lia|]. split; [easy|].
  eexists. split; [vm_compute; reflexivity|]. split; vm_compute; reflexivity.
Qed.
Print Assumptions C28_float_length_refuted.

Example C28_example :
  exists frames, framed 4 2 true [1;2;3;4;5;6]%Z = Ok frames /\
  reconstruct_frames 2 4 frames None = Ok [1;2;6;8;10;12;0;0]%Z /\
  reconstruct_frames 2 4 frames (Some 3) = Ok [1;2;6]%Z.
Proof. eexists. split; [reflexivity|]. split; vm_compute; reflexivity. Qed.
