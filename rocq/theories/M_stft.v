(** Model of the short-time Fourier transform and its inverse (standard/_spectral_methods.py, transforms/transforms.py), one channel.
    The window values (scipy's get_window) are a parameter; overlap percentages are real numbers, their float products are exact here. *)
From Coq Require Import List Arith Lia ZArith Bool Reals.
From Verif Require Import Alg Spec M_arrays M_frames Dft M_scaling M_welch.
Import ListNotations.
Local Open Scope R_scope.

(** standard/_spectral_methods.py L232-235: accepted window lengths *)
Definition stft_size (w : nat) : bool := existsb (fun e => Z.of_nat w =? 2 ^ Z.of_nat e)%Z (seq 4 13).
(** L247-248: int(overlap_percent / 100 * window_length_samples + 0.5) *)
Definition stft_overlap (w : nat) (ov : R) : nat := Z.to_nat (Int_part (ov / 100 * INR w + 1 / 2)).
(** L271-278: the scaling of one frame *)
Definition stft_scale (s : scaling) (n : nat) (fs : R) (window : list R) (X : list C) : list C :=
  if has_units s then
    let X := upd X 0 (cdivr (nth 0 X (rc 0)) (sqrt 2)) in
    let X := if (n mod 2 =? 0)%nat then upd X (length X - 1) (cdivr (nth (length X - 1) X (rc 0)) (sqrt 2)) else X in
    let X := if is_amplitude s then X else map (fun z => rc (cabs2 z)) X in
    map (fun z => cmulr z (scaling_factor s n fs (Some window))) X
  else X.
(** L176-282 _stft; the result has one spectrum per frame. check_COLA (L251) raises ValueError when the overlap is the whole window. *)
Definition stft (x : list R) (fs : R) (window : list R) (w : nat) (ov : R) (fft : option nat) (detrend padding : bool) (s : scaling) : result (list (list C)) :=
  if negb (stft_size w) then Err AssertionError else
  if negb (if Rle_dec 0 ov then if Rlt_dec ov 100 then true else false else false) then Err AssertionError else
  let n := match fft with Some n => n | None => w end in
  let o := stft_overlap w ov in
  if (w <=? o)%nat then Err ValueError else
  let x := if padding then repeat 0 o ++ x ++ repeat 0 o else x in
  bind (welch_frames w o window detrend x) (fun fr =>
  Ok (map (fun f => stft_scale s n fs window (rfft_scaled s n f)) fr)).
(** L280: the time vector runs to the length of the (padded) signal; L281: the frequency vector has the bins of the window length *)
Definition stft_frequencies (w : nat) (fs : R) : list R := mk (w / 2 + 1) (fun k => INR k * fs / INR w).

(** transforms/transforms.py L553-563: back to frames *)
Definition irfft_scaled (s : scaling) (n : nat) (X : list C) : list R :=
  match s with
  | FFTForward => map (fun v => v * INR n) (irfft_n n X)
  | FFTOrthogonal => map (fun v => v * sqrt (INR n)) (irfft_n n X)
  | _ => irfft_n n X
  end.
Definition istft_frame (s : scaling) (n w : nat) (fs : R) (window : list R) (X : list C) : list R :=
  let f := firstn w (irfft_scaled s n X) in
  if has_units s then map (fun v => v / scaling_factor s n fs (Some window)) f else f.
(** L444-586 istft for parameters that are given; [original] is the length of the original signal, if one is passed. Multiplying
    frames that are shorter than the window (FFT length below the window length) is a broadcasting error. A slice with a stop
    of -0 is empty. With no frames the extra window of the unpadded form cannot be made (IndexError), np.zeros and the
    overlap-add of nothing succeed in the padded form. *)
Definition istft (X : list (list C)) (fs : R) (window : list R) (w : nat) (ov : R) (fft : option nat) (padding : bool) (s : scaling) (original : option nat) : result (list R) :=
  let n := match fft with Some n => n | None => (2 * (length (hd [] X) - 1))%nat end in
  if (n <? w)%nat then Err ValueError else
  let fr := map (istft_frame s n w fs window) X in
  let step := Z.to_nat (Int_part ((1 - ov / 100) * INR w)) in
  let rebuild fr := bind (reconstruct_windowed step window (1 / 10000) fr (step * length fr + (w - step))%nat) (fun r => Ok (fst (fst r))) in
  let cut c td := if (c =? 0)%nat then [] else firstn (length td - c - c) (skipn c td) in
  bind (if padding then
          bind (rebuild fr) (fun td => Ok (cut (Z.to_nat (Int_part (ov / 100 * INR w))) td))
        else match fr with
             | [] => Err IndexError
             | _ => bind (rebuild (repeat 0 w :: fr ++ [repeat 0 w])) (fun td => Ok (cut step td))
             end) (fun td =>
  Ok (match original with Some l => pad_trim_col l true td | None => td end)).
