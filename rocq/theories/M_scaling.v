(** Model of the spectrum scalings (standard/enums.py) and of the FFT spectrum of a signal (classes/signal.py, helpers/spectrum_utilities.py).
    One channel; complex values are pairs (Dft.v), the FFT is the discrete Fourier transform. *)
From Coq Require Import List Arith Lia ZArith Bool Reals.
From Verif Require Import Alg Spec M_arrays Dft.
Import ListNotations.
Local Open Scope R_scope.

(** standard/enums.py L46-52 *)
Inductive scaling := AmplitudeSpectrum | AmplitudeSpectralDensity | PowerSpectrum | PowerSpectralDensity | FFTBackward | FFTForward | FFTOrthogonal.
(** L81-97 is_amplitude_scaling *)
Definition is_amplitude (s : scaling) : bool := match s with PowerSpectrum | PowerSpectralDensity => false | _ => true end.
(** L114-129 has_physical_units *)
Definition has_units (s : scaling) : bool := match s with FFTBackward | FFTForward | FFTOrthogonal => false | _ => true end.
(** L131-146 is_spectral_density *)
Definition is_density (s : scaling) : bool := match s with AmplitudeSpectralDensity | PowerSpectralDensity => true | _ => false end.
Definition wsum (w : list R) : R := fold_right Rplus 0 w.
Definition wsum2 (w : list R) : R := fold_right Rplus 0 (map (fun v => v * v) w).
(** L183-229 get_scaling_factor *)
Definition scaling_factor (s : scaling) (n : nat) (fs : R) (window : option (list R)) : R :=
  match s with
  | FFTBackward => 1
  | FFTForward => 1 / INR n
  | FFTOrthogonal => sqrt (1 / INR n)
  | _ =>
      let factor :=
        if is_density s then match window with None => sqrt (2 / INR n / fs) | Some w => sqrt (2 / wsum2 w / fs) end
        else match window with None => sqrt 2 / INR n | Some w => sqrt 2 / wsum w end in
      if is_amplitude s then factor else factor * factor
  end.
(** L141-181 conversion_factor *)
Definition conversion_factor (a b : scaling) (n : nat) (fs : R) (window : option (list R)) : R :=
  let i := scaling_factor a n fs window in
  let o := scaling_factor b n fs window in
  if Bool.eqb (is_amplitude a) (is_amplitude b) then o / i
  else if is_amplitude a then o / (i * i) else (o * o) / i.

(** z / r, z * r for a real r *)
Definition cdivr (z : C) (r : R) : C := (fst z / r, snd z / r).
Definition cmulr (z : C) (r : R) : C := (fst z * r, snd z * r).
(** L57-79 fft_norm and numpy's rfft with that norm *)
Definition rfft_scaled (s : scaling) (n : nat) (x : list R) : list C :=
  match s with
  | FFTForward => map (fun z => cdivr z (INR n)) (rfft n x)
  | FFTOrthogonal => map (fun z => cdivr z (sqrt (INR n))) (rfft n x)
  | _ => rfft n x
  end.
(** helpers/spectrum_utilities.py L268-328 _scale_spectrum; the input is also changed in place (bins 0 and -1), which the caller of
    get_spectrum cannot see. *)
Definition scale_spectrum (X : list C) (s : scaling) (n : nat) (fs : R) (window : option (list R)) : result (list C) :=
  if ((n =? (length X - 1) * 2) || (n =? length X * 2 - 1))%nat then
    let factor := scaling_factor s n fs window in
    let X := upd X 0 (cdivr (nth 0 X (rc 0)) (sqrt 2)) in
    let X := if (n mod 2 =? 0)%nat then upd X (length X - 1) (cdivr (nth (length X - 1) X (rc 0)) (sqrt 2)) else X in
    let X := if is_amplitude s then X else map (fun z => rc (cabs2 z)) X in
    Ok (map (fun z => cmulr z factor) X)
  else Err AssertionError.
(** classes/signal.py L899-944 get_spectrum, FFT method, no smoothing, cache aside (Claims_cache.v). [n] is the FFT length: the length of
    the signal, or scipy's next_fast_len of it (not modelled, a parameter). *)
Definition fft_spectrum (x : list R) (s : scaling) (n : nat) (fs : R) (window : option (list R)) : result (list C) :=
  let X := rfft_scaled s n x in
  if has_units s then scale_spectrum X s n fs window else Ok X.
