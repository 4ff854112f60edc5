(** Model of parts of transfer_functions/ (transfer_functions.py, _transfer_functions.py) and helpers/windows.py: windows with flanks,
    spectral deconvolution. Samples are real numbers, complex values are pairs, nan and inf are None; a (time samples, channels) array
    is the list of its columns. *)
From Coq Require Import List Arith Lia ZArith Bool Reals.
From Verif Require Import Alg Spec Dft M_arrays M_signal M_block M_scaling M_latency M_level M_distances M_tf.
Import ListNotations.
Local Open Scope R_scope.

(** ** helpers/windows.py *)
(** L8-77 calculate_tukey_like_window. [wl n], [wr n] are scipy's get_window(type, n, fftbins=True) of the left and of the right type.
    np.ones and np.zeros of a negative length raise ValueError; points are non-negative. *)
Definition tukey_like (wl wr : nat -> list R) (p0 p1 p2 p3 len : nat) (at_start inverse : bool) : result (list R) :=
  if ((p1 <? p0) || (p2 <? p1) || (p3 <? p2) || (len <? p3))%nat then Err ValueError
  else
    let low := (p1 - p0)%nat in
    let low_flank := if (at_start && (0 <? low)%nat)%bool then firstn low (wl (2 * low)%nat) else repeat 1 low in
    let high := (p3 - p2)%nat in
    let high_flank := if (1 <? high)%nat then skipn high (wr (2 * high)%nat) else repeat 1 high in
    let w := repeat 0 p0 ++ low_flank ++ repeat 1 (p2 - p1)%nat ++ high_flank ++ repeat 0 (len - p3)%nat in
    Ok (if inverse then map (fun v => 1 - v) w else w).
(** scipy.signal.get_window("hann", n, fftbins=True) for n > 1 *)
Definition hann (n : nat) : list R := mk n (fun i => 1 / 2 - 1 / 2 * cos (2 * PI * INR i / INR n)).

(** ** Spectral deconvolution *)
(** np.fft.rfftfreq(n, 1 / fs) *)
Definition rfftfreq (n : nat) (fs : R) : list R := mk (n / 2 + 1) (fun k => INR k * fs / INR n).
(** helpers/other.py L34-41 find_frequencies_above_threshold with normalize: first and last frequency whose level lies above the
    threshold relative to the largest level. IndexError when there is none. to_db clips at the smallest normal number (M_level). *)
Definition frequencies_above (X : list C) (f : list R) (thr : R) : result (R * R) :=
  let db := map (fun z => match db_default (sqrt (cabs2 z)) with Some v => v | None => 0 end) X in
  let top := nth (argmax db) db 0 in
  match filter (fun p => if Rlt_dec thr (fst p - top) then true else false) (combine db f) with
  | [] => Err IndexError
  | p :: l => Ok (snd p, snd (last (p :: l) p))
  end.
(** The regularisation range: four frequencies *)
Definition quad := (R * R * R * R)%type.
(** _transfer_functions.py L19-42 _spectral_deconvolve. A division by zero makes the whole column nan (None), since irfft mixes all bins. *)
Definition reg_eps (q : quad) (f : list R) : result (list R) :=
  let '(a, b, c, d) := q in
  bind (tukey_like hann hann (nearest a f) (nearest b f) (nearest c f) (nearest d f) (length f) true true)
       (fun w => Ok (map (fun v => v * Rpower 10 (30 / 20)) w)).
Definition all_some {T} (l : list (option T)) : option (list T) :=
  fold_right (fun o acc => match o, acc with Some x, Some r => Some (x :: r) | _, _ => None end) (Some []) l.
Definition deconv_plain (Y X : list C) (n : nat) : option (list R) :=
  option_map (irfft_n n) (all_some (mk (length Y) (fun k => cdiv (nth k Y (rc 0)) (nth k X (rc 0))))).
Definition deconv_reg (Y X : list C) (eps : list R) (n : nat) : option (list R) :=
  option_map (irfft_n n) (all_some (mk (length Y) (fun k =>
    let x := nth k X (rc 0) in
    option_map (cmul (nth k Y (rc 0))) (cdiv (cconj x) (rc (cabs2 x + get eps k)))))).
(** What the caller sets in start_stop_hz: nothing, two or four frequencies, or another number of them *)
Inductive range := Auto | Two (a b : R) | Four (q : quad) | Wrong.
(** transfer_functions.py L152-168: the range used for one channel *)
Definition resolve_range (r : range) (X : list C) (f : list R) (thr fs : R) : result quad :=
  let two a b := Ok (a / sqrt 2, a, b, Rmin (b * sqrt 2) (fs / 2)) in
  match r with
  | Auto => bind (frequencies_above X f thr) (fun p => two (fst p) (snd p))
  | Two a b => two a b
  | Four q => Ok q
  | Wrong => Err ValueError
  end.
(** A signal as far as it matters here: channels, rate, scaling of the spectrum (default FFTBackward), pad_to_fast_length (default True).
    Smoothing and the window of an impulse response are not set (defaults). *)
Record meas := mkMeas { m_ch : list (list R); m_fs : R; m_sc : scaling; m_fast : bool }.
Definition m_len (s : meas) : nat := length (hd [] (m_ch s)).
(** classes/signal.py L899-905: length of the FFT *)
Definition fft_len (s : meas) (n : nat) : nat := if m_fast s then next_fast_len n else n.
(** transfer_functions.py L116-132 (assertions), L134-140 (copies, padding; assigning the padded data keeps it as it is for signals within
    [-1, 1] and with more samples than channels), L142-146 (spectra), L150-178 (channel loop, in which start_stop_hz is overwritten),
    L179-184 (result). The channels of the result are None when they hold nan. *)
Fixpoint deconv_loop (Ys Xs : list (list C)) (f : list R) (thr fs : R) (reg : bool) (n : nat) (r : range) (c : nat) : result (list (option (list R))) :=
  match Ys with
  | [] => Ok []
  | Y :: Ys' =>
      let X := nth (if (length Xs =? 1)%nat then 0%nat else c) Xs [] in
      if negb ((length Y =? length X) && (length f =? length Y))%nat then Err AssertionError
      else if reg then
        bind (resolve_range r X f thr fs) (fun q =>
        bind (reg_eps q f) (fun eps =>
        bind (deconv_loop Ys' Xs f thr fs reg n (Four q) (S c)) (fun l => Ok (deconv_reg Y X eps n :: l))))
      else bind (deconv_loop Ys' Xs f thr fs reg n r (S c)) (fun l => Ok (deconv_plain Y X n :: l))
  end.
Definition spectral_deconvolve (out inp : meas) (reg : bool) (r : range) (thr : R) (padding keep : bool) : result (list (option (list R))) :=
  if negb (m_len out =? m_len inp)%nat then Err AssertionError
  else if negb ((length (m_ch inp) =? 1) || (length (m_ch out) =? length (m_ch inp)))%nat then Err AssertionError
  else if negb (if Req_EM_T (m_fs out) (m_fs inp) then true else false) then Err AssertionError
  else if negb reg && (match r with Auto => false | _ => true end) then Err AssertionError
  else
    let len := m_len out in
    let n := if padding then (len * 2)%nat else len in
    let pad x := if padding then pad_trim_col n true x else x in
    let spec s := seq_result (map (fun x => fft_spectrum (pad x) (m_sc s) (fft_len s n) (m_fs s) None) (m_ch s)) in
    bind (spec inp) (fun Xs => bind (spec out) (fun Ys =>
    bind (deconv_loop Ys Xs (rfftfreq (fft_len out n) (m_fs out)) thr (m_fs out) reg n r 0) (fun cols =>
    Ok (if (padding && keep)%bool then map (option_map (fun h => pad_trim_col len true h)) cols else cols)))).
