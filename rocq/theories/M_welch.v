(** Model of Welch's method and of the cross-spectral matrices (standard/_spectral_methods.py, classes/signal.py). *)
From Coq Require Import List Arith Lia ZArith Bool Reals.
From Verif Require Import Alg Spec M_arrays M_frames Dft M_scaling.
Import ListNotations.
Local Open Scope R_scope.

(** standard/_spectral_methods.py L86-90: the accepted window lengths *)
Definition valid_size (w : nat) : bool := existsb (fun e => Z.of_nat w =? 2 ^ Z.of_nat e)%Z (seq 3 16).
Definition mean (l : list R) : R := fold_right Rplus 0 l / INR (length l).
(** L103-132: frames (zero-padded at the end), windowed, then the mean of every windowed frame removed. The window values are a parameter
    (scipy's get_window is not modelled), and so is int(overlap_percent / 100 * window length). *)
Definition welch_frames (w overlap : nat) (window : list R) (detrend : bool) (x : list R) : result (list (list R)) :=
  bind (framed w (w - overlap) true x) (fun fr =>
  let fr := map (vmul window) fr in
  Ok (if detrend then map (fun f => map (fun v => v - mean f) f) fr else fr)).
(** np.median *)
Fixpoint insert (v : R) (l : list R) : list R := match l with [] => [v] | a :: t => if Rle_dec v a then v :: l else a :: insert v t end.
Definition isort (l : list R) : list R := fold_right insert [] l.
Definition median (l : list R) : R :=
  let s := isort l in let n := length l in
  if (n mod 2 =? 1)%nat then nth (n / 2) s 0 else (nth (n / 2 - 1) s 0 + nth (n / 2) s 0) / 2.
(** principal square root, np.sqrt of a complex array *)
Definition csqrt (z : C) : C :=
  let r := sqrt (cabs2 z) in
  (sqrt ((r + fst z) / 2), if Rlt_dec (snd z) 0 then - sqrt ((r - fst z) / 2) else sqrt ((r - fst z) / 2)).
(** L134-160: per frame and bin, then the average; the bias L155-159 is the single term (-1)^(n+1)/n with n odd, that is 1/n. *)
Definition cross_spectra (s : scaling) (w : nat) (fx : list (list R)) (fy : option (list (list R))) : list (list C) :=
  match fy with
  | None => map (fun f => map (fun z => rc (cabs2 z)) (rfft_scaled s w f)) fx
  | Some fy => map (fun p => mk (w / 2 + 1) (fun k => cmul (cconj (nth k (rfft_scaled s w (fst p)) (rc 0))) (nth k (rfft_scaled s w (snd p)) (rc 0)))) (combine fx fy)
  end.
Definition average_bins (use_median : bool) (bins : nat) (sp : list (list C)) : list C :=
  mk bins (fun k =>
    let col := map (fun f => nth k f (rc 0)) sp in
    if use_median then
      let n := length sp in let n := if (n mod 2 =? 1)%nat then n else (n - 1)%nat in
      cdivr (median (map fst col), median (map snd col)) (1 / INR n)
    else (mean (map fst col), mean (map snd col))).
(** L162-169 *)
Definition welch_scale (s : scaling) (w : nat) (fs : R) (window : list R) (csd : list C) : list C :=
  let csd := if has_units s then
      let csd := map (fun z => cmulr z (scaling_factor s w fs (Some window))) csd in
      let csd := upd csd 0 (cdivr (nth 0 csd (rc 0)) 2) in
      upd csd (length csd - 1) (cdivr (nth (length csd - 1) csd (rc 0)) 2)
    else csd in
  if is_amplitude s then map csqrt csd else csd.
(** L10-173 _welch for one channel of a non-empty signal; [one_d] tells whether the array has one channel only: then L125-128 also removes the frame axis when
    there is a single frame, and the average over axis 1 fails. *)
Definition welch (one_d : bool) (x : list R) (y : option (list R)) (fs : R) (window : list R) (w overlap : nat) (detrend use_median : bool) (s : scaling) : result (list C) :=
  if match y with Some y => negb (length x =? length y)%nat | None => false end then Err AssertionError else
  if negb (valid_size w) then Err AssertionError else
  if negb (overlap <? w)%nat then Err AssertionError else
  bind (welch_frames w overlap window detrend x) (fun fx =>
  bind (match y with None => Ok None | Some y => bind (welch_frames w overlap window detrend y) (fun fy => Ok (Some fy)) end) (fun fy =>
  if one_d && (length fx =? 1)%nat then Err IndexError else
  Ok (welch_scale s w fs window (average_bins use_median (w / 2 + 1) (cross_spectra s w fx fy))))).

Fixpoint sequence {T} (l : list (result T)) : result (list T) :=
  match l with [] => Ok [] | r :: t => bind r (fun v => bind (sequence t) (fun l => Ok (v :: l))) end.
(** classes/signal.py L886-898: the Welch spectrum of all channels *)
Definition welch_channels (xs : list (list R)) (fs : R) (window : list R) (w overlap : nat) (detrend use_median : bool) (s : scaling) : result (list (list C)) :=
  sequence (map (fun x => welch (length xs =? 1)%nat x None fs window w overlap detrend use_median s) xs).

(** matrices as functions of row and column, one list of bins per entry *)
Definition cadd_list (a b : list C) : list C := mk (length a) (fun k => cadd (nth k a (rc 0)) (nth k b (rc 0))).
(** csm += swapaxes(csm).conjugate() after filling [L] i j for i >= j with halved diagonal (L350-369, L416-430) *)
Definition hermitize (bins n : nat) (L : nat -> nat -> list C) : list (list (list C)) :=
  let part i j := if (j <? i)%nat then L i j else if (i =? j)%nat then map (fun z => cmulr z (1 / 2)) (L i j) else repeat (rc 0) bins in
  mk n (fun i => mk n (fun j => cadd_list (part i j) (map cconj (part j i)))).
(** L285-371 _csm_welch; the channels are passed one by one as 1-D arrays *)
Definition csm_welch (xs : list (list R)) (fs : R) (window : list R) (w overlap : nat) (detrend use_median : bool) (s : scaling) : result (list (list (list C))) :=
  let n := length xs in
  let entry i j := welch true (nth j xs []) (if (i =? j)%nat then None else Some (nth i xs [])) fs window w overlap detrend use_median s in
  bind (sequence (mk n (fun j => sequence (mk (n - j) (fun d => entry (j + d)%nat j))))) (fun cols =>
  Ok (hermitize (w / 2 + 1) n (fun i j => nth (i - j) (nth j cols []) []))).
(** L374-443 _csm_fft on the unscaled spectrum of n >= 2 channels. With a window the factor has shape (1, 1, n * n) and the multiplication L440 cannot broadcast. *)
Definition csm_fft (X : list (list C)) (s : scaling) (window : option (list R)) (fs : R) : result (list (list (list C))) :=
  let n := length X in let bins := length (hd [] X) in
  let csm := hermitize bins n (fun i j => mk bins (fun k => cmul (cconj (nth k (nth j X []) (rc 0))) (nth k (nth i X []) (rc 0)))) in
  match s with
  | FFTBackward => Ok csm
  | _ =>
      match window with
      | Some _ => Err ValueError
      | None =>
          let factor := conversion_factor FFTBackward s (bins / 2 + 1) fs None in
          let fix_edges l := let l := upd l 0 (cdivr (nth 0 l (rc 0)) 2) in upd l (length l - 1) (cdivr (nth (length l - 1) l (rc 0)) 2) in
          let finish l := let l := map (fun z => cmulr z factor) (fix_edges l) in if is_amplitude s then map csqrt l else l in
          Ok (map (map finish) csm)
      end
  end.
(** classes/signal.py L989-1002: get_csm with the FFT method; the stored scaling is replaced during the computation. *)
Definition get_csm_fft (s : scaling) (xs : list (list R)) (n : nat) (window : option (list R)) (fs : R) : scaling * result (list (list (list C))) :=
  if (length xs <=? 1)%nat then (s, Err AssertionError) else
  match sequence (map (fun x => fft_spectrum x FFTBackward n fs window) xs) with
  | Err e => (FFTBackward, Err e)
  | Ok X => match csm_fft X s window fs with Err e => (FFTBackward, Err e) | Ok m => (s, Ok m) end
  end.
