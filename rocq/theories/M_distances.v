(** Model of the distance measures (distances/distances.py, distances/_distances.py). Samples and spectrum values are real numbers; the
    results are extended by the infinities and nan of floating-point numbers where logarithms and divisions produce them. *)
From Coq Require Import List Arith Lia ZArith Bool Reals.
From Verif Require Import Alg Spec Dft M_arrays M_latency M_dynamics M_level.
Import ListNotations.
Local Open Scope R_scope.

Inductive ext := Fin (r : R) | PInf | NInf | NaN.
(** a / b of two numbers; the zero in the denominator is positive (all denominators below are sums of squares, of magnitudes or
    standard deviations). *)
Definition xdiv (a b : R) : ext :=
  if Req_EM_T b 0 then (if Rlt_dec 0 a then PInf else if Rlt_dec a 0 then NInf else NaN) else Fin (a / b).
(** np.log10 *)
Definition xlog10 (v : ext) : ext :=
  match v with
  | Fin r => if Rlt_dec 0 r then Fin (ln r / ln 10) else if Req_EM_T r 0 then NInf else NaN
  | PInf => PInf
  | NInf | NaN => NaN
  end.
(** multiplication by a positive number, sum *)
Definition xscale (k : R) (v : ext) : ext := match v with Fin r => Fin (k * r) | _ => v end.
Definition xadd (a b : ext) : ext :=
  match a, b with
  | NaN, _ | _, NaN | PInf, NInf | NInf, PInf => NaN
  | PInf, _ | _, PInf => PInf
  | NInf, _ | _, NInf => NInf
  | Fin x, Fin y => Fin (x + y)
  end.

(** ** Time domain *)
Definition dot (x y : list R) : R := rsum (length x) (fun i => get x i * get y i).
Definition sqsum (x : list R) : R := fold_right (fun v s => v * v + s) 0 x.
(** distances/_distances.py L83-101 _sisdr *)
Definition sisdr (s y : list R) : ext :=
  if Req_EM_T (dot s s) 0 then NaN else
  let alpha := dot s y / dot s s in
  let p := map (fun v => alpha * v) s in
  xscale 10 (xlog10 (xdiv (sqsum p) (sqsum (mk (length s) (fun i => get p i - get y i))))).
Definition rows (m : list (list R)) : nat := length (hd [] m).
(** distances/distances.py L225-272 si_sdr *)
Definition si_sdr (fs1 fs2 : Z) (target modified : list (list R)) : result (list ext) :=
  if negb (fs2 =? fs1)%Z then Err AssertionError else
  if negb (length target =? 1)%nat && negb (length modified =? length target)%nat then Err AssertionError else
  if negb (rows modified =? rows target)%nat then Err AssertionError else
  Ok (mk (length modified) (fun n => sisdr (nth (if (length target =? 1)%nat then 0 else n) target []) (nth n modified []))).
(** distances/_distances.py L64-80 _snr with numpy broadcasting of one noise channel; distances/distances.py L194-222 snr *)
Definition snr1 (s n : list R) : ext := xscale 20 (xlog10 (xdiv (rms s) (rms n))).
Definition snr (fs1 fs2 : Z) (signal noise : list (list R)) : result (list ext) :=
  if negb (fs1 =? fs2)%Z then Err AssertionError else
  if negb (length noise =? 1)%nat && negb (length signal =? length noise)%nat then Err AssertionError else
  Ok (mk (length signal) (fun i => snr1 (nth i signal []) (nth (if (length noise =? 1)%nat then 0 else i) noise []))).

(** ** Spectral distances *)
(** scipy.integrate.simpson (1.17) on points with the spacing h: the composite rule; for an even number of points the last interval
    is Cartwright's correction. A spectrum of the FFT or Welch's method has such points. An empty array raises IndexError (see
    [select]). *)
Definition simpson_odd (n : nat) (h : R) (i : nat) : R :=
  h / 3 * (if (i =? 0)%nat || (i =? n - 1)%nat then 1 else if Nat.odd i then 4 else 2).
Definition simpson_weight (n : nat) (h : R) (i : nat) : R :=
  match n with
  | 0%nat | 1%nat => 0
  | 2%nat => h / 2
  | _ => if Nat.odd n then simpson_odd n h i
         else (if (i =? n - 1)%nat then 5 / 12 * h else simpson_odd (n - 1) h i)
              + (if (i =? n - 2)%nat then 2 / 3 * h else if (i =? n - 3)%nat then - (h / 12) else 0)
  end.
Definition simpson (h : R) (y : list R) : R := rsum (length y) (fun i => simpson_weight (length y) h i * get y i).
(** helpers/other.py L9-31 find_nearest_points_index_in_vector, one point *)
Definition nearest (p : R) (f : list R) : nat := argmax (map (fun v => - Rabs (p - v)) f).
(** distances/distances.py L73-103 and L158-188, the range (sorted, L78), the slice [ids[0]:ids[1]]. The assertions on the range
    (upper limit at most fs // 2, no negative limits) are in [range_ok]. *)
Definition range_ok (fs : Z) (r1 r2 : R) : bool :=
  (if Rle_dec (Rmax r1 r2) (IZR (fs / 2)) then true else false) && (if Rle_dec 0 (Rmin r1 r2) then true else false).
Definition select (f : list R) (r1 r2 : R) (p : list R) : list R :=
  firstn (nearest (Rmax r1 r2) f - nearest (Rmin r1 r2) f) (skipn (nearest (Rmin r1 r2) f) p).
Definition normalise (on : bool) (p : list R) : list R := if on then map (fun v => v / fold_right Rplus 0 p) p else p.
Definition log10 (x : R) : R := ln x / ln 10.
(** distances/_distances.py L13-36, L39-60, one channel; the values must be positive, otherwise the result is nan or infinite (None) *)
Definition positive (p : list R) : bool := forallb (fun v => if Rlt_dec 0 v then true else false) p.
Definition log_spectral_distance (h : R) (x y : list R) : option R :=
  if positive x && positive y then
    Some (sqrt (simpson h (mk (length x) (fun i => (10 * log10 (get x i / get y i)) ^ 2)))) else None.
Definition itakura_saito_measure (h : R) (x y : list R) : option R :=
  if positive x && positive y then
    Some (simpson h (mk (length x) (fun i => get x i / get y i - log10 (get x i / get y i) - 1))) else None.
(** distances/distances.py L23-105 log_spectral and L108-191 itakura_saito for power spectra p1, p2 (one list per channel) over the
    frequencies f with spacing h. The computation of the spectra is modelled in M_scaling.v and M_welch.v. *)
Definition spectral (measure : R -> list R -> list R -> option R) (fs1 fs2 : Z) (f : list R) (h : R) (r1 r2 : R) (norm : bool)
    (p1 p2 : list (list R)) : result (list (option R)) :=
  if negb (fs1 =? fs2)%Z then Err AssertionError else
  if negb (length p1 =? length p2)%nat then Err AssertionError else
  if negb (range_ok fs1 r1 r2) then Err AssertionError else
  if (length (select f r1 r2 f) =? 0)%nat then Err IndexError else
  Ok (mk (length p1) (fun n => measure h (normalise norm (select f r1 r2 (nth n p1 []))) (normalise norm (select f r1 r2 (nth n p2 []))))).
Definition log_spectral := spectral log_spectral_distance.
Definition itakura_saito := spectral itakura_saito_measure.

(** ** Frequency-weighted segmental signal-to-noise ratio *)
Definition mag (n : nat) (x : list R) : list R := mk (n / 2 + 1) (fun k => sqrt (cabs2 (dft n x k))).
Definition vwin (w x : list R) : list R := mk (length w) (fun t => get x t * get w t).
(** x ** gamma for x >= 0 *)
Definition rpowg (x g : R) : R := if Rlt_dec 0 x then Rpower x g else 0.
Definition eps30 : R := / 10 ^ 30.
(** One band, one bin: log10(X ** 2 / (X - Xhat + eps) ** 2) * W with the normalised magnitudes; nan if a spectrum is silent (0 / 0),
    and where X is zero (-inf * 0). *)
Definition fw_bin (win xm ym : list R) (gamma : R) (j : nat) : ext :=
  let n := length win in
  let X := mag n (vwin win xm) in let Y := mag n (vwin win ym) in
  let sx := fold_right Rplus 0 X in let sy := fold_right Rplus 0 Y in
  if Req_EM_T sx 0 then NaN else if Req_EM_T sy 0 then NaN else
  let a := get X j / sx in let d := a - get Y j / sy + eps30 in
  if Rlt_dec 0 (get X j) then xscale (rpowg (get X j) gamma) (xlog10 (xdiv (a ^ 2) (d ^ 2))) else NaN.
Definition xsum (l : list ext) : ext := fold_right xadd (Fin 0) l.
(** distances/_distances.py L159-188: one frame over the bands; X and Y are the frames of every band *)
Definition fw_frame (win : list R) (gamma lo hi : R) (xs ys : list (list R)) : ext :=
  let bins := (length win / 2 + 1)%nat in
  let w j := fold_right Rplus 0 (map (fun xm => rpowg (get (mag (length win) (vwin win xm)) j) gamma) xs) in
  let bin j := match xsum (map (fun p => fw_bin win (fst p) (snd p) gamma j) (combine xs ys)) with
               | Fin v => xdiv (10 * v) (w j) | e => e end in
  match xsum (mk bins bin) with
  | Fin v => let m := v / INR bins in
             let m := if Rlt_dec m lo then lo else m in Fin (if Rlt_dec hi m then hi else m)
  | PInf => Fin hi
  | NInf => Fin (if Rlt_dec hi lo then hi else lo)
  | NaN => NaN
  end.
(** distances/_distances.py L147-157, L190-195: the frames of the padded band signals and their mean; no frames: division by zero *)
Definition seg (win : list R) (step len : nat) (x : list R) (i : nat) : list R :=
  firstn (length win) (skipn (i * step) (pad_trim_col (len + (length win - len mod step)) true x)).
Definition fw_snr_seg (win : list R) (step : nat) (gamma lo hi : R) (x y : list (list R)) : result ext :=
  let len := rows x in
  let n := ((len + (step - 1)) / step)%nat in
  if (n =? 0)%nat then Err ZeroDivisionError else
  Ok (match xsum (mk n (fun i => fw_frame win gamma lo hi (map (fun b => seg win step len b i) x) (map (fun b => seg win step len b i) y))) with
      | Fin v => Fin (v / INR n) | e => e end).
