(** Model of resample (standard/resampling.py) and of the parts of scipy it uses. Samples are real numbers. b0 is the series of the modified
    Bessel function as a function of the square of its argument; np.i0 is the only thing known about the window. *)
From Coq Require Import List Arith ZArith Bool Reals.
From Verif Require Import Alg Spec M_arrays M_signal M_level M_fracdelay.
Import ListNotations.
Local Open Scope R_scope.

(** scipy.signal.windows.kaiser(2 half + 1, 5), one value *)
Definition kaiser5 (b0 : R -> R) (half : nat) (i : nat) : R :=
  b0 (25 * (1 - Rsqr ((INR i - INR half) / INR half))) / b0 25.
(** scipy.signal.firwin(2 half + 1, 1 / rate, window=("kaiser", 5)) before the scaling, one tap *)
Definition raw_tap (b0 : R -> R) (rate half i : nat) : R :=
  1 / INR rate * sinc (1 / INR rate * (INR i - INR half)) * kaiser5 b0 half i.
(** firwin with the scaling to a gain of 1 at 0 Hz, times up *)
Definition taps (b0 : R -> R) (up rate half : nat) : list R :=
  let raw := mk (2 * half + 1) (raw_tap b0 rate half) in
  let total := sum (HA := CRing_R) (length raw) (fun i => get (HA := CRing_R) raw i) in
  map (fun v => v / total * INR up) raw.
(** scipy.signal.resample_poly for one column, with up and down coprime and not both 1. upfirdn by its definition: zeros between the samples, filter,
    every down-th value. The zeros appended to the filter only make the output long enough; here the samples behind its end are 0. *)
Definition resample_col (b0 : R -> R) (up down : nat) (x : list R) : list R :=
  let n_out := (length x * up / down + (if (length x * up) mod down =? 0 then 0 else 1))%nat in
  let half := (10 * Nat.max up down)%nat in
  let pre_pad := (down - half mod down)%nat in
  let pre_remove := ((half + pre_pad) / down)%nat in
  let h := repeat 0 pre_pad ++ taps b0 up (Nat.max up down) half in
  let upfirdn j := sum (HA := CRing_R) (length x) (fun k => if (k * up <=? j * down)%nat then get (HA := CRing_R) x k * get (HA := CRing_R) h (j * down - k * up) else 0) in
  mk n_out (fun m => upfirdn (pre_remove + m)%nat).
(** sampling_rate_hz setter (classes/signal.py L327-348); the rate is an integer by its type, so the check in L346 always passes *)
Definition set_rate (s : signal) (fs : Z) : signal := mkSig (s_re s) (s_im s) (s_scale s) (s_constr s) fs.
(** resampling.py L9-43 resample, for positive rates. Only the real part of the data is used. *)
Definition resample (b0 : R -> R) (rescaling : bool) (new : Z) (s : signal) : result signal :=
  if (s_fs s =? new)%Z then Ok s else
  let u := Z.to_nat (new / Z.gcd new (s_fs s)) in
  let d := Z.to_nat (s_fs s / Z.gcd new (s_fs s)) in
  let y := map (resample_col b0 u d) (s_re s) in
  let y := if rescaling then map (map (fun v => v * (INR d / INR u))) y else y in
  bind (set_data s (mkIn y None false)) (fun s' => Ok (set_rate s' new)).
(** gain_and_level.py L146-158 true_peak_level of a Signal: true peak levels and peak levels. sig.time_data *= passes the data through the setter. *)
Definition true_peak_level (b0 : R -> R) (s : signal) : result (list R * list R) :=
  let down := from_db true (- (1204 / 100)) in
  let level x := 20 * (ln (Rmax (vpeak x * (1 / down)) smallest_normal) / ln 10) in
  bind (set_data s (mkIn (map (map (fun v => v * down)) (s_re s)) None false)) (fun s1 =>
  bind (resample b0 false (s_fs s1 * 4) s1) (fun s2 =>
  Ok (map level (s_re s2), map level (s_re s1)))).
