(** Model of window_frequency_dependent (transfer_functions/transfer_functions.py L1288-1377) with its backend (_transfer_functions.py
    L557-571, the same sum as the parallel one in L490-504): a spectrum of which each bin sees the response through its own gaussian window.
    Samples are real numbers. *)
From Coq Require Import List Arith ZArith Bool Reals.
From Verif Require Import Alg Spec Dft M_arrays M_signal M_delay M_latency M_level M_ir M_irwindow M_spectrum.
Import ListNotations.
Local Open Scope R_scope.

(** L1338-1339: samples of the given number of cycles at bin k *)
Definition cycle_samples (N : nat) (fs cycles : Z) (k : nat) : Z := np_round (IZR fs / (INR k * IZR fs / INR N) * IZR cycles).
(** L1344-1358: alpha[k] * n, the exponent of the window at sample t for the peak at sample [top] *)
Definition window_exponent (N : nat) (end_value : R) (samples : Z) (top t : nat) : R :=
  let half := (INR N - 1) / 2 in
  let alpha_factor := sqrt (ln (1 / end_value ^ 2)) * half in
  (alpha_factor / IZR samples) ^ 2 * (- (1 / 2) * ((INR t - INR top) / half) ^ 2).
(** L1360-1369 and the backend: one bin of one channel. np.linspace(0, 1, N, endpoint=False)[t] is t / N *)
Definition fdw_bin (N : nat) (fs cycles : Z) (end_value : R) (x : list R) (k : nat) : C :=
  csum N (fun t => let f := INR k * IZR fs / INR N * (INR N / IZR fs) in
    cmul (cmul (cis (- 2 * PI * (INR t / INR N) * f)) (rc (exp (window_exponent N end_value (cycle_samples N fs cycles k) (peak_index x) t)))) (rc (get x t))).
(** L1288-1377. A window of no samples divides by zero: the bin is nan (None). *)
Definition window_frequency_dependent (fs cycles : Z) (end_db : R) (td : mat) : result (option spectrum) :=
  if (if Rlt_dec end_db 0 then false else true) then Err AssertionError else
  let N := nrows td in
  let e := from_db true end_db in
  let bins := seq 1 (N / 2) in
  bind (new_spectrum (0 :: map (fun k => INR k * IZR fs / INR N) bins) false (map (fun x => rc 0 :: map (fdw_bin N fs cycles e x) bins) td)) (fun sp =>
  Ok (if existsb (fun k => (cycle_samples N fs cycles k =? 0)%Z) bins then None else Some sp)).
