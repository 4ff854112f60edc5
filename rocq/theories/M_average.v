(** Model of average_irs (transfer_functions/transfer_functions.py L542-612): the mean of the channels of an impulse response, in the time
    domain or of the magnitudes and phases. Samples are real numbers; imaginary parts are not modelled. *)
From Coq Require Import List Arith ZArith Bool Reals.
From Verif Require Import Alg Spec Dft M_arrays M_signal M_latency M_block M_minphase M_groupdelay M_fracdelay.
Import ListNotations.
Local Open Scope R_scope.

(** np.mean of k values *)
Definition mean (k : nat) (f : nat -> R) : R := rsum k f / INR k.
(** np.sum(x ** 2) *)
Definition energy_of (x : list R) : R := rsum (length x) (fun t => get x t * get x t).
(** L578-581: the energies relative to the first channel; the first one is 0 / 0 = nan or the others are inf if it is silent. The samples are
    multiplied by them and assigned. *)
Definition scaled_by_energy (m : mat) : mat :=
  map (fun x => map (fun v => v * (energy_of x / energy_of (nth 0 m []))) x) m.
(** L584-593: the mean magnitude and the mean unwrapped phase of the channels' spectra with N points (signal.py L900-911) *)
Definition mean_spectrum (N : nat) (m : mat) : list C :=
  let sp := map (rfft N) m in
  let pha := map (fun X => unwrap (map angle X)) sp in
  mk (N / 2 + 1) (fun b => cmul (rc (mean (length m) (fun c => cmod (nth b (nth c sp []) (rc 0))))) (cis (mean (length m) (fun c => get (nth c pha []) b)))).
(** L603-608: one channel delayed (the result is assigned to a new response, which may normalise it) *)
Definition aligned (b0 : R -> R) (late own : R) (i : nat) (s : signal) : result (list R) :=
  bind (get_channels [Z.of_nat i] s) (fun ch =>
  bind (frac_one b0 (IZR (s_fs s)) ((late - own) / IZR (s_fs s)) true (nth 0 (s_re ch) [])) (fun y =>
  bind (set_data s (mkIn [y] None false)) (fun d => Ok (nth 0 (s_re d) [])))).
(** L542-612. [lat]: the latencies found by find_ir_latency; [fast]: pad_to_fast_length of the spectrum parameters. The object of the result is
    the copy made in L576, whose samples and spectra are replaced; None stands for samples which are nan. *)
Definition average_irs (b0 : R -> R) (lat : list R) (fast time_average normalize_energy : bool) (s : signal) : result (option signal) :=
  let m := s_re s in let k := ncols m in let n := nrows m in
  if negb (1 <? k)%nat then Err AssertionError else
  if negb time_average then
    bind (set_data s (mkIn [irfft_n n (mean_spectrum (if fast then next_fast_len n else n) m)] None false)) (fun r => Ok (Some r))
  else
    let f := argmax lat in
    bind (seq_result (map (fun i => if (i =? f)%nat then Ok [] else aligned b0 (nth f lat 0) (nth i lat 0) i s) (seq 0 k))) (fun cols =>
    if (normalize_energy && if Req_EM_T (energy_of (nth 0 m [])) 0 then true else false)%bool then Ok None else
    bind (if normalize_energy then set_data s (mkIn (scaled_by_energy m) None false) else Ok s) (fun a =>
    bind (set_data s (mkIn [mk n (fun t => mean k (fun c => get (if (c =? f)%nat then nth c (s_re a) [] else nth c cols []) t))] None false)) (fun r => Ok (Some r)))).
