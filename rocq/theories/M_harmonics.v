(** Model of the separation of harmonics: transfer_functions.py L1409-1484 (harmonics_from_chirp_ir) and _transfer_functions.py L216-273
    (_get_chirp_rate, _get_harmonic_times). Times and samples are real numbers, rounding is not modelled. The frequencies and the length of the
    chirp are taken as positive and the two frequencies as different (a rate of zero gives infinite times). *)
From Coq Require Import List Arith Lia ZArith Bool Reals.
From Verif Require Import Alg Spec M_arrays M_signal M_latency M_irwindow.
Import ListNotations.
Local Open Scope R_scope.

(** np.log2 *)
Definition log2 (x : R) : R := ln x / ln 2.
(** int(r), ndarray.astype(int): truncation towards zero *)
Definition trunc (r : R) : Z := if Rle_dec 0 r then Int_part r else (- Int_part (- r))%Z.
(** _transfer_functions.py L216-236 _get_chirp_rate *)
Definition chirp_rate (range : list R) (len : R) : result R :=
  match range with [a; b] => Ok (log2 (Rmax a b / Rmin a b) / len) | _ => Err AssertionError end.
(** L239-273 _get_harmonic_times *)
Definition harmonic_times (range : list R) (len : R) (n : nat) (offset : R) : result (list R) :=
  bind (chirp_rate range len) (fun rate => Ok (mk n (fun m => offset - log2 (INR (m + 2)) / rate))).
(** np.roll(td, z, axis=0) of one channel *)
Definition roll (z : Z) (x : list R) : list R := mk (length x) (fun i => get x (Z.to_nat ((Z.of_nat i - z) mod Z.of_nat (length x)))).
(** transfer_functions.py L1459-1464: the positions, the first one is len(td) *)
Definition harmonic_samples (N : nat) (fs : Z) (ts : list R) : list Z :=
  Z.of_nat N :: map (fun t => (Z.of_nat N + trunc (t * IZR fs + 1 / 2))%Z) ts.
(** L1471-1480: one boundary between two snippets *)
Definition boundary (ps : list Z) (off : R) (k : nat) : Z :=
  trunc (IZR (nth k ps 0%Z) - IZR (nth k ps 0%Z - nth (S k) ps 0%Z) * off).
(** copy_with_new_time_data of one channel; np.max of no samples raises ValueError when the amplitude is constrained (signal.py L276). *)
Definition new_data (s : signal) (x : list R) : result signal :=
  match x with [] => if s_constr s then Err ValueError else set_data s (mkIn [x] None false) | _ => set_data s (mkIn [x] None false) end.
(** L1409-1484 harmonics_from_chirp_ir. The argument is an ImpulseResponse; n_harmonics is not negative. *)
Definition harmonics_from_chirp_ir (s : signal) (range : list R) (len : R) (n : nat) (off : R) : result (list signal) :=
  if (if Rlt_dec off 1 then if Rle_dec 0 off then true else false else false) then
    match s_re s with
    | [x] =>
        let td := roll (- Z.of_nat (peak_index x) + 1) x in
        bind (harmonic_times range len (n + 1) 0) (fun ts =>
        let ps := harmonic_samples (length td) (s_fs s) ts in
        bind (new_data s (firstn 10 x)) (fun dummy =>
        seq_result (map (fun nh => new_data dummy (py_slice td (boundary ps off (S nh)) (boundary ps off nh))) (seq 0 n))))
    | _ => Err AssertionError
    end
  else Err AssertionError.
