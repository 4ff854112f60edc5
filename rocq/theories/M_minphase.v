(** Model of helpers/minimum_phase.py, standard/_standard_backend.py (_minimum_phase) and of the minimum-phase functions of
    transfer_functions/transfer_functions.py. Samples are real numbers, complex values are pairs; nan and inf are None. fft and ifft
    are the defining sums ([cdft], [icdft] of P_dft2). *)
From Coq Require Import List Arith Lia ZArith Bool Reals.
From Verif Require Import Alg Spec Dft M_arrays M_block M_level M_tf P_dft2.
Import ListNotations.
Local Open Scope R_scope.

(** np.exp of a complex number *)
Definition cexp (z : C) : C := (exp (fst z) * cos (snd z), exp (fst z) * sin (snd z)).
(** np.abs of a complex number *)
Definition cmod (z : C) : R := sqrt (cabs2 z).
(** np.angle: principal value, 0 for 0 *)
Definition angle (z : C) : R :=
  if c_is_zero z then 0 else if Rle_dec 0 (snd z) then acos (fst z / cmod z) else - acos (fst z / cmod z).

(** scipy.fft.next_fast_len(target) for complex transforms: the smallest 2^a 3^b 5^c 7^d 11^e >= target *)
Definition smooth11 (n : nat) : bool := (strip n 11 (strip n 7 (strip n 5 (strip n 3 (strip n 2 n)))) =? 1)%nat.
Definition next_fast_len_c (t : nat) : nat := match find smooth11 (seq t (S t)) with Some n => n | None => t end.

(** ** helpers/minimum_phase.py *)
(** L30-32: length of the transform *)
Definition mp_len (n p : nat) : nat := next_fast_len_c (Nat.max (n * p) n).
(** L34: real cepstrum of a logarithmic magnitude spectrum [lg] *)
Definition cepstrum (N : nat) (lg : nat -> R) (t : nat) : R := fst (icdft N (fun k => rc (lg k)) t).
(** L36-46: window in the cepstral domain *)
Definition mp_fold (N : nat) (y : nat -> R) (t : nat) : R :=
  if (t =? 0)%nat then y 0%nat
  else if Nat.even N then (if (t <? N / 2)%nat then y t * 2 else if (t <? N / 2 + 1)%nat then y t else 0)
  else (if (t <? (N + 1) / 2)%nat then y t * 2 else 0).
(** L8-49 _get_minimum_phase_spectrum_from_real_cepstrum for one channel and transform length N. The logarithm of 0 makes all bins nan. *)
Definition mp_spectrum (N : nat) (x : list R) : option (list C) :=
  if existsb (fun k => c_is_zero (dft N x k)) (seq 0 N) then None
  else let y := cepstrum N (fun k => ln (cmod (dft N x k))) in
       Some (mk N (fun k => cexp (cdft N (fun t => rc (mp_fold N y t)) k))).
(** L52-80 _min_phase_ir_from_real_cepstrum: N samples *)
Definition mp_ir (N : nat) (x : list R) : option (list R) :=
  option_map (fun S => mk N (fun t => fst (icdft N (fun k => nth k S (rc 0)) t))) (mp_spectrum N x).

(** ** transfer_functions/transfer_functions.py *)
(** L789-858 min_phase_ir: channels of the result before they are assigned to the copy (assigning may rescale them, M_signal).
    [scipy_mp x n_fft] is scipy.signal.minimum_phase(x, method="hilbert", n_fft=...), a parameter of the model. Its output is written
    into a column of n samples: another length raises ValueError (one sample cannot occur, scipy refuses signals shorter than three). *)
Definition weighted (a : R) (x : list R) : list R := mk (length x) (fun t => get x t * a ^ t).
Definition min_phase_ir (scipy_mp : list R -> nat -> list R) (chs : list (list R)) (cepstral : bool) (p : nat) (alpha : R) : result (list (option (list R))) :=
  if (p <=? 1)%nat then Err AssertionError
  else if negb (if Rle_dec alpha 1 then if Rlt_dec 0 alpha then true else false else false) then Err AssertionError
  else
    let n := length (hd [] chs) in
    let pre x := if Req_EM_T alpha 1 then x else weighted alpha x in
    let post x := if Req_EM_T alpha 1 then x else weighted (/ alpha) x in
    let finish := map (option_map (fun h => firstn n (post h))) in
    if cepstral then Ok (finish (map (fun x => mp_ir (mp_len n p) (pre x)) chs))
    else
      let out := map (fun x => firstn n (scipy_mp x (next_fast_len_c (Nat.max (n * p) n)))) chs in
      if forallb (fun h => length h =? n)%nat out then Ok (finish (map Some out)) else Err ValueError.
(** L975-987 minimum_phase, cepstral method, one channel: frequencies and phases of the bins 0 ... N/2 *)
Definition minimum_phase (fs : R) (p : nat) (x : list R) : option (list R * list R) :=
  let N := mp_len (length x) p in
  option_map (fun S => (mk (N / 2 + 1) (fun k => INR k * fs / INR N), mk (N / 2 + 1) (fun k => angle (nth k S (rc 0))))) (mp_spectrum N x).

(** ** standard/_standard_backend.py *)
(** scipy.signal.hilbert of a real sequence of length N *)
Definition hilbert (N : nat) (u : nat -> R) (t : nat) : C :=
  icdft N (fun k => cmul (rc (mp_fold N (fun _ => 1) k)) (cdft N (fun j => rc (u j)) k)) t.
(** L66-119 _minimum_phase for one column of magnitudes, with [mx] the largest magnitude of all columns, whole_spectrum = False and
    unwrapped = True. *)
Definition mirrored (odd_length : bool) (l : list R) : list R := l ++ rev (if odd_length then tl l else removelast (tl l)).
Definition minimum_phase_mag (mx : R) (mags : list R) (odd_length : bool) : list R :=
  let lg := map (fun m => ln (Rmax m (from_db true (-500) * mx))) mags in
  let full := mirrored odd_length lg in
  mk (length mags) (fun k => - snd (hilbert (length full) (get full) k)).
(** transfer_functions.py L655-662 min_phase_from_mag for one column of interpolated magnitudes of the bins 0 ... K, K = N / 2 *)
Definition min_phase_from_mag (mx : R) (mags : list R) : list R :=
  let N := ((length mags - 1) * 2)%nat in
  let ph := minimum_phase_mag mx mags (N mod 2 =? 1)%nat in
  irfft_n N (mk (length mags) (fun k => cmul (rc (get mags k)) (cexp (0, get ph k)))).
