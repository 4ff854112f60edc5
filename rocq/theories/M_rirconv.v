(** Model of convolve_rir_on_signal (room_acoustics/room_acoustics.py). Samples are real numbers; None stands for nan. *)
From Coq Require Import List Arith ZArith Bool Reals.
From Verif Require Import Alg Spec M_arrays M_signal.
Import ListNotations.
Local Open Scope R_scope.

(** room_acoustics.py L246-262 on one channel. Both convolution routines compute the full convolution. With keep_peak_level a result
    without energy is multiplied by 0/0 or 1/0: nan. *)
Definition rir_col (keep_peak keep_length : bool) (h x : list R) : option (list R) :=
  let y := conv_full (HA := CRing_R) x h in
  let y := if keep_length then firstn (length x) y else y in
  if keep_peak then
    if Req_EM_T (vpeak y) 0 then None else Some (map (fun v => v * (vpeak x / vpeak y)) y)
  else Some y.
Fixpoint all_some {T} (l : list (option T)) : option (list T) :=
  match l with [] => Some [] | None :: _ => None | Some v :: t => option_map (cons v) (all_some t) end.
(** room_acoustics.py L216-264 convolve_rir_on_signal; rir and its sampling rate as arguments. Ok None: a channel of the result is nan. *)
Definition convolve_rir (keep_peak keep_length : bool) (rir : mat) (rir_fs : Z) (s : signal) : result (option signal) :=
  if negb (ncols rir =? 1)%nat then Err AssertionError else
  if negb (rir_fs =? s_fs s)%Z then Err AssertionError else
  match all_some (map (rir_col keep_peak keep_length (hd [] rir)) (s_re s)) with
  | None => Ok None
  | Some m => bind (set_data s (mkIn m None false)) (fun s' => Ok (Some s'))
  end.
