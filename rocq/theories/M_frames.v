(** Model of windowed overlap-add reconstruction, with the objects the call modifies. *)
From Coq Require Import List Arith Lia ZArith Bool Reals.
From Verif Require Import Alg Spec M_arrays.
Import ListNotations.
Local Open Scope nat_scope.

Definition vmul (u v : list R) : list R := mk (length v) (fun i => (get u i * get v i)%R).

(** standard/_framed_signal_representation.py L70-137 with a window array, one channel.
    L113 multiplies the caller's frames in place, L127 squares the caller's window in place
    (standard/_standard_backend.py L408-427, squared = True). The result carries the output and the two arrays as the
    caller finds them afterwards. [thr] is the safety threshold (a number); tiny is positive, so with a positive
    threshold every sample is divided. total_length is a parameter (see [ola_total_float]). *)
Definition reconstruct_windowed (step : nat) (window : list R) (thr : R) (frames : list (list R)) (total : nat)
  : result (list R * list (list R) * list R) :=
  let w := length window in
  let frames' := map (vmul window) frames in
  bind (overlap_add step w frames' total) (fun td =>
  let window' := map (fun v => (v * v)%R) window in
  bind (overlap_add step w (repeat window' (length frames)) total) (fun env =>
  let env := map (fun e => Rmax e thr) env in
  Ok (mk total (fun k => (get td k / get env k)%R), frames', window'))).
