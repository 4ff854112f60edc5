(** Model of the room acoustics functions: start of an impulse response, descriptors, convolution with a room impulse
    response, the Room classes and the image source model (room_acoustics/). Samples are real numbers; None stands for a
    result that is nan or infinite. Sampling rates are natural numbers, so that int(50e-3 * fs) is the exact floor. *)
From Coq Require Import List Arith Lia ZArith Bool Reals.
From Verif Require Import Alg Spec Dft M_arrays M_signal M_latency M_dynamics M_level.
Import ListNotations.
Local Open Scope R_scope.

(** ** Start of an impulse response *)
(** room_acoustics/_room_acoustics.py L112-115: from the peak backwards until a sample is below the threshold; the loop ends
    with index zero if there is none. *)
Fixpoint back (a : list R) (thr : R) (i : nat) : nat :=
  if Rlt_dec (get a i) thr then i else match i with O => O | S j => back a thr j end.
(** room_acoustics/_room_acoustics.py L88-115 _find_ir_start. np.argmax of an empty array raises ValueError. *)
Definition find_ir_start1 (thr_db : R) (x : list R) : result nat :=
  match x with
  | [] => Err ValueError
  | _ => let a := map Rabs x in
         let p := argmax a in
         Ok (back a (get a p * from_db true (- Rabs thr_db)) p)
  end.
(** room_acoustics/room_acoustics.py L268-297 find_ir_start *)
Definition find_ir_start (thr_db : R) (chs : list (list R)) : result (list nat) :=
  if Rle_dec thr_db 0 then fold_right (fun c r => bind (find_ir_start1 thr_db c) (fun i => bind r (fun l => Ok (i :: l)))) (Ok []) chs
  else Err AssertionError.

(** ** Descriptors *)
Definition esum (x : list R) : R := fold_right (fun v s => v * v + s) 0 x.
(** int(50e-3 * fs), int(80e-3 * fs) *)
Definition ms_window (ms fs : nat) : nat := (ms * fs / 1000)%nat.
(** The end of the response: trim is the stop index of transfer_functions._trim_ir on the response from its start, if
    automatic trimming is on. _trim_ir is modelled in M_trim: the functions below take its result as an argument. *)
Definition stop_index (trim : option nat) (x : list R) : nat := match trim with Some s => s | None => length x end.
(** room_acoustics/_room_acoustics.py L889-921 _d50_from_rir *)
Definition d50 (fs : nat) (trim : list R -> option nat) (x : list R) : result (option R) :=
  bind (find_ir_start1 (-20) x) (fun i =>
  let td := skipn i x in
  let w := ms_window 50 fs in
  let stop := match trim td with Some s => Nat.max w s | None => length td end in
  Ok (div_opt (esum (firstn w td)) (esum (firstn stop td)))).
(** room_acoustics/_room_acoustics.py L924-958 _c80_from_rir; td[window:stop] *)
Definition c80 (fs : nat) (trim : list R -> option nat) (x : list R) : result (option R) :=
  bind (find_ir_start1 (-20) x) (fun i =>
  let td := skipn i x in
  let w := ms_window 80 fs in
  let stop := match trim td with Some s => Nat.max w s | None => length td end in
  Ok (match div_opt (esum (firstn w td)) (esum (firstn (stop - w) (skipn w td))) with
      | None => None
      | Some r => to_db1 false (Rabs r)
      end)).
(** room_acoustics/_room_acoustics.py L961-996 _ts_from_rir *)
Definition centre_time (fs : nat) (trim : list R -> option nat) (x : list R) : result (option R) :=
  bind (find_ir_start1 (-20) x) (fun i =>
  let td := skipn i x in
  let e := map (fun v => v * v) (firstn (stop_index (trim td) td) td) in
  let t := time_vector (length e) (INR fs) in
  Ok (div_opt (fold_right Rplus 0 (map (fun p => fst p * snd p) (combine e t))) (fold_right Rplus 0 e))).

Inductive descriptor := D50 | C80 | CenterTime.
Definition desc1 (d : descriptor) := match d with D50 => d50 | C80 => c80 | CenterTime => centre_time end.
(** room_acoustics/room_acoustics.py L454-516 descriptors of an impulse response: every channel on its own. trimmer is
    _trim_ir, used when the flag is set. BassRatio needs filter banks and is not modelled. *)
Definition use_trim (flag : bool) (trimmer : list R -> nat) (x : list R) : option nat := if flag then Some (trimmer x) else None.
Definition descriptors (d : descriptor) (fs : nat) (trimmer : list R -> nat) (flag : bool) (chs : list (list R)) : result (list (option R)) :=
  fold_right (fun c r => bind (desc1 d fs (use_trim flag trimmer) c) (fun v => bind r (fun l => Ok (v :: l)))) (Ok []) chs.
(** The MultiBandSignal branch calls descriptors(b, descriptor=descriptor): the flag is not handed on and is True. *)
Definition descriptors_mb (d : descriptor) (fs : nat) (trimmer : list R -> nat) (flag : bool) (bands : list (list (list R))) : result (list (list (option R))) :=
  fold_right (fun b r => bind (descriptors d fs trimmer true b) (fun v => bind r (fun l => Ok (v :: l)))) (Ok []) bands.
