(** Model of trim_with_time_selection (standard/pad_trim_methods.py L181-246). Samples and times are real numbers. *)
From Coq Require Import List Arith ZArith Bool Reals.
From Verif Require Import Alg Spec M_arrays M_signal M_delay.
Import ListNotations.
Local Open Scope R_scope.

(** truth value of a float or None in [if t:] (L213, L224) *)
Definition given (t : option R) : option R := match t with Some v => if Req_EM_T v 0 then None else Some v | None => None end.
(** int() of a non-negative number *)
Definition to_int (x : R) : nat := Z.to_nat (Int_part x).
(** L213-222 *)
Definition first_sample (n : nat) (fs : Z) (incl : bool) (t : option R) : result nat :=
  match given t with
  | None => Ok 0%nat
  | Some v => if Rlt_dec v 0 then Err AssertionError else if Rlt_dec v (INR n / IZR fs) then Ok (to_int (v * IZR fs) + (if incl then 0 else 1))%nat else Err AssertionError
  end.
(** L224-233 *)
Definition stop_sample (n : nat) (fs : Z) (incl : bool) (t : option R) : result nat :=
  match given t with
  | None => Ok n
  | Some v => if Rlt_dec 0 v then (if Rlt_dec (INR n / IZR fs) v then Err AssertionError else Ok (to_int (v * IZR fs) + (if incl then 1 else 0))%nat) else Err AssertionError
  end.
(** L207-237, one Signal: the slice of the real part is assigned to a copy *)
Definition trim_time (start stop : option R) (incl : bool) (s : signal) : result signal :=
  match start, stop with None, None => Err AssertionError | _, _ =>
  let n := nrows (s_re s) in
  bind (first_sample n (s_fs s) incl start) (fun a =>
  bind (stop_sample n (s_fs s) incl stop) (fun b =>
  if (a <? b)%nat then set_data s (mkIn (map (fun col => firstn (b - a) (skipn a col)) (s_re s)) None false) else Err AssertionError))
  end.
(** L238-244: every band of a MultiBandSignal *)
Definition trim_time_bands (start stop : option R) (incl : bool) (l : list signal) : result (list signal) := seq_result (map (trim_time start stop incl) l).
