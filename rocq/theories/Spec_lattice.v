(** Reference object for filters that also offer filter_signal on their own state. *)
From Coq Require Import List Arith Lia ZArith Bool.
From Verif Require Import Alg Spec.
Import ListNotations.
Local Open Scope nat_scope.

(** Calls: those of the real-time interface, and filter_signal on the channels td of a signal. *)
Inductive rtx_op (A : Type) := Rt (o : rt_op A) | Fsig (td : list (list A)).
Arguments Rt {A}. Arguments Fsig {A}.
Inductive rtx_out (O : Type) := Single (o : rt_out O) | Whole (td : list (list O)) | WRaise (e : exn).
Arguments Single {O}. Arguments Whole {O}. Arguments WRaise {O}.

(** filter_signal answers as if the samples of each channel were sent one by one, after the samples that this channel
    has received so far; another number of channels starts a new history for every channel. *)
Definition refx_step {A O} (okn : nat -> bool) (F : list A -> O) (h : list (list A)) (o : rtx_op A)
  : list (list A) * rtx_out O :=
  match o with
  | Rt o => let (h', r) := ref_step okn F h o in (h', Single r)
  | Fsig td =>
      if negb (length td =? length h) && negb (okn (length td)) then (h, WRaise AssertionError) else
      let h0 := if length td =? length h then h else repeat [] (length td) in
      (map (fun p => fst p ++ snd p) (combine h0 td),
       Whole (map (fun p => mk (length (snd p)) (fun n => F (fst p ++ firstn (S n) (snd p)))) (combine h0 td)))
  end.
Definition refx_run {A O} okn (F : list A -> O) (ops : list (rtx_op A)) : list (rtx_out O) := run (refx_step okn F) [[]] ops.

(** Cascade of second-order sections, each (b, a), from rest. *)
Fixpoint cascade_eq {A} {HA : CRing A} (l : list (list A * list A)) (x y : list A) : Prop :=
  match l with
  | [] => y = x
  | (b, a) :: t => exists w, diff_eq b a x w /\ cascade_eq t w y
  end.
