(** Small specifications used in the property statements. Nothing in this file refers to the model. *)
From Coq Require Import List Arith Lia ZArith.
From Verif Require Import Alg.
Import ListNotations.
Local Open Scope nat_scope.

Section SpecRing.
Context {A : Type} {HA : CRing A}.

(** Linear convolution of two sequences (zero outside their support), sample n. *)
Definition conv (b x : list A) (n : nat) : A :=
  sum (S n) (fun k => get b k *! get x (n - k)).

(** y is the response to x of the filter with numerator b and denominator a, from rest:
    sum_k a_k y[n-k] = sum_k b_k x[n-k] at every n. *)
Definition diff_eq (b a x y : list A) : Prop :=
  length y = length x /\
  forall n, n < length x -> conv a y n = conv b x n.
End SpecRing.

(** ** Calls on a real-time filter object *)

(** One call of the [RealtimeFilter] interface. *)
Inductive rt_op (A : Type) :=
| SetN (n : nat)              (* set_n_channels(n) *)
| Reset                       (* reset_state() *)
| Proc (x : A) (ch : Z).      (* process_sample(x, ch) *)
Arguments SetN {A}. Arguments Reset {A}. Arguments Proc {A}.

(** What the caller sees. *)
Inductive rt_out (O : Type) :=
| Done
| Val (y : O)
| Raise (e : exn).
Arguments Done {O}. Arguments Val {O}. Arguments Raise {O}.

(** Outputs of a state machine along a list of calls. *)
Fixpoint run {S I O} (step : S -> I -> S * O) (s : S) (l : list I) : list O :=
  match l with
  | [] => []
  | i :: t => let (s', o) := step s i in o :: run step s' t
  end.

Fixpoint final {S I O} (step : S -> I -> S * O) (s : S) (l : list I) : S :=
  match l with
  | [] => s
  | i :: t => final step (fst (step s i)) t
  end.

(** Reference object: it remembers, for every channel, the samples received since creation,
    set_n_channels or reset_state, and answers each call with [F] applied to the samples of that channel
    (the last one being the new one). A channel outside the valid (Python) index range raises IndexError and
    changes nothing. [okn n] says whether n channels are accepted (otherwise an assertion fails). *)
Definition ref_step {A O} (okn : nat -> bool) (F : list A -> O) (h : list (list A)) (o : rt_op A)
  : list (list A) * rt_out O :=
  match o with
  | SetN n => if okn n then (repeat [] n, Done) else (h, Raise AssertionError)
  | Reset => (map (fun _ => []) h, Done)
  | Proc x ch =>
      match py_index (length h) ch with
      | None => (h, Raise IndexError)
      | Some c => let hc := nth c h [] ++ [x] in (upd h c hc, Val (F hc))
      end
  end.

(** A fresh object has one channel. *)
Definition ref_run {A O} (okn : nat -> bool) (F : list A -> O) (ops : list (rt_op A)) : list (rt_out O) :=
  run (ref_step okn F) [[]] ops.

(** The output sequence of [F] along one channel that received the samples x. *)
Definition outputs {A O} (F : list A -> O) (x : list A) : list O :=
  mk (length x) (fun n => F (firstn (S n) x)).

(** ** Series connection of objects *)

(** What travels along a chain: a call, or the exception that an earlier member raised. *)
Inductive item (A : Type) := Call (o : rt_op A) | Failed (e : exn).
Arguments Call {A}. Arguments Failed {A}.

(** The whole call history of one member, and what it hands to the next one. *)
Definition pass {A} (o : rt_op A) (r : rt_out A) : item A :=
  match r, o with
  | Raise e, _ => Failed e
  | Val y, Proc _ ch => Call (Proc y ch)
  | _, _ => Call o
  end.

Fixpoint through {A S} (step : S -> rt_op A -> S * rt_out A) (s : S) (l : list (item A)) : list (item A) :=
  match l with
  | [] => []
  | Failed e :: t => Failed e :: through step s t
  | Call o :: t => let (s', r) := step s o in pass o r :: through step s' t
  end.

Definition observe {A} (i : item A) : rt_out A :=
  match i with Failed e => Raise e | Call (Proc y _) => Val y | Call _ => Done end.

(** ** State-space systems *)
Section SpecSS.
Context {A : Type} {HA : CRing A}.

(** Entry i of A^k B. *)
Fixpoint apow_entry (n : nat) (MA : nat -> nat -> A) (B : nat -> A) (k i : nat) : A :=
  match k with
  | O => B i
  | S j => sum n (fun c => MA i c *! apow_entry n MA B j c)
  end.

(** Output at the last sample of u: D u[N] + sum_{k<N} C A^(N-1-k) B u[k]. *)
Definition ss_output (MA : list (list A)) (B C : list A) (D : A) (u : list A) : A :=
  let N := length u - 1 in
  let n := length MA in
  D *! get u N +!
  sum N (fun k => sum n (fun i => get C i *! apow_entry n (fun i j => get (nth i MA []) j) (get B) (N - 1 - k) i) *! get u k).
End SpecSS.

(** ** Multirate specifications *)
Section SpecMultirate.
Context {A : Type} {HA : CRing A}.
(** x with u-1 zeros after every sample. *)
Definition zeros_between (u : nat) (x : list A) : list A :=
  flat_map (fun v => v :: repeat r0 (u - 1)) x.
(** n copies of v added up *)
Fixpoint times (n : nat) (v : A) : A := match n with O => r0 | S m => v +! times m v end.
End SpecMultirate.

(** ** Placing a vector in a window of n samples *)
Section SpecPlaced.
Context {A : Type} {HA : CRing A}.
(** v aligned with the start (at_end = true: changes happen in the end) or with the end of n samples, zero elsewhere *)
Definition placed (n : nat) (at_end : bool) (v : list A) : list A :=
  map (fun i => if at_end then get v i else if n <=? i + length v then get v (i + length v - n) else r0) (seq 0 n).
End SpecPlaced.

(** ** Difference equation with an initial state *)
Section SpecState.
Context {A : Type} {HA : CRing A}.
(** z is what the filter would still emit for zero input after its past: at sample n it adds z[n] to the right side. *)
Definition diff_eq_from (z b a x y : list A) : Prop :=
  length y = length x /\
  forall n, n < length x -> conv a y n = conv b x n +! get z n.
End SpecState.
