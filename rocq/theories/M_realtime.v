(** Model of the sample-wise real-time filters of dsptoolbox/classes. *)
From Coq Require Import List Arith Lia ZArith Reals.
From Verif Require Import Alg Spec.
Import ListNotations.
Local Open Scope nat_scope.

(** ** Common shape of a real-time filter
    classes/realtime_filter.py L4-19 (abstract interface). The numpy state of every filter is an array whose last
    axis is the channel and each call touches one column only; we store the list of columns instead.
    [rt_proc] works on one column. An IndexError for a bad channel is raised before anything is written. *)
Record rtf (A O S : Type) := {
  rt_okn : nat -> bool;                 (* accepted channel counts *)
  rt_fresh : S;                         (* column created by set_n_channels *)
  rt_reset : S -> S;                    (* what reset_state does to a column *)
  rt_proc : S -> A -> result (O * S)    (* process_sample on a column *)
}.
Arguments rt_okn {A O S}. Arguments rt_fresh {A O S}. Arguments rt_reset {A O S}. Arguments rt_proc {A O S}.

(** One call on the object (classes/realtime_filter.py L4-19; numpy channel indexing of the concrete classes). *)
Definition rt_step {A O S} (f : rtf A O S) (st : list S) (o : rt_op A) : list S * rt_out O :=
  match o with
  | SetN n => if rt_okn f n then (repeat (rt_fresh f) n, Done) else (st, Raise AssertionError)
  | Reset => (map (rt_reset f) st, Done)
  | Proc x ch =>
      match py_index (length st) ch with
      | None => (st, Raise IndexError)
      | Some c =>
          match rt_proc f (nth c st (rt_fresh f)) x with
          | Ok (y, s') => (upd st c s', Val y)
          | Err e => (st, Raise e)
          end
      end
  end.

(** The constructors end with self.set_n_channels(1). *)
Definition rt_run {A O S} (f : rtf A O S) (ops : list (rt_op A)) : list (rt_out O) :=
  run (rt_step f) [rt_fresh f] ops.

Section Linear.
Context {A : Type} {HA : CRing A}.

(** ** FIRFilter, classes/fir_filter_realtime.py L11-70 *)

(** (buffer column, current_state_ind of the channel); L52-54 *)
Definition fir_state := (list A * nat)%type.

(** (write_index - i) % order, L65; Python's % is Z.modulo for a positive divisor. *)
Definition fir_read_index (order w i : nat) : nat :=
  Z.to_nat ((Z.of_nat w - Z.of_nat i) mod Z.of_nat order).

(** L61-70. For order = 0 numpy evaluates (0+1) % 0 = 0 with a warning and the following write into an
    empty axis raises IndexError; nothing has been written by then. *)
Definition fir_proc (b : list A) (s : fir_state) (x : A) : result (A * fir_state) :=
  let order := length b - 1 in
  let (buf, w) := s in
  let y := fold_left (fun y i => y +! get buf (fir_read_index order w i) *! get b (i + 1))
                     (seq 0 order) (get b 0 *! x) in
  let w' := (w + 1) mod order in
  if order =? 0 then Err IndexError else Ok (y, (upd buf w' x, w')).

(** L30-57: set_n_channels zeroes buffer and index; reset_state only fills the buffer. *)
Definition fir_filter (b : list A) : rtf A A fir_state := {|
  rt_okn := fun _ => true;
  rt_fresh := (repeat r0 (length b - 1), 0);
  rt_reset := fun s => (map (fun _ => r0) (fst s), snd s);
  rt_proc := fir_proc b |}.

(** ** IIRFilter, classes/iir_filter_realtime.py L9-66 *)

(** np.pad(v, (0, n - len(v))), L30-31 *)
Definition pad_to (n : nat) (v : list A) : list A := v ++ repeat r0 (n - length v).

(** L59-66 with b and a of length order+1. state[-1] is the last entry. *)
Definition iir_proc (b a : list A) (s : list A) (x : A) : result (A * list A) :=
  let order := length b - 1 in
  if order =? 0 then Err IndexError else
  let y := get b 0 *! x +! get s 0 in
  let s1 := fold_left
              (fun s i => upd s i (x *! get b (i + 1) -! y *! get a (i + 1) +! get s (i + 1)))
              (seq 0 (order - 1)) s in
  let s2 := upd s1 (order - 1) (x *! get b order -! y *! get a order) in
  Ok (y, s2).

(** Filter with already normalised and padded coefficients: L29-33, L53-57. *)
Definition iir_filter_norm (b a : list A) : rtf A A (list A) := {|
  rt_okn := fun _ => true;
  rt_fresh := repeat r0 (length b - 1);
  rt_reset := fun s => map (fun _ => r0) s;
  rt_proc := iir_proc b a |}.
End Linear.

Section LinearField.
Context {A : Type} {HF : CField A}.
(** L27-33: division by a[0] and padding to the common length. The in-place division also changes the
    caller's arrays; that effect is not part of this definition. a[0] = 0 gives inf/nan and is not modelled. *)
Definition iir_filter (b a : list A) : rtf A A (list A) :=
  let bn := map (fun c => c /! get a 0) b in
  let an := map (fun c => c /! get a 0) a in
  let n := max (length b) (length a) in
  iir_filter_norm (pad_to n bn) (pad_to n an).

(** ** StateVariableFilter, classes/sv_filter.py L46-96 *)
Definition sv_out := (A * A * A * A)%type.   (* lowpass, highpass, bandpass, allpass *)

(** L84-96; R is the resonance, g the tangent, L64-66. *)
Definition sv_proc (g R : A) (s : A * A) (x : A) : result (sv_out * (A * A)) :=
  let k := rinv (r1 +! R *! g +! g *! g) in
  let yh := (x -! (R +! g) *! fst s -! snd s) *! k in
  let yb := g *! yh +! fst s in
  let s0 := g *! yh +! yb in
  let yl := g *! yb +! snd s in
  let s1 := g *! yb +! yl in
  Ok ((yl, yh, yb, yl -! R *! yb +! yh), (s0, s1)).

(** L70-77 *)
Definition sv_filter (g R : A) : rtf A sv_out (A * A) := {|
  rt_okn := fun n => 1 <=? n;
  rt_fresh := (r0, r0);
  rt_reset := fun _ => (r0, r0);
  rt_proc := sv_proc g R |}.
End LinearField.

(** sv_filter.py L63-66: parameter check and g. frequency_hz < sampling_rate_hz // 2 with an integer rate. *)
Definition sv_params_ok (fs : Z) (f : R) : Prop := (0 < f /\ f < IZR (fs / 2))%R.
Definition sv_g (fs : Z) (f : R) : R := tan (PI * f / IZR fs).

Section StateSpace.
Context {A : Type} {HA : CRing A}.

(** ** StateSpaceFilter, classes/state_space_filter.py L10-106 *)
Definition dot (u v : list A) : A := sum (length u) (fun i => get u i *! get v i).
Definition matvec (M : list (list A)) (v : list A) : list A := map (fun row => dot row v) M.

(** L103-106; np's C @ x and A @ x on 1-d state columns. *)
Definition ss_proc (MA : list (list A)) (B C : list A) (D : A) (s : list A) (u : A)
  : result (A * list A) :=
  let y := dot C s +! D *! u in
  let ax := matvec MA s in
  Ok (y, mk (length ax) (fun i => get ax i +! get B i *! u)).

Definition ss_filter (MA : list (list A)) (B C : list A) (D : A) : rtf A A (list A) := {|
  rt_okn := fun _ => true;
  rt_fresh := repeat r0 (length MA);
  rt_reset := fun s => map (fun _ => r0) s;
  rt_proc := ss_proc MA B C D |}.

(** L49-55, L100-101: the constructor. MA has ndim 2 by typing; len(B) must equal A.shape[1].
    A.squeeze() of a 1 x 1 matrix is 0-dimensional, so set_n_channels fails on A.shape[0].
    Square matrices only; B is given as the column (n x 1) and C as the row (1 x n) already flattened. *)
Definition ss_new (MA : list (list A)) (B C : list A) (D : A) : result (rtf A A (list A)) :=
  if negb (length B =? length (hd [] MA)) then Err AssertionError
  else if length MA =? 1 then Err IndexError
  else Ok (ss_filter MA B C D).
End StateSpace.

(** ** FilterChain, classes/filter_chain.py L4-35 *)

(** Any RealtimeFilter object: its current state and how it reacts to calls. *)
Record rt_obj (A : Type) := {
  ob_S : Type;
  ob_step : ob_S -> rt_op A -> ob_S * rt_out A;
  ob_state : ob_S
}.
Arguments ob_S {A}. Arguments ob_step {A}. Arguments ob_state {A}.

Definition ob_call {A} (f : rt_obj A) (o : rt_op A) : rt_obj A * rt_out A :=
  let r := ob_step f (ob_state f) o in
  ({| ob_S := ob_S f; ob_step := ob_step f; ob_state := fst r |}, snd r).

(** L24-30: set_n_channels / reset_state loops; an exception in one member stops the loop. *)
Fixpoint chain_bcast {A} (l : list (rt_obj A)) (o : rt_op A) : list (rt_obj A) * rt_out A :=
  match l with
  | [] => ([], Done)
  | f :: t =>
      let (f', r) := ob_call f o in
      match r with
      | Raise e => (f' :: t, Raise e)
      | _ => let (t', r') := chain_bcast t o in (f' :: t', r')
      end
  end.

(** L32-35: process_sample loop. *)
Fixpoint chain_proc {A} (l : list (rt_obj A)) (x : A) (ch : Z) : list (rt_obj A) * rt_out A :=
  match l with
  | [] => ([], Val x)
  | f :: t =>
      let (f', r) := ob_call f (Proc x ch) in
      match r with
      | Val y => let (t', r') := chain_proc t y ch in (f' :: t', r')
      | _ => (f' :: t, r)
      end
  end.

Definition chain_step {A} (l : list (rt_obj A)) (o : rt_op A) : list (rt_obj A) * rt_out A :=
  match o with Proc x ch => chain_proc l x ch | _ => chain_bcast l o end.

(** ** ExponentialAverageFilter, classes/exponential_average_filter.py L7-61 *)
Section Ema.
Local Open Scope R_scope.

(** helpers/smoothing.py L165-166 *)
Definition smoothing_factor (t fs acc : R) : R := 1 - exp (ln (1 - acc) / t / fs).

(** L49-61. `if x > self.state` compares with the whole (1, n_channels) array: with two or more channels its
    truth value is a ValueError; with zero channels the comparison is falsy and the indexing raises. *)
Definition ema_step (inc dec : R) (st : list R) (o : rt_op R) : list R * rt_out R :=
  match o with
  | SetN n => (repeat 0 n, Done)
  | Reset => (map (fun _ => 0) st, Done)
  | Proc x ch =>
      if (2 <=? length st)%nat then (st, Raise ValueError)
      else match py_index (length st) ch with
           | None => (st, Raise IndexError)
           | Some c =>
               let s := nth c st 0 in
               let k := if Rlt_dec s x then inc else dec in
               let y := x * k + (1 - k) * s in
               (upd st c y, Val y)
           end
  end.
End Ema.

(** ** StateVariableFilter object with parameter changes, classes/sv_filter.py L46-77.
    The parameter check L63 compares with sampling_rate_hz // 2; a failing assertion leaves everything unchanged.
    set_parameters assigns g and resonance before set_n_channels, whose own assertion (n_channels > 0) may then fail
    after g and resonance have been replaced. *)
Inductive sv_op := SvSet (f res : R) (n : nat) | SvRt (o : rt_op R).
Definition sv_obj := (R * R * list (R * R))%type.   (* g, resonance, state columns *)

Definition sv_params_okb (fs : Z) (f : R) : bool :=
  if Rlt_dec 0 f then (if Rlt_dec f (IZR (fs / 2)) then true else false) else false.

Definition sv_obj_step (fs : Z) (s : sv_obj) (o : sv_op) : sv_obj * rt_out (@sv_out R) :=
  match o with
  | SvSet f res n =>
      if sv_params_okb fs f then
        if 1 <=? n then ((sv_g fs f, res, repeat (0%R, 0%R) n), Done)
        else ((sv_g fs f, res, snd s), Raise AssertionError)
      else (s, Raise AssertionError)
  | SvRt o =>
      let '(g, res, st) := s in
      let (st', r) := rt_step (sv_filter g res) st o in ((g, res, st'), r)
  end.
