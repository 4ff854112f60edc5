(** Model of classes/lattice_ladder_filter.py. *)
From Coq Require Import List Arith Lia ZArith Bool.
From Verif Require Import Alg Spec M_realtime Spec_lattice.
Import ListNotations.
Local Open Scope nat_scope.

Section Lattice.
Context {A : Type} {HA : CRing A}.

(** L275-284 __lattice_filtering_fir_sample; (state column, x_o, s0) through the loop. *)
Definition lat_fir_step (k : list A) (q : list A * A * A) (i : nat) : list A * A * A :=
  let '(st, x_o, s0) := q in
  let s1 := -! x_o *! get k i +! get st i in
  let x_o' := x_o -! get st i *! get k i in
  (upd st i s0, x_o', s1).
Definition lat_fir_proc (k : list A) (s : list A) (x : A) : result (A * list A) :=
  let '(st, x_o, _) := fold_left (lat_fir_step k) (seq 0 (length k)) (s, x, x) in Ok (x_o, st).
(** L30-104, L150-160. For an empty k a wrong channel does not raise in the code: used for len(k) >= 1. *)
Definition lat_fir (k : list A) : rtf A A (list A) := {|
  rt_okn := fun n => 1 <=? n;
  rt_fresh := repeat r0 (length k);
  rt_reset := fun s => map (fun _ => r0) s;
  rt_proc := lat_fir_proc k |}.

(** L259-273 __lattice_ladder_filtering_iir_sample; (state column, x, x_low). *)
Definition lat_iir_step (k c : list A) (q : list A * A * A) (i : nat) : list A * A * A :=
  let '(st, x, x_low) := q in
  let x' := x +! get st i *! get k i in
  let s := x' *! -! get k i +! get st i in
  (if i =? length k - 1 then st else upd st (i + 1) s, x', x_low +! s *! get c (i + 1)).
Definition lat_iir_proc (k c : list A) (s : list A) (x : A) : result (A * list A) :=
  if length k =? 0 then Err IndexError else
  let '(st, x', x_low) := fold_left (lat_iir_step k c) (rev (seq 0 (length k))) (s, x, r0) in
  Ok (x' *! get c 0 +! x_low, upd st 0 x').
Definition lat_iir (k c : list A) : rtf A A (list A) := {|
  rt_okn := fun n => 1 <=? n;
  rt_fresh := repeat r0 (length k);
  rt_reset := fun s => map (fun _ => r0) s;
  rt_proc := lat_iir_proc k c |}.

(** L242-257 __lattice_ladder_filtering_sos_sample: a section is ((k0, k1), (c0, c1, c2)), its state (s0, s1). *)
Definition sec := ((A * A) * (A * A * A))%type.
Definition lat_sec (q : sec) (s : A * A) (x : A) : A * (A * A) :=
  let '((k0, k1), (c0, c1, c2)) := q in
  let x1 := x +! snd s *! k1 in
  let sa := x1 *! -! k1 +! snd s in
  let low := r0 +! sa *! c2 in
  let x2 := x1 +! fst s *! k0 in
  let sb := x2 *! -! k0 +! fst s in
  (x2 *! c0 +! (low +! sb *! c1), (x2, sb)).
Fixpoint lat_sos_loop (qs : list sec) (ss : list (A * A)) (x : A) : A * list (A * A) :=
  match qs with
  | [] => (x, [])
  | q :: qs' =>
      let (y, s') := lat_sec q (hd (r0, r0) ss) x in
      let (z, ss') := lat_sos_loop qs' (tl ss) y in (z, s' :: ss')
  end.
(** With no section at all a wrong channel does not raise: used for at least one section. *)
Definition lat_sos (qs : list sec) : rtf A A (list (A * A)) := {|
  rt_okn := fun n => 1 <=? n;
  rt_fresh := repeat (r0, r0) (length qs);
  rt_reset := fun ss => map (fun _ => (r0, r0)) ss;
  rt_proc := fun s x => Ok (lat_sos_loop qs s x) |}.

(** L286-397 _lattice_ladder_filtering_sos, _lattice_filtering_fir, _lattice_ladder_filtering_iir on one channel: the loop
    body is the code of the corresponding _sample method, on the state passed in. *)
Fixpoint lat_column {S} (p : S -> A -> result (A * S)) (s : S) (x : list A) : result (list A * S) :=
  match x with
  | [] => Ok ([], s)
  | v :: t => bind (p s v) (fun r => bind (lat_column p (snd r) t) (fun q => Ok (fst r :: fst q, snd q)))
  end.
Fixpoint lat_columns {S} (p : S -> A -> result (A * S)) (st : list S) (td : list (list A)) : result (list (list A) * list S) :=
  match td, st with
  | x :: td', s :: st' => bind (lat_column p s x) (fun r => bind (lat_columns p st' td') (fun q => Ok (fst r :: fst q, snd r :: snd q)))
  | _, _ => Ok ([], [])
  end.
(** L162-210 filter_signal (sampling-rate check and the Signal around the data omitted). *)
Definition lat_filter_signal {S} (f : rtf A A S) (st : list S) (td : list (list A)) : list S * rtx_out A :=
  if negb (length td =? length st) && negb (rt_okn f (length td)) then (st, WRaise AssertionError) else
  let st0 := if length td =? length st then st else repeat (rt_fresh f) (length td) in
  match lat_columns (rt_proc f) st0 td with
  | Ok (out, st') => (st', Whole out)
  | Err e => (st0, WRaise e)
  end.
Definition lat_step {S} (f : rtf A A S) (st : list S) (o : rtx_op A) : list S * rtx_out A :=
  match o with
  | Rt o => let (st', r) := rt_step f st o in (st', Single r)
  | Fsig td => lat_filter_signal f st td
  end.
Definition lat_run {S} (f : rtf A A S) (ops : list (rtx_op A)) : list (rtx_out A) := run (lat_step f) [rt_fresh f] ops.
End Lattice.

Section Coefficients.
Context {A : Type} {HF : CField A}.

(** L431-435 and L512-516: row i of a_s (i+1 entries) from row i+1; k is the last entry of row i+1. *)
Definition step_down (row : list A) : list A :=
  let n := length row - 1 in
  let k := get row n in
  mk n (fun m => (get row m +! k *! get row (n - 1 - m)) /! (r1 -! k *! k)).
(** L430-436 and L511-517: rows 0..n-1 of a_s, given the row n-1. Entries to the right of the diagonal stay 0 and are not listed. *)
Fixpoint lat_rows (n : nat) (row : list A) : list (list A) :=
  match n with O => [] | S m => lat_rows m (step_down row) ++ [row] end.
Definition lat_k (rows : list (list A)) : list A := mk (length rows) (fun i => get (nth i rows []) i).
Definition top_row (a : list A) : list A := map (fun v => -! v) (tl a).
(** L485-519 _get_lattice_coefficients_fir *)
Definition lat_coeffs_fir (b : list A) : result (list A) :=
  if length b - 1 =? 0 then Err IndexError else Ok (lat_k (lat_rows (length b - 1) (top_row b))).
(** L439-444: body of the loop over m. *)
Definition ladder_step (b : list A) (rows : list (list A)) (c : list A) (m : nat) : list A :=
  upd c m (get b m +! fold_left (fun s i => s +! get c i *! get (nth (i - 1) rows []) (i - 1 - m)) (seq (m + 1) (length b - (m + 1))) r0).
(** L400-446 _get_lattice_ladder_coefficients_iir; more numerator than denominator coefficients read a_s out of range. *)
Definition lat_coeffs_iir (b a : list A) : result (list A * list A) :=
  if length a - 1 =? 0 then Err IndexError else
  let rows := lat_rows (length a - 1) (top_row a) in
  if length a <? length b then Err IndexError else
  Ok (lat_k rows, fold_left (ladder_step b rows) (rev (seq 0 (length b))) (repeat r0 (length b))).
(** L136-138 with the length check of the constructor L94-96. The filter is returned as its coefficients (k, c). *)
Definition lat_from_ba (b a : list A) : result (list A * list A) :=
  bind (lat_coeffs_iir b a) (fun r => if length (snd r) =? length (fst r) + 1 then Ok r else Err AssertionError).
(** L140-147: FIR filters; [small] stands for |k| < 1. *)
Definition lat_from_fir (small : A -> bool) (b : list A) : result (list A) :=
  bind (lat_coeffs_fir (map (fun v => v /! get b 0) b)) (fun k => if forallb small k then Ok k else Err AssertionError).

(** L472-482, one section (b0,b1,b2,a0,a1,a2). *)
Definition sos_coeffs (q : list A) : (A * A) * (A * A * A) :=
  let k1 := -! get q 5 in
  let a12 := -! get q 4 in
  let k0 := (a12 +! k1 *! a12) /! (r1 -! k1 *! k1) in
  let c2 := get q 2 in
  let c1 := get q 1 +! c2 *! a12 in
  ((k0, k1), (get q 0 +! c1 *! k0 +! c2 *! k1, c1, c2)).
(** L449-482; [one] tests a value for being 1. L469 divides the (n, 6) array by the (n,) vector: with one section this
    divides by its a0; with six sections column j is divided by the a0 of section j; any other number does not broadcast. *)
Definition lat_from_sos (one : A -> bool) (sos : list (list A)) : result (list ((A * A) * (A * A * A))) :=
  if forallb (fun q => one (get q 3)) sos then Ok (map sos_coeffs sos) else
  match length sos with
  | 1 => Ok (map (fun q => sos_coeffs (map (fun v => v /! get q 3) q)) sos)
  | 6 => Ok (map (fun q => sos_coeffs (mk 6 (fun j => get q j /! get (nth j sos []) 3))) sos)
  | _ => Err ValueError
  end.
End Coefficients.
