(** Model of classes/warped_filters.py. *)
From Coq Require Import List Arith Lia ZArith.
From Verif Require Import Alg Spec M_realtime.
Import ListNotations.
Local Open Scope nat_scope.

Section Warp.
Context {A : Type} {HA : CRing A}.

(** warped_filters.py L92-106, body of the loop of WarpedFIR.process_sample; (buffer column, residue, output). *)
Definition warp_tap (lam : A) (b : list A) (s : list A * A * A) (nn : nat) : list A * A * A :=
  let '(buf, residue, output) := s in
  let new_residue := (get buf (nn + 1) -! residue) *! lam +! get buf nn in
  (upd buf nn residue, new_residue, if nn + 1 <? length b then output +! new_residue *! get b (nn + 1) else output).

(** L86-111 process_sample; N is the number of buffer rows and order = N - 1 (L56-57, L186-187). *)
Definition warp_proc (lam : A) (b : list A) (N : nat) (s : list A) (x : A) : result (A * list A) :=
  if length b =? 0 then Err IndexError else
  let '(buf, residue, output) := fold_left (warp_tap lam b) (seq 0 (N - 1)) (s, x, x *! get b 0) in
  Ok (output, upd buf (N - 1) residue).

(** L26-58, L79-84. The check |warping_factor| < 1 of the constructor (L51) is not part of this definition. *)
Definition warp_fir (lam : A) (b : list A) : rtf A A (list A) := {|
  rt_okn := fun n => 1 <=? n;
  rt_fresh := repeat r0 (length b);
  rt_reset := fun s => map (fun _ => r0) s;
  rt_proc := warp_proc lam b (length b) |}.

(** L131-137 __process_time_data_vector on one channel, from the zeroed column of L126; [p] is process_sample. *)
Fixpoint process_vector {S} (p : S -> A -> result (A * S)) (s : S) (x : list A) : result (list A) :=
  match x with
  | [] => Ok []
  | v :: t => bind (p s v) (fun r => bind (process_vector p (snd r) t) (fun l => Ok (fst r :: l)))
  end.
Fixpoint all_ok {T} (l : list (result T)) : result (list T) :=
  match l with [] => Ok [] | r :: t => bind r (fun v => bind (all_ok t) (fun w => Ok (v :: w))) end.
(** L113-129 filter_signal (sampling-rate check and the Signal around the data omitted; td is the list of channels):
    (buffers of the object afterwards, filtered channels). *)
Definition warp_filter_signal (f : rtf A A (list A)) (st : list (list A)) (td : list (list A)) : result (list (list A) * list (list A)) :=
  bind (all_ok (map (process_vector (rt_proc f) (rt_fresh f)) td)) (fun out => Ok (st, out)).
End Warp.

Section WarpIIR.
Context {A : Type} {HF : CField A}.

(** L221-239 __compute_sigmas; the vector and S after the loop. *)
Definition sigma_step (lam : A) (a : list A) (s : list A * A) (i : nat) : list A * A :=
  let (sg, S) := s in
  let S_new := get a (i - 1) -! lam *! S in
  (upd sg i (lam *! S_new +! S), S_new).
Definition compute_sigmas (lam : A) (a : list A) : list A :=
  let N := length a in
  let sg0 := upd (repeat r0 (N + 1)) N (lam *! get a (N - 1)) in
  let (sg, S) := fold_left (sigma_step lam a) (rev (seq 2 (N - 2))) (sg0, get a (N - 1)) in
  let sg1 := upd (upd sg 1 S) 0 (rinv (r1 -! lam *! S)) in
  get sg1 0 :: map (fun v => -! v) (tl sg1).

(** L241-246 process_sample; L189-196 normalisation. *)
Definition warp_iir (lam : A) (b a : list A) : rtf A A (list A) :=
  let N := max (length a) (length b) in
  let bn := map (fun c => c /! get a 0) b in
  let an := map (fun c => c /! get a 0) a in
  let sg := compute_sigmas lam an in
  {| rt_okn := fun n => 1 <=? n;
     rt_fresh := repeat r0 N;
     rt_reset := fun s => map (fun _ => r0) s;
     rt_proc := fun s x => warp_proc lam bn N s ((x +! dot (tl sg) (firstn (length sg - 1) s)) *! get sg 0) |}.
End WarpIIR.
