(** Model of lufs_integrated (standard/gain_and_level.py L203-282). nan is None. *)
From Coq Require Import List Arith Lia ZArith Bool Reals.
From Verif Require Import Alg Spec M_arrays M_signal M_filter M_coeffs.
Import ListNotations.
Local Open Scope R_scope.

(** L255-259 the lengths of a block and of a step: int() of a positive number *)
Definition block_length (fs : Z) : nat := Z.to_nat (Int_part (4 / 10 * IZR fs + 1 / 2)).
Definition block_step (fs : Z) : nat := Z.to_nat (Int_part ((1 - 3 / 4) * INR (block_length fs) + 1 / 2)).
(** L256 the weights of left, right, centre and both surround channels *)
Definition channel_weights : list R := [1; 1; 1; 141 / 100; 141 / 100].
Definition dot (z g : list R) : R := fold_right Rplus 0 (map (fun p => fst p * snd p) (combine z g)).
(** L276-277; the logarithm of zero (minus infinity) is None *)
Definition gated_loudness (e : R) : option R := if Rlt_dec 0 e then Some (- (691 / 1000) + 10 * (ln e / ln 10)) else None.
(** a comparison with minus infinity is false *)
Definition louder (t e : R) : bool := match gated_loudness e with Some l => if Rlt_dec t l then true else false | None => false end.
(** np.mean(rows, axis=0) of a list of blocks, each with one value per channel; nan without blocks *)
Definition column_mean (n : nat) (rows : list (list R)) : list R :=
  mk n (fun c => fold_right Rplus 0 (map (fun r => get (HA := CRing_R) r c) rows) / INR (length rows)).
Definition mean_loudness (n : nat) (rows : list (list R)) : option R :=
  match rows with [] => None | _ => gated_loudness (dot (column_mean n rows) channel_weights) end.
(** L279-281: the absolute and the relative gate. With a gate of nan no block is kept. *)
Definition integrated (n : nat) (rows : list (list R)) : option R :=
  let keep t := filter (fun r => louder t (dot r channel_weights)) rows in
  match mean_loudness n (keep (-70)) with
  | None => None
  | Some l => mean_loudness n (keep (Rmax (l - 10) (-70)))
  end.
(** L270-274: mean squares of the blocks of the filtered channels. [k] is the K weighting of L233-253, two biquads merged into sections. *)
Definition weighted (k : list section) (x : list R) : list R := fst (sosfilt (HA := CRing_R) k x (repeat [0; 0] (length k))).
Definition channel_blocks (k : list section) (fs : Z) (x : list R) : result (list R) :=
  bind (framed (HA := CRing_R) (block_length fs) (block_step fs) false (map (fun v => v * v) (weighted k x))) (fun fr =>
  Ok (map (fun f => fold_right Rplus 0 f / INR (length f)) fr)).
Definition blocks (k : list section) (fs : Z) (m : mat) : result (list (list R)) :=
  bind (results (map (channel_blocks k fs) m)) (fun zs => Ok (mk (length (hd [] zs)) (fun j => map (fun z => get (HA := CRing_R) z j) zs))).
(** the whole call: the value, and the signal of the caller afterwards. L263-267 switches the constraint off and on again. *)
Definition lufs_integrated (k : list section) (s : signal) : result (option R) * signal :=
  if (5 <? ncols (s_re s))%nat then (Err AssertionError, s) else
  let after := match bind (set_constrain false s) (set_constrain (s_constr s)) with Ok s' => s' | Err _ => s end in
  (bind (blocks k (s_fs s) (s_re s)) (fun rows => Ok (integrated (ncols (s_re s)) rows)), after).
