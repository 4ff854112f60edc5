(** Model of transfer_functions/transfer_functions.py combine_ir_with_dirac (L1141-1190) between the two normalizations: the latencies found, the peak-normalized
    channels and the two bands of the zero-phase crossover are parameters. Samples are real numbers, nan and inf are None. Assigning time data within
    the loop does not rescale it as long as its values are within [-1, 1] (they are 0 and 1 for whole latencies). *)
From Coq Require Import List Arith ZArith Bool Reals.
From Verif Require Import Alg Spec M_arrays M_signal M_level M_fvec M_fracdelay.
Import ListNotations.
Local Open Scope R_scope.

(** generators dirac(n, delay_samples=0), one channel *)
Definition unit_impulse (n : nat) : list R := mk n (fun t => if (t =? 0)%nat then 1 else 0).
(** L1155-1163: [imp.get_channels(ch)] is taken from the growing signal, whose first channel is the impulse without delay; L1167 removes that one *)
Fixpoint delay_loop (b : R -> R) (fs : R) (lats : list R) (ch : nat) (imps : list (list R)) : result (list (list R)) :=
  match lats with
  | [] => Ok (tl imps)
  | l :: t => bind (frac_one b fs (l / fs) true (nth ch imps [])) (fun y => delay_loop b fs t (S ch) (imps ++ [y]))
  end.
Definition impulses (b : R -> R) (fs : R) (n : nat) (lats : list R) : result (list (list R)) := delay_loop b fs lats 0 [unit_impulse n].
(** L1153, L1165-1166 *)
Definition polarity (lat : R) (x : list R) : result R :=
  match nth_error x (Z.to_nat (truncate (lat + 1 / 2))) with None => Err IndexError | Some v => Ok (sgn v) end.
Inductive imp_norm := NoMatch | Energy | Peak | Decibel (d : R).
Definition ratio (a b : R) : option R := if Req_EM_T b 0 then None else Some (a / b).
Definition rms (x : list R) : R := sqrt (fold_right (fun v acc => v ^ 2 + acc) 0 x / INR (length x)).
(** L1177-1186: gain of the impulse band of one channel *)
Definition imp_gain (nrm : imp_norm) (ir imp : list R) : option R :=
  match nrm with NoMatch => Some 1 | Energy => ratio (rms ir) (rms imp) | Peak => ratio (vpeak ir) (vpeak imp) | Decibel d => Some (from_db true d) end.
(** L1169-1189; [low] and [high] are the bands *)
Definition combine_dirac (b : R -> R) (low high : list R -> list R) (fs : R) (take_lower : bool) (nrm : imp_norm) (lats : list R) (chs : list (list R)) : result (list (list (option R))) :=
  let n := length (hd [] chs) in
  bind (impulses b fs n lats) (fun imps =>
  bind (seq_result (map (fun p => polarity (fst p) (snd p)) (combine lats chs))) (fun pol =>
  let f1 := if take_lower then low else high in
  let f2 := if take_lower then high else low in
  Ok (map (fun p => let ir := f1 (fst (fst p)) in let imp := f2 (snd (fst p)) in
        mk n (fun t => option_map (fun g => get ir t + get imp t * g * snd p) (imp_gain nrm ir imp))) (combine (combine chs imps) pol)))).
