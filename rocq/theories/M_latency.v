(** Model of the correlation-based latency (standard/_standard_backend.py, standard/latency_delay.py, helpers/latency.py). *)
From Coq Require Import List Arith Lia ZArith Bool Reals.
From Verif Require Import Alg Spec M_arrays M_welch.
Import ListNotations.
Local Open Scope R_scope.

(** sample t of a column, zero outside *)
Definition zat (v : list R) (t : Z) : R := if (t <? 0)%Z then 0 else get (HA := CRing_R) v (Z.to_nat t).
(** scipy.signal.correlate(a, b, mode="full") of 1-D arrays, exact (the FFT method's rounding is not modelled) *)
Definition correlate1 (a b : list R) : list R :=
  mk (length a + length b - 1) (fun k => sum (HA := CRing_R) (length a) (fun l => get (HA := CRing_R) a l * zat b (Z.of_nat l - Z.of_nat k + Z.of_nat (length b) - 1))).
(** the same for 2-D arrays, given as lists of columns *)
Definition correlate2 (a b : list (list R)) : list (list R) :=
  let na := length (hd [] a) in let nb := length (hd [] b) in
  mk (length a + length b - 1) (fun k1 => mk (na + nb - 1) (fun k0 =>
    sum (HA := CRing_R) (length a) (fun l1 =>
      let c := (Z.of_nat l1 - Z.of_nat k1 + Z.of_nat (length b) - 1)%Z in
      let col := if (c <? 0)%Z then [] else nth (Z.to_nat c) b [] in
      sum (HA := CRing_R) na (fun l0 => get (HA := CRing_R) (nth l1 a []) l0 * zat col (Z.of_nat l0 - Z.of_nat k0 + Z.of_nat nb - 1))))).
(** np.argmax: the first index of the maximum *)
Fixpoint argmax_go (l : list R) (i bi : nat) (b : R) : nat :=
  match l with [] => bi | v :: t => if Rlt_dec b v then argmax_go t (S i) i v else argmax_go t (S i) bi b end.
Definition argmax (l : list R) : nat := match l with [] => 0%nat | v :: t => argmax_go t 1 0 v end.
(** standard/_standard_backend.py L14-34 _latency, both forms, for non-empty data *)
Definition latency_pair (x y : list R) : Z := (Z.of_nat (length y) - Z.of_nat (argmax (map Rabs (correlate1 x y))) - 1)%Z.
Definition latency_two (in1 in2 : list (list R)) : list Z := mk (length in1) (fun i => latency_pair (nth i in2 []) (nth i in1 [])).
Definition latency_one (in1 : list (list R)) : list Z :=
  map (fun col => Z.of_nat (length (hd [] in1)) - Z.of_nat (argmax (map Rabs col)) - 1)%Z (correlate2 [hd [] in1] (tl in1)).
(** scipy.stats.pearsonr: fewer than two samples raise, constant data give nan (None) *)
Definition pearson (a b : list R) : result (option R) :=
  if (length a <? 2)%nat then Err ValueError else
  let ma := mean a in let mb := mean b in let n := length a in
  let da i := get (HA := CRing_R) a i - ma in let db i := get (HA := CRing_R) b i - mb in
  let va := sum (HA := CRing_R) n (fun i => da i * da i) in let vb := sum (HA := CRing_R) n (fun i => db i * db i) in
  if Req_EM_T va 0 then Ok None else if Req_EM_T vb 0 then Ok None else
  Ok (Some (sum (HA := CRing_R) n (fun i => da i * db i) / (sqrt va * sqrt vb))).
(** helpers/latency.py L224-276 _get_correlation_of_latencies *)
Definition latency_correlation (x y : list R) (lat : Z) : result (option R) :=
  let '(undelayed, delayed) := if (0 <? lat)%Z then (x, y) else (y, x) in
  let delayed := skipn (Z.to_nat (Z.abs lat)) delayed in
  let n := Nat.min (length delayed) (length undelayed) in
  pearson (firstn n delayed) (firstn n undelayed).
(** standard/latency_delay.py L73-111 latency for real Signals of the same sampling rate, polynomial_points = 0 (integer latency).
    An exception in the correlations is caught and gives zeros. *)
Definition latency (in1 : list (list R)) (in2 : option (list (list R))) : result (list Z * list (option R)) :=
  match in2 with
  | Some x =>
      if negb (length in1 =? length x)%nat then Err AssertionError else
      let lat := latency_two in1 x in
      let corr := sequence (mk (length lat) (fun i => latency_correlation (nth (if (length x =? 1)%nat then 0%nat else i) x []) (nth i in1 []) (nth i lat 0%Z))) in
      Ok (lat, match corr with Ok c => c | Err _ => repeat (Some 0) (length lat) end)
  | None =>
      if (length in1 <=? 1)%nat then Err AssertionError else
      let lat := latency_one in1 in
      let corr := sequence (mk (length lat) (fun i => latency_correlation (hd [] in1) (nth i (tl in1) []) (nth i lat 0%Z))) in
      Ok (lat, match corr with Ok c => c | Err _ => repeat (Some 0) (length lat) end)
  end.
