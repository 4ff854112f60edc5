(** Model of detrend and envelope (standard/other.py L182-284) with _detrend (standard/_standard_backend.py L380-404). Samples are real numbers. *)
From Coq Require Import List Arith ZArith Bool Reals.
From Verif Require Import Alg Spec Dft M_arrays M_signal M_minphase M_transforms.
Import ListNotations.
Local Open Scope R_scope.

(** vectors of n entries *)
Definition dotn (n : nat) (u v : nat -> R) : R := sum (HA := CRing_R) n (fun i => u i * v i).
(** removes from v its part along q *)
Definition strip (n : nat) (q v : nat -> R) : nat -> R := fun i => v i - dotn n v q / dotn n q q * q i.
Definition strip_all (n : nat) (qs : list (nat -> R)) (v : nat -> R) : nat -> R := fold_left (fun v q => strip n q v) qs v.
Definition power (j : nat) : nat -> R := fun i => INR i ^ j.
(** orthogonal basis of the polynomials of degree below p on 0 .. n - 1 *)
Fixpoint basis (n p : nat) : list (nat -> R) := match p with O => [] | S p' => basis n p' ++ [strip_all n (basis n p') (power p')] end.
(** _standard_backend.py L400-404, one column: np.polyfit gives a polynomial of that order closest to the data in the least squares sense, and
    np.polyval its values; here the values are computed with an orthogonal basis, which gives the same values (also when the order is not below
    the number of samples and the coefficients are not unique). *)
Definition detrend_col (order : nat) (x : list R) : list R := mk (length x) (strip_all (length x) (basis (length x) (S order)) (get (HA := CRing_R) x)).
(** other.py L201-205 *)
Definition detrend (order : Z) (s : signal) : result signal :=
  if (order <? 0)%Z then Err AssertionError else set_data s (mkIn (map (detrend_col (Z.to_nat order)) (s_re s)) None false).
(** L206-210 *)
Definition detrend_bands (order : Z) (l : list signal) : result (list signal) := seq_result (map (detrend order) l).

(** L256-263: the squared samples convolved with a boxcar and cut to the length *)
Definition rms_col (w : nat) (y : list R) : list R :=
  map sqrt (mk (length y) (fun i => conv (HA := CRing_R) (repeat (1 / INR w) w) (map (fun v => v ^ 2) y) i)).
(** L246-264 *)
Definition envelope (is_analytic : bool) (w : option Z) (s : signal) : result mat :=
  bind (detrend 1 s) (fun s' =>
  if is_analytic then Ok (map (fun x => map cmod (analytic x)) (s_re s')) else
  match w with
  | None => Err AssertionError
  | Some w => if (w <=? 0)%Z then Err AssertionError else Ok (map (rms_col (Z.to_nat w)) (s_re s'))
  end).
