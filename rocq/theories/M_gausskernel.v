(** Model of gaussian_kernel (filterbanks/filterbanks.py L636-699). *)
From Coq Require Import List Arith ZArith Bool Reals.
From Verif Require Import Alg Spec M_arrays.
Import ListNotations.
Local Open Scope R_scope.

(** L682-684; np.log(1 / v) is 0 for v = 1 (division by zero) and negative above (no square root): None *)
Definition kernel_sigma (seconds boundary : R) (fs : Z) : option R :=
  let l := 2 * ln (1 / boundary) in if Rlt_dec 0 l then Some (seconds * IZR fs / sqrt l) else None.
(** L687 *)
Definition kernel_lambda (sigma : R) (k : nat) : R := sigma ^ 2 / (2 * INR k).
(** L690 *)
Definition kernel_mu (lambda : R) : R := (1 + 2 * lambda - sqrt (1 + 4 * lambda)) / (2 * lambda).
(** L693-697: the section tf2sos makes of a constant numerator and a first-order denominator, numerator and denominator, k times *)
Definition kernel_sections (lambda : R) (k : nat) : list (list R * list R) :=
  let mu := kernel_mu lambda in repeat ([sqrt (mu / lambda); 0; 0], [1; - mu; 0]) k.
(** L636-699 for orders that are not negative. None: a division by zero (order 0, a kernel of length 0) or a boundary value outside ]0, 1[, where the code
    computes with nan or inf. *)
Definition gaussian_kernel (seconds boundary : R) (order : nat) (fs : option Z) : result (option (list (list R * list R))) :=
  if negb (Nat.even order) then Err AssertionError else
  match fs with
  | None => Err AssertionError
  | Some fs =>
      let k := Nat.div order 2 in
      Ok match kernel_sigma seconds boundary fs with
         | None => None
         | Some sigma => let lambda := kernel_lambda sigma k in if (k =? 0)%nat then None else if Req_EM_T lambda 0 then None else Some (kernel_sections lambda k)
         end
  end.
