(** Model of fractional_delay, the Thiran allpass filter (filterbanks/filterbanks.py L702-743). *)
From Coq Require Import List Arith ZArith Bool Reals.
From Verif Require Import Alg Spec M_arrays.
Import ListNotations.
Local Open Scope R_scope.

(** scipy.special.comb(n, k), used in L740: the binomial coefficient *)
Fixpoint comb (n k : nat) : nat := match k, n with O, _ => 1 | S _, O => 0 | S j, S m => comb m j + comb m (S j) end.
(** L740-742: one coefficient *)
Definition thiran_coeff (n : nat) (d : R) (ind : nat) : R :=
  fold_left (fun v ind2 => v * ((d - INR n + INR ind2) / (d - INR n + INR ind + INR ind2))) (seq 0 (n + 1)) (INR (comb n ind) * (if (ind mod 2 =? 1)%nat then -1 else 1)).
(** L702-743: numerator and denominator. Orders are integers. *)
Definition thiran (delay : R) (order : Z) : result (list R * list R) :=
  if (order <=? 0)%Z then Err AssertionError else
  if Rlt_dec 0 delay then
    if Rlt_dec delay 1 then
      let n := Z.to_nat order in
      let d := INR n + delay in
      let a := map (thiran_coeff n d) (seq 0 (n + 1)) in
      Ok (rev a, a)
    else Err AssertionError
  else Err AssertionError.
