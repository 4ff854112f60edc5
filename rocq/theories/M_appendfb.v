(** Model of append_filterbanks (standard/appending.py L131-157). *)
From Coq Require Import List Arith ZArith Bool Reals.
From Verif Require Import Alg Spec M_arrays M_signal M_filter.
Import ListNotations.

(** the comparison of two sampling rates with == in L152: integers or lists of integers *)
Definition same_rates (a b : rate) : bool :=
  match a, b with
  | ROne x, ROne y => (x =? y)%Z
  | RMany x, RMany y => if list_eq_dec Z.eq_dec x y then true else false
  | _, _ => false
  end.
(** L146-153, one bank; the attribute does not exist in a bank that never had filters. *)
Definition check_bank (b0 b : bank) : result unit :=
  if negb (Bool.eqb (fb_same b) (fb_same b0)) then Err AssertionError else
  match fb_rate b, fb_rate b0 with
  | RUnset, _ | _, RUnset => Err AttributeError
  | r, r0 => if same_rates r r0 then Ok tt else Err AssertionError
  end.
(** L146-153: the loop *)
Fixpoint check_banks (b0 : bank) (l : list bank) : result unit :=
  match l with [] => Ok tt | b :: t => bind (check_bank b0 b) (fun _ => check_banks b0 t) end.
(** L155-157: += assigns the extended list through the setter of filters (classes/filterbank.py L198-241). The filters are copies. *)
Fixpoint extend (acc : bank) (l : list bank) : result bank :=
  match l with
  | [] => Ok acc
  | b :: t => match fb_set (fb_filters acc ++ fb_filters b) acc with (acc', None) => extend acc' t | (_, Some e) => Err e end
  end.
(** L131-157 *)
Definition append_filterbanks (l : list bank) : result bank :=
  match l with
  | [] | [_] => Err AssertionError
  | b0 :: t => bind (check_banks b0 l) (fun _ => extend b0 t)
  end.
