(** Model of resample_filter (standard/resampling.py). A filter is given by its zeros, poles and gain, as get_coefficients(Zpk) returns them;
    Filter.from_zpk stores the result. The second order sections computed from it are not modelled. *)
From Coq Require Import List Arith ZArith Bool Reals.
From Verif Require Import Alg Dft.
Import ListNotations.
Local Open Scope R_scope.

Definition c_eqb (u v : C) : bool := (if Req_EM_T (fst u) (fst v) then true else false) && (if Req_EM_T (snd u) (snd v) then true else false).
Definition cprod (l : list C) : C := fold_right cmul (rc 1) l.
(** resampling.py L71, L73 on one pole or zero other than -1 *)
Definition to_analog (f : R) (v : C) : C := cmul (cmul (rc f) (csub v (rc 1))) (cinv (cadd v (rc 1))).
(** scipy.signal.bilinear_zpk on one pole or zero, with twice the sampling rate *)
Definition to_digital (g : R) (v : C) : C := cmul (cadd (rc g) v) (cinv (csub (rc g) v)).
(** L80 and bilinear_zpk: np.real(np.prod(f - z) / np.prod(f - p)) *)
Definition gain_factor (f : R) (z p : list C) : R :=
  fst (cmul (cprod (map (csub (rc f)) z)) (cinv (cprod (map (csub (rc f)) p)))).
(** L46-83 resample_filter. None: a division by zero gives poles or zeros that are not finite. Multiplying a list by a negative number, as in L76,
    gives the empty list. scipy refuses more zeros than poles, which cannot happen after L75-78. *)
Definition resample_filter (fs new : Z) (z p : list C) (k : R) : option (list C * list C * R) :=
  if existsb (fun v => c_eqb v (rc (-1))) p then None else
  let f := 2 * IZR fs in
  let p1 := map (to_analog f) p in
  let z1 := map (to_analog f) (filter (fun v => negb (c_eqb v (rc (-1)))) z) in
  let p2 := if (length p <? length z)%nat then p1 ++ repeat (rc (- f)) (length z1 - length p1) else p1 in
  let z2 := if (length z <? length p)%nat then z1 ++ repeat (rc (- f)) (length p2 - length z1) else z1 in
  let g := 2 * IZR new in
  if existsb (fun v => c_eqb v (rc g)) (z2 ++ p2) then None else
  Some (map (to_digital g) z2 ++ repeat (rc (-1)) (length p2 - length z2), map (to_digital g) p2, k / gain_factor f z2 p2 * gain_factor g z2 p2).
