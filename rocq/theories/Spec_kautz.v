(** Specification of a Kautz filter: a cascade of allpass sections with a tap filter at the input of each. *)
From Coq Require Import List Arith Lia ZArith Reals.
From Verif Require Import Alg Spec.
Import ListNotations.
Local Open Scope R_scope.

(** Tap signals for the input x. A real pole p has the tap sqrt(1-p^2)/(1 - p z^-1) and the allpass
    (-p + z^-1)/(1 - p z^-1). A pair z, conj z with q = -2 Re z and r = |z|^2 has the taps
    g1 (1 - z^-1)/(1 + q z^-1 + r z^-2), g2 (1 + z^-1)/(1 + q z^-1 + r z^-2) with g = sqrt((1-r)(1+r-+q)/2)
    and the allpass (r + q z^-1 + z^-2)/(1 + q z^-1 + r z^-2). *)
Inductive kautz_taps : list R -> list (R * R) -> list R -> list (list R) -> Prop :=
| kt_nil x : kautz_taps [] [] x []
| kt_real p ps zs x u t us :
    diff_eq [sqrt (1 - p * p)] [1; - p] x u ->
    diff_eq [- p; 1] [1; - p] x t ->
    kautz_taps ps zs t us ->
    kautz_taps (p :: ps) zs x (u :: us)
| kt_pair re im zs x u1 u2 t us :
    let q := - (2 * re) in
    let r := re * re + im * im in
    let g1 := sqrt ((1 - r) * (1 + r - q) / 2) in
    let g2 := sqrt ((1 - r) * (1 + r + q) / 2) in
    diff_eq [g1; - g1] [1; q; r] x u1 ->
    diff_eq [g2; g2] [1; q; r] x u2 ->
    diff_eq [r; q; 1] [1; q; r] x t ->
    kautz_taps [] zs t us ->
    kautz_taps [] ((re, im) :: zs) x (u1 :: u2 :: us).

(** Weighted sum of the taps, n samples long. *)
Definition tap_sum (n : nat) (cs : list R) (us : list (list R)) : list R :=
  mk n (fun i => sum (length us) (fun j => get cs j * get (nth j us []) i)).

(** Poles on the real axis and the others. *)
Definition on_axis (p : R * R) : bool := if Req_EM_T (snd p) 0 then true else false.
Definition real_poles (l : list (R * R)) : list R := map fst (filter on_axis l).
Definition other_poles (l : list (R * R)) : list (R * R) := filter (fun p => negb (on_axis p)) l.
(** Accepted poles: not below the real axis, inside the unit circle. *)
Definition pole_ok (p : R * R) : Prop := 0 <= snd p /\ fst p * fst p + snd p * snd p < 1.
