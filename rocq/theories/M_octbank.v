(** Model of reconstructing_fractional_octave_bands (filterbanks/filterbanks.py). *)
From Coq Require Import List Arith ZArith Bool Reals.
From Verif Require Import Alg Dft M_delay M_minphase M_fvec M_smoothing.
Import ListNotations.
Local Open Scope R_scope.

(** filterbanks.py L151-156: the bin of the lower cutoff of a band and half the width of the transition around it *)
Definition transition (N : nat) (fs : R) (n : nat) (overlap f : R) : Z * Z :=
  let bin v := np_round (INR N * v / fs) in
  (bin (lower_cutoff n f), np_round (overlap / 2 * IZR (bin (upper_cutoff n f) - bin f))).
(** L165-175: the course of the transition, from 0 to 1, at distance p from its middle *)
Definition course (slope : nat) (P p : Z) : R :=
  1 / 2 * (Nat.iter slope (fun v => sin (PI / 2 * v)) (IZR p / IZR P) + 1).
(** L158-188 is a loop over the rows of g, here a function of band and bin. One turn, L163-188, for band b with the transition (k1, P), both at
    least zero. A transition that leaves the array makes the assignment of L178 fail, since the shapes differ. *)
Definition cut_band (nb slope : nat) (b : nat) (k1 P : Z) (g : nat -> nat -> R) : result (nat -> nat -> R) :=
  if (0 <? P)%Z && negb ((0 <=? k1 - P)%Z && (k1 + P + 1 <=? Z.of_nat nb)%Z) then Err ValueError else
  let g1 r k :=
    if (0 <? P)%Z && (k1 - P <=? Z.of_nat k)%Z && (Z.of_nat k <? k1 + P + 1)%Z then
      if (r =? b - 1)%nat then cos (PI / 2 * course slope P (Z.of_nat k - k1))
      else if (r =? b)%nat then sin (PI / 2 * course slope P (Z.of_nat k - k1)) else g r k
    else g r k in
  Ok (fun r k =>
    if (r =? b - 1)%nat && (k1 + P <=? Z.of_nat k)%Z then 0
    else if (r =? b)%nat && (Z.of_nat k <? k1 - P)%Z then 0 else g1 r k).
(** L162-188: bands 1, 2, ... in turn *)
Fixpoint cut_bands (nb slope : nat) (b : nat) (tr : list (Z * Z)) (g : nat -> nat -> R) : result (nat -> nat -> R) :=
  match tr with
  | [] => Ok g
  | (k1, P) :: t => bind (cut_band nb slope b k1 P g) (cut_bands nb slope (S b) t)
  end.
(** L191-202: squared gains, linear phase, impulse response and window *)
Definition band_taps (N : nat) (fs : R) (g : nat -> R) : list R :=
  let time := irfft (mk (N / 2 + 1) (fun k =>
    cmul (rc (g k * g k)) (cexp (0, - (2 * PI) * (INR k * fs / INR N) * (INR N / 2 / fs))))) in
  mk (length time) (fun t => get time t * get (hann (length time)) t).
(** L125-214: the numerators of the filters. The sampling rate is given; limits above zero and at least one band below half of it, otherwise the
    filter bank has no filters. *)
Definition reconstructing_bands (f0 f1 : R) (n : nat) (overlap : R) (slope : nat) (N : nat) (fs : Z) : result (list (list R)) :=
  if negb (existsb (Nat.eqb N) (map (fun j => 2 ^ j)%nat (seq 5 13))) then Err AssertionError else
  if Rlt_dec overlap 0 then Err ValueError else if Rlt_dec 1 overlap then Err ValueError else
  bind (fractional_octave_frequencies n f0 f1) (fun '(_, ex) =>
  let fm := filter (fun f => if Rlt_dec f (IZR fs / 2) then true else false) ex in
  bind (cut_bands (N / 2 + 1) slope 1 (tl (map (transition N (IZR fs) n overlap) fm)) (fun _ _ => 1)) (fun g =>
  Ok (mk (length fm) (fun b => band_taps N (IZR fs) (g b))))).
