(** Models of the frequency vectors and small array tools of tools.py and helpers. Numbers are real numbers. *)
From Coq Require Import List Arith ZArith Bool Reals.
From Verif Require Import Alg Spec M_delay.
Import ListNotations.
Local Open Scope R_scope.

Definition log2 (x : R) : R := ln x / ln 2.
(** np.ceil *)
Definition ceil (x : R) : Z := (- Int_part (- x))%Z.
(** np.arange(a, b, step): a + i * step for i below (b - a) / step *)
Definition arange (a b step : R) : list R := map (fun i => a + INR i * step) (seq 0 (Z.to_nat (ceil ((b - a) / step)))).

(** tools.py L42-65 log_frequency_vector with an upper limit above zero *)
Definition log_frequency_vector (f0 f1 : R) (n : Z) : result (list R) :=
  if (if Rlt_dec 0 f0 then false else true) then Err AssertionError else
  if (n =? 0)%Z then Err ZeroDivisionError else
  let n_octave := log2 (f1 / f0) in
  Ok (map (fun e => f0 * Rpower 2 e) (arange 0 n_octave (1 / IZR n))).

(** standard/_standard_backend.py L157-196: nominal frequencies in tenths of a Hertz *)
Definition nominal_octaves : list Z := [315; 630; 1250; 2500; 5000; 10000; 20000; 40000; 80000; 160000]%Z.
Definition nominal_thirds : list Z :=
  [250; 315; 400; 500; 630; 800; 1000; 1250; 1600; 2000; 2500; 3150; 4000; 5000; 6300; 8000; 10000; 12500; 16000; 20000; 25000; 31500;
   40000; 50000; 63000; 80000; 100000; 125000; 160000; 200000]%Z.
Definition octave_ratio : R := Rpower 10 (3 / 10).
(** L198-222 for one or three bands per octave: [~iseven] (a numpy bool) is the negation, both numbers are odd *)
Definition iec_index (n : nat) (nominal : R) : Z := np_round (INR n * ln (nominal / 1000) / ln octave_ratio).
Definition iec_exact (n : nat) (nominal : R) : R := 1000 * Rpower octave_ratio (IZR (iec_index n nominal) / INR n).
(** standard/_standard_backend.py L225-256 _exact_center_frequencies_fractional_octaves *)
Definition exact_centers (n : nat) (f0 f1 : R) : list R :=
  let nmax := np_round (INR n * log2 (f1 / 1000)) in
  let nmin := np_round (INR n * log2 (1000 / f0)) in
  map (fun i => 1000 * Rpower 2 (i / INR n)) (arange (IZR (- nmin)) (IZR (nmax + 1)) 1).
(** tools.py L186-258 fractional_octave_frequencies with two limits above zero and at least one band per octave:
    nominal and exact centres *)
Definition inside_range (f0 f1 v : R) : bool := (if Rle_dec f0 v then true else false) && (if Rle_dec v f1 then true else false).
Definition fractional_octave_frequencies (n : nat) (f0 f1 : R) : result (list R * list R) :=
  if Rlt_dec f1 f0 then Err ValueError else
  match n with
  | 1%nat => let l := filter (inside_range f0 f1) (map (fun z => IZR z / 10) nominal_octaves) in Ok (l, map (iec_exact 1) l)
  | 3%nat => let l := filter (inside_range f0 f1) (map (fun z => IZR z / 10) nominal_thirds) in Ok (l, map (iec_exact 3) l)
  | _ => Ok ([], exact_centers n f0 f1)
  end.
(** tools.py L251-255: lower and upper cutoff frequency of a centre *)
Definition lower_cutoff (n : nat) (c : R) : R := c * Rpower octave_ratio (-1 / 2 / INR n).
Definition upper_cutoff (n : nat) (c : R) : R := c * Rpower octave_ratio (1 / 2 / INR n).

(** tools.py L305-336 erb_frequencies *)
Definition sgn (x : R) : R := if Rlt_dec x 0 then -1 else if Rlt_dec 0 x then 1 else 0.
Definition hz_to_erb (f : R) : R := 92645 / 10000 * sgn f * ln (1 + Rabs f * (437 / 100000)).
Definition erb_to_hz (e : R) : R := 1 / (437 / 100000) * sgn e * (exp (Rabs e / (92645 / 10000)) - 1).
Definition erb_frequencies (f0 f1 resolution reference : R) : result (list R) :=
  let lo := if Rlt_dec f1 f0 then f1 else f0 in
  let hi := if Rlt_dec f1 f0 then f0 else f1 in
  if Rle_dec resolution 0 then Err ValueError else
  let ref := hz_to_erb reference in
  let n0 := Int_part ((ref - hz_to_erb lo) / resolution) in
  let n1 := Int_part ((hz_to_erb hi - ref) / resolution) in
  Ok (map (fun z => erb_to_hz (IZR z * resolution + ref)) (map (fun i => (- n0 + Z.of_nat i)%Z) (seq 0 (Z.to_nat (n1 + 1 + n0))))).

(** helpers/spectrum_utilities.py L11-26 _wrap_phase, one value: % of numpy is the remainder of the floor *)
Definition fmod (x m : R) : R := x - IZR (Int_part (x / m)) * m.
Definition wrap_phase (p : R) : R := fmod (p + PI) (2 * PI) - PI.

(** helpers/other.py L95-128 _get_next_power_2. int() of the exponent truncates towards zero. A negative exponent is a numpy integer,
    for which 2 ** p raises ValueError. *)
Inductive pow_mode := Closest | FloorMode | CeilMode.
Definition truncate (x : R) : Z := if Rlt_dec x 0 then ceil x else Int_part x.
Definition next_power_2 (x : R) (m : pow_mode) : result Z :=
  if (if Rlt_dec 0 x then false else true) then Err AssertionError else
  let p := log2 x in
  let m := match m with Closest => if Rlt_dec (p - IZR (truncate p)) (1 / 2) then FloorMode else CeilMode | m => m end in
  let e := match m with CeilMode => ceil p | _ => Int_part p end in
  if (e <? 0)%Z then Err ValueError else Ok (2 ^ e)%Z.

(** tools.py L106-131 log_mean along a vector with at least two entries. Linear interpolation (scipy interp1d) between the knots 1 .. N *)
Definition polygon (x : list R) (k : R) : R :=
  let j := Nat.min (Z.to_nat (Int_part k)) (length x - 1) in
  nth (j - 1) x 0 + (k - INR j) * (nth j x 0 - nth (j - 1) x 0).
Definition log_mean (x : list R) : R :=
  let N := length x in
  fold_right Rplus 0 (map (fun l => polygon x (Rpower (INR N) (INR l / (INR N - 1)))) (seq 0 N)) / INR N.
