(** Model of matched_biquad (filterbanks/filterbanks.py L535-633) for the peaking, lowpass, highpass and bandpass types. A square root of a negative number is nan:
    None. The shelving filters are not modelled. *)
From Coq Require Import List Arith ZArith Bool Reals.
From Verif Require Import Alg Spec M_arrays.
Import ListNotations.
Local Open Scope R_scope.

(** np.float64 ** 0.5 *)
Definition root (x : R) : option R := if Rlt_dec x 0 then None else Some (sqrt x).
Definition obind {X Y} (o : option X) (f : X -> option Y) : option Y := match o with Some x => f x | None => None end.
(** filterbanks/_filterbank.py L1491-1497: the coefficients a1 and a2 *)
Definition den (w q : R) : R * R :=
  let q := 1 / (2 * q) in
  ((if Rle_dec q 1 then - 2 * exp (- q * w) * cos (sqrt (1 - q ^ 2) * w) else - 2 * exp (- q * w) * cosh (sqrt (q ^ 2 - 1) * w)), exp (- 2 * q * w)).
(** L1500 *)
Definition big_a (w q : R) : R * R * R := let '(a1, a2) := den w q in ((1 + a1 + a2) ^ 2, (1 - a1 + a2) ^ 2, - 4 * a2).
(** L1501-1503 *)
Definition phi (w : R) : R * R * R := let s := sin (w / 2) ^ 2 in (1 - s, s, 4 * (1 - s) * s).
(** A @ phi *)
Definition dot (u v : R * R * R) : R := let '(a, b, c) := u in let '(x, y, z) := v in a * x + b * y + c * z.
(** L1504 *)
Definition coeffs_a (w q : R) : list R := let '(a1, a2) := den w q in [1; a1; a2].
(** 10 ** (g_db / 20) *)
Definition amp (g : R) : R := Rpower 10 (g / 20).
(** L1376-1391 *)
Definition lowpass (w g q : R) : option (list R * list R) :=
  let a := coeffs_a w q in
  let sum_a := nth 0 a 0 + nth 1 a 0 + nth 2 a 0 in
  let '(a0, a1, a2) := big_a w q in
  let '(p0, p1, p2) := phi w in
  let r1 := q ^ 2 * dot (a0, a1, a2) (p0, p1, p2) in
  let b1' := (r1 - a0 * p0) / p1 in
  obind (root b1') (fun r =>
  let b0 := 1 / 2 * (sum_a + r) in
  let b1 := sum_a - b0 in
  Some ([b0 * amp g; b1 * amp g; 0 * amp g], a)).
(** L1394-1403 *)
Definition highpass (w g q : R) : option (list R * list R) :=
  let '(p0, p1, p2) := phi w in
  obind (root (dot (big_a w q) (p0, p1, p2))) (fun r =>
  let b0 := r / 4 / p1 * q * amp g in
  Some ([b0; - 2 * b0; b0], coeffs_a w q)).
(** L1406-1420 *)
Definition bandpass (w g q : R) : option (list R * list R) :=
  let '(a0, a1, a2) := big_a w q in
  let '(p0, p1, p2) := phi w in
  let r1 := dot (a0, a1, a2) (p0, p1, p2) in
  let r2 := - a0 + a1 + 4 * (p0 - p1) * a2 in
  let b2' := (r1 - r2 * p1) / 4 / p1 ^ 2 in
  let b1' := r2 + 4 * (p1 - p0) * b2' in
  obind (root b1') (fun r =>
  let b1 := - (1 / 2) * r in
  obind (root (b2' + b1 ^ 2)) (fun r' =>
  let b0 := 1 / 2 * (r' - b1) in
  let b2 := - b0 - b1 in
  Some ([b0 * amp g; b1 * amp g; b2 * amp g], coeffs_a w q))).
(** L1356-1373; [q] is already multiplied by the factor *)
Definition peaking (w g q : R) : option (list R * list R) :=
  let '(a0, a1, a2) := big_a w q in
  let '(p0, p1, p2) := phi w in
  let gain := amp g in
  let r1 := gain ^ 2 * dot (a0, a1, a2) (p0, p1, p2) in
  let r2 := gain ^ 2 * (- a0 + a1 + 4 * (p0 - p1) * a2) in
  let b2' := (r1 - r2 * p1 - a0) / (4 * p1 ^ 2) in
  let b1' := r2 + a0 + 4 * (p1 - p0) * b2' in
  obind (root a0) (fun s0 => obind (root b1') (fun s1 =>
  let v := 1 / 2 * (s0 + s1) in
  obind (root (v ^ 2 + b2')) (fun s =>
  let b0 := 1 / 2 * (v + s) in
  Some ([b0; 1 / 2 * (s0 - s1); - b2' / (4 * b0)], coeffs_a w q)))).
(** L1350-1358: q_factor *)
Definition scaled_q (g q : R) (factor : option R) : result R :=
  let k := match factor with None => Rmax (Rabs (868 / 10000 * g + 1264 / 1000)) (55 / 100) | Some k => k end in
  if Rlt_dec 0 k then Ok (q * k) else Err AssertionError.
Inductive eq_type := Peaking | Lowpass | Highpass | Bandpass.
(** filterbanks/filterbanks.py L608-633; both bandpass types are the same *)
Definition matched_biquad (t : eq_type) (f g q : R) (fs : Z) (factor : option R) : result (option (list R * list R)) :=
  if Rlt_dec 0 f then if Rlt_dec f (IZR fs / 2) then if Rlt_dec 0 q then
    let w := 2 * PI * f / IZR fs in
    match t with
    | Peaking => bind (scaled_q g q factor) (fun q => Ok (peaking w g q))
    | Lowpass => Ok (lowpass w g q)
    | Highpass => Ok (highpass w g q)
    | Bandpass => Ok (bandpass w g q)
    end
  else Err AssertionError else Err AssertionError else Err AssertionError.
