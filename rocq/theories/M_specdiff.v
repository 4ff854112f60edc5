(** Model of spectral_difference (standard/other.py L408-482) on two Spectrum objects (a Signal is first turned into a magnitude spectrum with
    Spectrum.from_signal, or into a complex one). octave_fraction_smoothing = 0. *)
From Coq Require Import List Arith ZArith Bool Reals.
From Verif Require Import Alg Spec M_arrays M_signal M_level M_spectrum.
Import ListNotations.
Local Open Scope R_scope.

Definition isz (v : R) : bool := if Req_EM_T v 0 then true else false.
(** data / den, entry by entry *)
Definition quotient (d : list (list cplx)) (den : list (list R)) : list (list cplx) :=
  map (fun p => map (fun q => cscale (/ snd q) (fst q)) (combine (fst p) (snd p))) (combine d den).
(** spectral_data /= den followed by the setter (classes/spectrum.py L254-269). Dividing by zero gives inf, or nan for 0/0. The setter refuses nan
    in a magnitude spectrum, because nan >= 0 is false. None: some entry is inf or nan and the code carries on with it. *)
Definition divide_by (s : spectrum) (den : list (list R)) : result (option spectrum) :=
  if existsb (existsb isz) den then
    if sp_mag s && existsb (fun p : list cplx * list R => existsb (fun q : cplx * R => isz (fst (fst q)) && isz (snd q)) (combine (fst p) (snd p))) (combine (sp_d s) den)
    then Err AssertionError else Ok None
  else Ok (Some (with_d s (sp_mag s) (quotient (sp_d s) den))).
(** L458-460, one input *)
Definition energy_normalize (s : spectrum) : result (option spectrum) :=
  bind (get_energy s None None) (fun es => divide_by s (map (fun e => repeat (sqrt e) (length (sp_f s))) es)).
(** np.max of a column *)
Definition vmax (col : list R) : R := match col with [] => 0 | a :: t => fold_left Rmax t a end.
(** L474-476 *)
Definition limit (dyn : option R) (col : list R) : list R :=
  match dyn with None => col | Some dr => map (fun v => Rmax v (vmax col * from_db true (- Rabs dr))) col end.
(** L440-479 with complex = False. None: see divide_by; what becomes of inf and nan after the energy normalization is not modelled. *)
Definition spectral_difference (s1 s2 : spectrum) (norm : bool) (dyn : option R) : result (option spectrum) :=
  if negb (length (sp_d s1) =? length (sp_d s2))%nat then Err AssertionError else
  bind (if norm then energy_normalize s1 else Ok (Some s1)) (fun o1 =>
  bind (if norm then energy_normalize s2 else Ok (Some s2)) (fun o2 =>
  match o1, o2 with
  | Some a, Some b =>
      match set_interp b DPower ZeroPad with
      | (_, Err e) => Err e
      | (b, Ok _) => bind (get_interp b (sp_f a) OMagnitude) (fun m => divide_by a (map (limit dyn) (map (map fst) m)))
      end
  | _, _ => Ok None
  end)).

(** numpy orders complex numbers by real part, then by imaginary part; np.max and np.clip use this order *)
Definition cmax (a b : cplx) : cplx :=
  if Rlt_dec (fst a) (fst b) then b else if Rlt_dec (fst b) (fst a) then a else if Rlt_dec (snd a) (snd b) then b else a.
Definition cvmax (col : list cplx) : cplx := match col with [] => c0 | a :: t => fold_left cmax t a end.
Definition climit (dyn : option R) (col : list cplx) : list cplx :=
  match dyn with None => col | Some dr => map (fun v => cmax v (cscale (from_db true (- Rabs dr)) (cvmax col))) col end.
Definition cdiv (a b : cplx) : cplx := ((fst a * fst b + snd a * snd b) / cabs_sq b, (snd a * fst b - fst a * snd b) / cabs_sq b).
(** L440-479 with complex = True and energy_normalization = False, for two complex spectra with the same frequencies: there the interpolation of
    magnitude and phase gives the stored values. None: a division by zero. *)
Definition spectral_difference_complex (s1 s2 : spectrum) (dyn : option R) : result (option spectrum) :=
  if negb (length (sp_d s1) =? length (sp_d s2))%nat then Err AssertionError else
  if sp_mag s1 || sp_mag s2 then Err AssertionError else
  let den := map (climit dyn) (sp_d s2) in
  if existsb (existsb (fun z : cplx => isz (fst z) && isz (snd z))) den then Ok None else
  Ok (Some (with_d s1 false (map (fun p => map (fun q => cdiv (fst q) (snd q)) (combine (fst p) (snd p))) (combine (sp_d s1) den)))).
