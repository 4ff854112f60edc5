(** Model of append_spectra (standard/appending.py L160-204). *)
From Coq Require Import List Arith Bool Reals.
From Verif Require Import Alg Spec M_arrays M_signal M_spectrum M_coeffs.
Import ListNotations.
Local Open Scope R_scope.

(** standard/appending.py L160-204. The channels of every spectrum are interpolated in turn to the frequencies of the first; the first error ends the call.
    The interpolation is that of [get_interp] (classes/spectrum.py L544-684), Linear scheme and without the domain MagnitudePhase. *)
Definition append_spectra (complex_if_available : bool) (spectra : list spectrum) : result spectrum :=
  match spectra with
  | [] | [_] => Err AssertionError
  | s0 :: _ =>
      let ca := complex_if_available && negb (sp_mag s0) in
      if ca && existsb sp_mag spectra then Err AssertionError else
      bind (results (map (fun s => get_interp s (sp_f s0) (if ca then OComplex else OMagnitude)) spectra)) (fun ds => new_spectrum (sp_f s0) (negb ca) (concat ds))
  end.
