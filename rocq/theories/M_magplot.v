(** Model of _get_normalized_spectrum (helpers/spectrum_utilities.py L60-226, without the phase), the data behind the magnitude plots of Signal, Spectrum and
    FilterBank. Magnitudes are real numbers, one list per channel; a dB value is None when it is infinite or nan. *)
From Coq Require Import List Arith ZArith Bool Reals.
From Verif Require Import Alg Spec M_arrays M_signal M_level M_latency M_distances M_smoothing.
Import ListNotations.
Local Open Scope R_scope.

(** standard/enums.py L440-459 *)
Inductive mnorm := NoNorm | OneKhz | OneKhzFirst | MaxN | MaxFirst | EnergyN | EnergyFirst.
(** helpers/gain_and_level.py L158-200 to_db of a 2-D array with a dynamic range: one clipping value for all channels *)
Definition to_db_mat (amp : bool) (d : R) (m : list (list R)) : list (list (option R)) :=
  let lo := vpeak (concat m) * Rpower 10 (- Rabs d / db_factor amp) in map (map (fun v => to_db1 amp (Rmax (Rabs v) lo))) m.
Definition osub (a b : option R) : option R := match a, b with Some u, Some v => Some (u - v) | _, _ => None end.
Definition onth (i : nat) (l : list (option R)) : option R := nth i l None.
Definition omax (a b : option R) : option R := match a, b with Some u, Some v => Some (Rmax u v) | Some u, None => Some u | None, b => b end.
(** L29-57 _get_exact_gain_1khz, f ascending. An index past the end raises. *)
Definition gain_1khz (f : list R) (col : list (option R)) : result (option R) :=
  match f with
  | [] => Err ValueError
  | f0 :: _ =>
      if (if Rlt_dec f0 1000 then true else false) && (if Rle_dec 1000 (last f 0) then true else false) then
        let i := nearest 1000 f in
        let i := if Rlt_dec 1000 (nth i f 0) then (i - 1)%nat else i in
        if (S i <? length f)%nat then
          Ok (match onth i col, onth (S i) col with
              | Some a, Some b => Some ((b - a) / (nth (S i) f 0 - nth i f 0) * (1000 - nth i f 0) + a)
              | _, _ => None end)
        else Err IndexError
      else Err AssertionError
  end.
Definition mean (x : list R) : R := fold_right Rplus 0 x / INR (length x).
(** L123-134 *)
Definition scale_factor (amp calibrated : bool) (nrm : mnorm) : R :=
  match calibrated, nrm with true, NoNorm => if amp then 20 / 1000000 else 4 / 10000000000 | _, _ => 1 end.
(** L170-209: the values subtracted from each of the channels; [m] the magnitudes, [db] their levels. In the last case with power data the mean is
    taken over all channels and keeps its two axes; subtracting it in place fails because of the third axis added in L211. *)
Definition references (f : list R) (amp : bool) (nrm : mnorm) (m : list (list R)) (db : list (list (option R))) : result (list (option R)) :=
  let all v := repeat v (length m) in
  let energy col := to_db1 false (Rmax (Rabs (mean (if amp then map (fun v => v ^ 2) col else col))) smallest_normal) in
  match nrm with
  | OneKhz => seq_result (map (gain_1khz f) db)
  | OneKhzFirst => match db with [] => Err IndexError | c :: _ => bind (gain_1khz f c) (fun v => Ok (all v)) end
  | MaxN => Ok (map (fun col => fold_right omax None col) db)
  | MaxFirst => match db with [] => Err IndexError | c :: _ => Ok (all (fold_right omax None c)) end
  | EnergyN => Ok (map energy m)
  | EnergyFirst => match m with [] => Err IndexError | c :: _ => if amp then Ok (all (energy c)) else Err ValueError end
  | NoNorm => Ok (all (Some 0))
  end.
(** L136-149: the range, ends included *)
Definition band (f : list R) (range : option (R * R)) : nat * nat :=
  match range with None => (0%nat, length f) | Some (a, b) => (nearest (Rmin a b) f, S (nearest (Rmax a b) f)) end.
Definition cut {T} (b : nat * nat) (l : list T) : list T := firstn (snd b - fst b) (skipn (fst b) l).
(** L60-226; [fractions] None is smoothing = 0. Smoothing is applied to amplitudes only (L155-166: the branch for power data cannot be reached). *)
Definition normalized_spectrum (f : list R) (data : list (list R)) (amp : bool) (range : option (R * R)) (nrm : mnorm) (fractions : option R) (calibrated : bool)
  : result (list R * list (list (option R))) :=
  let b := band f range in
  let m := map (fun col => map Rabs (cut b col)) data in
  let f := cut b f in
  bind (match fractions with Some q => if amp then seq_result (map (fun col => fst (smooth None q (Some hann) None false col)) m) else Ok m | None => Ok m end) (fun m =>
  let db := to_db_mat amp 500 (map (map (fun v => v / scale_factor amp calibrated nrm)) m) in
  bind (references f amp nrm m db) (fun refs =>
  Ok (f, map (fun p => map (fun v => osub v (snd p)) (fst p)) (combine db refs)))).
