(** Model of interpolate_fr (helpers/spectrum_utilities.py L331-453) for one channel and linear interpolation. Values are real numbers; None: some value
    of the frequency response has no square root (nan). Splines and frequency vectors of fewer than two values are not modelled. *)
From Coq Require Import List Arith ZArith Bool Reals.
From Verif Require Import Alg Spec M_arrays M_signal M_level M_smoothing M_rirconv.
Import ListNotations.
Local Open Scope R_scope.

(** L417-429. Any mode that starts with db2 or ends with 2db is accepted; [Unknown] is one that does not. *)
Inductive fr_mode := NoMode | Power2Amplitude | Amplitude2Power | Db2 (amp : bool) | To2Db (amp : bool) | Unknown.
(** to_db with its default clipping (helpers/gain_and_level.py L190-200), one value *)
Definition level (amp : bool) (v : R) : R := db_factor amp * (ln (Rmax (Rabs v) smallest_normal) / ln 10).
(** L419-426: one value *)
Definition convert (m : fr_mode) (v : R) : option R :=
  match m with
  | NoMode | Unknown => Some v
  | Power2Amplitude => if Rlt_dec v 0 then None else Some (sqrt v)
  | Amplitude2Power => Some (v ^ 2)
  | Db2 amp => Some (from_db amp v)
  | To2Db amp => Some (level amp v)
  end.
(** L443-451: back *)
Definition convert_back (m : fr_mode) (v : R) : option R :=
  match m with
  | NoMode | Unknown => Some v
  | Power2Amplitude => Some (v ^ 2)
  | Amplitude2Power => if Rlt_dec v 0 then None else Some (sqrt v)
  | Db2 amp => Some (level amp v)
  | To2Db amp => Some (from_db amp v)
  end.
(** L413, L427: values outside *)
Definition fill (m : fr_mode) (y : list R) : R * R := match m with To2Db _ => (nth 0 y 0, nth (length y - 1) y 0) | _ => (0, 0) end.
(** L331-453 *)
Definition interpolate_fr (m : fr_mode) (f v : list R) (target : list R) : result (option (list R)) :=
  match m with
  | Unknown => Err ValueError
  | _ =>
      Ok match all_some (map (convert m) v) with
         | None => None
         | Some y =>
             let '(l, r) := fill m y in
             all_some (map (fun t => convert_back m (if Rlt_dec t (nth 0 f 0) then l else if Rlt_dec (nth (length f - 1) f 0) t then r else interp f y t)) target)
         end
  end.
