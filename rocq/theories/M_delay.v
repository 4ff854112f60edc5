(** Model of DigitalDelay (effects/effects.py) and of the musical rhythm helpers (effects/_effects.py). nan is None. *)
From Coq Require Import Ascii String List Arith Lia Reals Bool QArith Qreals.
From Verif Require Import Alg Spec M_dynamics.
Import ListNotations.
Local Open Scope R_scope.

(** np.round: to the nearest integer, ties to even. *)
Definition np_round (r : R) : Z :=
  let f := Int_part r in
  if Rlt_dec (r - IZR f) (1 / 2) then f else
  if Rlt_dec (1 / 2) (r - IZR f) then (f + 1)%Z else if Z.even f then f else (f + 1)%Z.
(** effects/effects.py L1455-1457 *)
Definition delay_samples (ms fs : R) : nat := Z.to_nat (np_round (ms * (1 / 1000) * fs)).
(** L1463: int of a non-negative number *)
Definition delay_padding (d : nat) (fb : R) : nat := Z.to_nat (Int_part (INR d * (1 + fb * 15))).
(** L1466-1469: the loop over the padded array, in place. *)
Definition delay_body (d : nat) (fb : R) (sat : R -> R) (td : list R) (i : nat) : list R :=
  upd td i (nth i td 0 + fb * sat (nth (i - d) td 0)).
Definition delay_loop (d : nat) (fb : R) (sat : R -> R) (td : list R) : list R :=
  fold_left (delay_body d fb sat) (seq d (length td - d)) td.
(** L1460-1469: before the peak restoration, one channel. *)
Definition delay_line (d : nat) (fb : R) (sat : R -> R) (x : list R) : list R :=
  delay_loop d fb sat (x ++ repeat 0 (delay_padding d fb)).
(** L109-121 _restore_peak_values: a silent result divides by zero; 0 times nan or inf is nan. *)
Definition restore_peak (p : R) (y : list R) : option (list R) :=
  if Req_EM_T (peak y) 0 then None else Some (map (fun v => v * (p / peak y)) y).
(** L1453-1473 _apply_this_effect, one channel; sampling-rate dependent part through delay_samples. *)
Definition digital_delay (d : nat) (fb : R) (sat : R -> R) (x : list R) : option (list R) :=
  restore_peak (peak x) (delay_line d fb sat x).

(** L1397-1412: the saturation; lower() is applied by the caller of this model (strings here are lower case). *)
Definition sat_digital (x : R) : R := x.
Definition sat_arctan (x : R) : R := 1 / 2 * atan (2 * x).
Inductive sat_arg := SatNone | SatStr (s : string) | SatFun (f : R -> R).
(** A callable has no lower(); any other string is called like a function. *)
Definition set_advanced (a : sat_arg) : result (R -> R) :=
  match a with
  | SatNone => Ok sat_digital
  | SatStr s => if string_dec s "digital" then Ok sat_digital else if string_dec s "arctan" then Ok sat_arctan else Err TypeError
  | SatFun _ => Err AttributeError
  end.
(** L1351-1378 set_parameters: None > 0 is a TypeError; the delay is stored before the feedback is checked. *)
Definition delay_state := (R * R)%type.
Definition delay_set (s : delay_state) (a : option R * option R) : delay_state * result unit :=
  match fst a with
  | None => (s, Err TypeError)
  | Some ms =>
      if Rlt_dec 0 ms then
        match snd a with
        | None => ((ms, snd s), Err TypeError)
        | Some fb => if Rlt_dec 0 fb then ((ms, fb), Ok tt) else ((ms, snd s), Err AssertionError)
        end
      else (s, Err AssertionError)
  end.

(** Python's [sub in s]. *)
Fixpoint contains (sub s : string) : bool :=
  prefix sub s || match s with EmptyString => false | String _ t => contains sub t end.
Local Open Scope string_scope.
Local Open Scope Q_scope.
(** effects/_effects.py L503-524 get_frequency_from_musical_rhythm; floats are exact rationals; a zero tempo divides by zero. *)
Definition note_factor (note : string) : Q :=
  let f := 0 in
  let f := if contains "quarter" note then 1 else f in
  let f := if contains "half" note then 2 else f in
  let f := if contains "whole" note then 4 else f in
  let f := if contains "eighth" note then 1 # 2 else f in
  let f := if contains "sixteenth" note then 1 # 4 else f in
  let f := if contains "32th" note then 1 # 8 else f in
  let f := if contains "quintuplet" note then 1 # 5 else f in
  let f := if contains "3" note then f * (2 # 3) else f in
  let f := if contains "dotted" note then f * (3 # 2) else f in
  f.
Definition rhythm_frequency (note : string) (bpm : Q) : result Q :=
  let f := note_factor note in
  if Qeq_bool f 0 then Err ValueError else if Qeq_bool bpm 0 then Err ZeroDivisionError else Ok (60 / bpm / f).
(** L527-551 *)
Definition rhythm_period (note : string) (bpm : Q) : result Q :=
  match rhythm_frequency note bpm with Ok f => Ok (1 / f) | Err e => Err e end.
