(** Model of time smoothing (helpers/smoothing.py) and of the compressor (effects/_effects.py, effects/effects.py).
    nan is modelled by None. Arrays are lists of columns. *)
From Coq Require Import List Arith Lia Reals Bool.
From Verif Require Import Alg Spec.
Import ListNotations.
Local Open Scope R_scope.

(** helpers/smoothing.py L132-166 _get_smoothing_factor_ema with the default accuracy. A zero time divides a numpy
    value by zero: exp(-inf) = 0. *)
Definition ema_factor (t fs : R) : R := if Req_EM_T t 0 then 1 else 1 - exp (ln (1 - 95 / 100) / t / fs).
(** L241-249: one sample of the loop with two factors. *)
Definition smooth_step (fa fd y x : R) : R := let f := if Rlt_dec y x then fa else fd in f * x + (1 - f) * y.
Fixpoint smooth_from (fa fd y : R) (x : list R) : list R :=
  match x with [] => [] | v :: t => let z := smooth_step fa fd y v in z :: smooth_from fa fd z t end.
(** L216-229: lfilter with b = [f], a = [1, -(1-f)] and the state of the constant x[0]: lfilter_zi gives 1 - f (steady state
    of the unit step), so that y[n] = f x[n] + z, z' = (1-f) y[n] (direct form II transposed, one state). *)
Fixpoint smooth_lfilter (f z : R) (x : list R) : list R :=
  match x with [] => [] | v :: t => let y := f * v + z in y :: smooth_lfilter f ((1 - f) * y) t end.
Definition smooth_one (f : R) (x : list R) : list R :=
  match x with [] => [] | v :: _ => smooth_lfilter f ((1 - f) * v) x end.
Definition smooth_two (fa fd : R) (x : list R) : list R :=
  match x with [] => [] | v :: t => v :: smooth_from fa fd v t end.
(** L169-257 _time_smoothing on one series; arrays are smoothed series by series along their longer axis (not modelled). *)
Definition time_smoothing (x : list R) (fs ta : R) (td : option R) : result (list R) :=
  if Rlt_dec ta 0 then Err AssertionError else
  let fa := ema_factor ta fs in
  match td with
  | None => Ok (smooth_one fa x)
  | Some td =>
      if Rlt_dec td 0 then Err AssertionError else
      if Req_EM_T ta 0 then (if Req_EM_T td ta then Err AssertionError else Ok (smooth_two fa (ema_factor td fs) x))
      else Ok (smooth_two fa (ema_factor td fs) x)
  end.

(** effects/_effects.py L181-193 and L207-217: the array branch of the curve, reached with numpy values
    (the branch for Python floats, L173-179 and L199-205, is called from nowhere and not modelled).
    Dividing by a zero knee is 0/0 = nan: only possible exactly at the threshold. *)
Definition knee (down : bool) (T r W x : R) : option R :=
  if Rlt_dec (x - T) (- W / 2) then Some (if down then x else T + (x - T) / r) else
  if Rle_dec (Rabs (x - T)) (W / 2) then
    if Req_EM_T W 0 then None else
    Some (if down then x + (1 / r - 1) * (x - T + W / 2) ^ 2 / 2 / W else x - (1 / r - 1) * (x - T - W / 2) ^ 2 / 2 / W)
  else Some (if down then T + (x - T) / r else x).
Definition pow10 (x : R) : R := Rpower 10 x.
(** L131 with from_db(-300, False) *)
Definition level_db (x : R) : R := 10 * (ln (Rmax (x ^ 2) (pow10 (-300 / 10))) / ln 10).
Record comp := mkComp { c_T : R; c_ratio : R; c_knee : R; c_att : R; c_rel : R; c_mix : R; c_down : bool }.
(** L130-143; the RMS detector L123-128 is computed and not used. *)
Definition comp_gain (c : comp) (gain : option R) (x : R) : option R :=
  match knee (c_down c) (c_T c) (c_ratio c) (c_knee c) (level_db x), gain with
  | Some k, Some g =>
      let target := pow10 ((k - level_db x) / 20) in
      let coeff := if Rlt_dec g target then ema_factor (c_att c) 1 else ema_factor (c_rel c) 1 in
      Some (coeff * target + (1 - coeff) * g)
  | _, _ => None
  end.
Fixpoint comp_loop (c : comp) (gain : option R) (x : list R) : list (option R) :=
  match x with
  | [] => []
  | v :: t => let g := comp_gain c gain v in option_map (fun g => v * g) g :: comp_loop c g t
  end.
(** L60-148 _compressor, one channel. c_mix (L100-101) has no further use in the code. *)
Definition compressor (c : comp) (x : list R) : list (option R) := comp_loop c (Some 1) x.

(** effects/effects.py L974-1014 Compressor._apply_this_effect, one channel; attack and release in samples (L985-986 int of the time).
    L104-125: peak and RMS values; _rms (helpers/gain_and_level.py L7-25) is the standard deviation. *)
Definition peak (x : list R) : R := fold_right (fun v m => Rmax (Rabs v) m) 0 x.
Definition mean (x : list R) : R := fold_right Rplus 0 x / INR (length x).
Definition std (x : list R) : R := sqrt (mean (map (fun v => (v - mean x) ^ 2) x)).
Record comp_cfg := mkCfg { k_comp : comp; k_pre : R; k_post : R; k_makeup : bool; k_rel : bool }.
Definition all_some (l : list (option R)) : option (list R) :=
  fold_right (fun o acc => match o, acc with Some v, Some t => Some (v :: t) | _, _ => None end) (Some []) l.
Definition div_opt (a b : R) : option R := if Req_EM_T b 0 then None else Some (a / b).
(** The result is None as soon as one sample of the channel is nan or infinite. k_post is never read (L1012 reads the pre gain). *)
Definition comp_effect (k : comp_cfg) (x : list R) : option (list R) :=
  let x1 := map (fun v => v * pow10 (k_pre k / 20)) x in
  let p := peak x1 in
  match (if k_rel k then all_some (map (fun v => div_opt v p) x1) else Some x1) with
  | None => None
  | Some x2 =>
      match all_some (compressor (k_comp k) x2) with
      | None => None
      | Some x3 =>
          let x4 := if k_rel k then map (fun v => v * p) x3 else x3 in
          match (if k_makeup k then option_map (fun g => map (fun v => v * g) x4) (div_opt (std x1) (std x4)) else Some x4) with
          | None => None
          | Some x5 => Some (map (fun v => v * pow10 (k_pre k / 20)) x5)
          end
      end
  end.
