(** Model of the reverberation time: energy decay curve, regression and its modes (room_acoustics/_room_acoustics.py).
    Samples are real numbers; None stands for nan or an infinite value. Sampling rates are natural numbers. The stop index of
    the automatic trimming (_trim_ir) is an argument. *)
From Coq Require Import List Arith Lia ZArith Bool Reals.
From Verif Require Import Alg Spec Dft M_arrays M_signal M_latency M_dynamics M_level M_room M_beam M_specdiff.
Import ListNotations.
Local Open Scope R_scope.

(** ** Linear regression *)
Definition rtotal (x : list R) : R := sum (HA := CRing_R) (length x) (get (HA := CRing_R) x).
Definition average (x : list R) : R := rtotal x / INR (length x).
(** sums of products of the deviations from the averages *)
Definition cov (x y : list R) : R :=
  sum (HA := CRing_R) (length x) (fun i => (get (HA := CRing_R) x i - average x) * (get (HA := CRing_R) y i - average y)).
(** np.polyfit(x, y, 1): slope and constant of the least squares line (closed form for at least two different abscissae).
    An empty vector raises TypeError; one single point gives a solution of minimal norm, which is the argument one. *)
Definition polyfit1 (one : R -> R -> R * R) (x y : list R) : result (R * R) :=
  match x with
  | [] => Err TypeError
  | [a] => Ok (one a (get (HA := CRing_R) y 0))
  | _ => let s := cov x y / cov x x in Ok (s, average y - s * average x)
  end.
(** scipy.stats.pearsonr(x, y)[0]: fewer than two samples raise ValueError, constant input gives nan *)
Definition pearsonr (x y : list R) : result (option R) :=
  if (length x <? 2)%nat then Err ValueError else
  Ok (if Req_EM_T (cov x x) 0 then None else if Req_EM_T (cov y y) 0 then None else Some (cov x y / (sqrt (cov x x) * sqrt (cov y y)))).
(** np.searchsorted(a, v), side left: numpy's bisection, with the length as fuel *)
Fixpoint bisect (fuel : nat) (a : list R) (v : R) (lo hi : nat) : nat :=
  match fuel with
  | O => lo
  | S f => if (lo <? hi)%nat then
             let mid := (lo + (hi - lo) / 2)%nat in
             if Rlt_dec (get (HA := CRing_R) a mid) v then bisect f a v (S mid) hi else bisect f a v lo mid
           else lo
  end.
Definition searchsorted (a : list R) (v : R) : nat := bisect (S (length a)) a v 0 (length a).
(** a[i1:i2] *)
Definition slice {T} (i1 i2 : nat) (l : list T) : list T := firstn (i2 - i1) (skipn i1 l).
(** _room_acoustics.py L1127-1129 (and L1084-1088): the samples from start_value until end_value *)
Definition cut_index (edc : list R) (v : R) : nat := (length edc - searchsorted (rev edc) v)%nat.
(** _room_acoustics.py L1097-1137 _get_polynomial_coeffs_from_edc *)
Definition coeffs (one : R -> R -> R * R) (t edc : list R) (sv ev : R) : result ((R * R) * option R) :=
  let i1 := cut_index edc sv in
  let i2 := cut_index edc ev in
  bind (polyfit1 one (slice i1 i2 t) (slice i1 i2 edc)) (fun p =>
  bind (pearsonr (slice i1 i2 t) (slice i1 i2 edc)) (fun r => Ok (p, r))).

(** ** Reverberation time from a decay curve *)
Inductive rmode := Adaptive | T20 | T30 | T60 | EDT.
(** np.argmin: the first nan, if there is one *)
Fixpoint first_none {T} (l : list (option T)) : option nat :=
  match l with [] => None | None :: _ => Some O | Some _ :: t => option_map S (first_none t) end.
Definition argmin_nan (l : list (option R)) : nat :=
  match first_none l with Some i => i | None => argmin (map (fun o => match o with Some v => v | None => 0 end) l) end.
(** _room_acoustics.py L1041: np.arange(start - 20, start - 60, -1) *)
Definition end_steps (start : R) : list R := mk 40 (fun k => start - 20 - INR k).
(** _room_acoustics.py L1055-1094 _get_best_linear_fit_for_edc *)
Definition best_fit (t edc : list R) (start : R) (steps : list R) : result (R * option R) :=
  let i1 := cut_index edc start in
  bind (seq_result (map (fun st => let i2 := cut_index edc st in pearsonr (slice i1 i2 t) (slice i1 i2 edc)) steps)) (fun rs =>
  let k := argmin_nan rs in Ok (get (HA := CRing_R) steps k, nth k rs None)).
(** 60 / np.abs(p[0]): inf (None) for a zero slope *)
Definition decay_time (factor slope : R) : option R := if Req_EM_T slope 0 then None else Some (factor / Rabs slope).
(** _room_acoustics.py L999-1052 _obtain_optimal_reverb_time. A zero slope of one of the two first fits makes the comparison one
    of infinities; it is modelled as no result (None). The warning is not modelled. *)
Definition optimal (one : R -> R -> R * R) (t edc : list R) : result (option R * option R) :=
  bind (coeffs one t edc 0 (-10)) (fun e =>
  bind (coeffs one t edc (-5) (-35)) (fun h =>
  let '(es, ei) := fst e in
  let '(hs, hi) := fst h in
  if Req_EM_T es 0 then Ok (None, None) else if Req_EM_T hs 0 then Ok (None, None) else
  let start := if Rlt_dec (-6 * 10 / es * 10) (-60 / hs) then es * ((ei - hi) / (hs - es)) + ei else -5 in
  bind (best_fit t edc start (end_steps start)) (fun b =>
  bind (coeffs one t edc start (fst b)) (fun c => Ok (decay_time 60 (fst (fst c)), snd b))))).
(** _room_acoustics.py L60-84: the part of _reverb after the decay curve; time_vector = np.linspace(0, len(edc) / fs, len(edc)) *)
Definition reverb_of_curve (one : R -> R -> R * R) (fs : nat) (mode : rmode) (edc : list R) : result (option R * option R) :=
  let t := time_vector (length edc) (INR fs) in
  let fixed sv ev factor := bind (coeffs one t edc sv ev) (fun c => Ok (decay_time factor (fst (fst c)), snd c)) in
  match mode with
  | Adaptive => optimal one t edc
  | T20 => fixed (-5) (-25) 60
  | T30 => fixed (-5) (-35) 60
  | T60 => fixed (-5) (-65) 60
  | EDT => fixed 0 (-10) 10
  end.

(** ** Energy decay curve *)
(** to_db(v, False) with the default smallest value *)
Definition db_power (v : R) : R := 10 * (ln (Rmax (Rabs v) smallest_normal) / ln 10).
(** np.var: nan for an empty array *)
Definition variance (x : list R) : option R := match x with [] => None | _ => Some (cov x x / INR (length x)) end.
(** the first index of np.where(...)[0] *)
Fixpoint first_index {T} (P : T -> bool) (l : list T) : option nat :=
  match l with [] => None | v :: t => if P v then Some O else option_map S (first_index P t) end.
Definition gtb (a b : R) : bool := if Rlt_dec b a then true else false.
Definition leb (a b : R) : bool := if Rle_dec a b then true else false.
(** L1184-1188: the first smoothed level below half of the dynamic range above the minimum. No noise power (nan), or neither
    noise nor signal (0/0), compares false everywhere; no noise alone is an infinite dynamic range. *)
Definition fit_start (noise : option R) (p sdb : list R) : option nat :=
  match noise with
  | None => None
  | Some nz =>
      if Req_EM_T nz 0 then if Req_EM_T (vmax p) 0 then None else Some O
      else let lo := - vmax (map Ropp sdb) in first_index (fun v => gtb (db_power (vmax p / nz) / 2 + lo) v) sdb
  end.
(** L1191-1198 and L1204: whether the corrections are avoided, and the compensation energy. np.polyfit returns the slope first:
    the code takes the constant p[1] for the slope and the slope p[0] for the level. Without noise A is -inf and the energy 0;
    A = 0 makes the energy infinite and the curve negative, so that the corrections are avoided. *)
Definition compensation (fs : nat) (nz : R) (fit : R * R) : bool * R :=
  let '(p0, p1) := fit in
  let b := from_db false p0 in
  let t1 := (db_power nz - p0) / p1 in
  let av := (leb 0 p1 || leb t1 0)%bool in
  if Req_EM_T nz 0 then (av, 0) else
  let a := ln (nz / b) / t1 in
  if Req_EM_T a 0 then (true, 0) else (av, - b / a * exp (a * t1) * INR fs).
(** np.cumsum *)
Definition cumsum (p : list R) (i : nat) : R := sum (HA := CRing_R) (S i) (get (HA := CRing_R) p).
(** L1200-1222: noise removal, backward integration and, where an estimation went wrong, the curve without corrections *)
Definition integrate (fs : nat) (nz : R) (av : bool) (e : R) (p : list R) : list R :=
  let q := map (fun v => v - nz) p in
  let edc := mk (length q) (fun i => rtotal q + e - cumsum q i) in
  let neg := first_index (fun v => leb v 0) edc in
  let av' := match neg with Some i => (av || (i <=? (30 * fs + 500) / 1000)%nat)%bool | None => av end in
  if av' then mk (length p * 95 / 100) (fun i => rtotal p - cumsum p i)
  else match neg with Some i => firstn i edc | None => edc end.
(** L1224-1225: levels relative to the first; an empty curve raises IndexError *)
Definition to_levels (edc : list R) : result (list R) :=
  match edc with [] => Err IndexError | v :: _ => Ok (map (fun w => db_power w - db_power v) edc) end.
(** L1140-1225 _compute_energy_decay_curve. trim is the stop index found by _trim_ir if trimming is asked for. *)
Definition decay_curve (one : R -> R -> R * R) (fs : nat) (trim : option nat) (x : list R) : result (list R) :=
  let stop := stop_index trim x in
  bind (find_ir_start1 (-20) x) (fun start =>
  let noise := if (stop =? length x)%nat then variance (firstn start x) else variance (skipn stop x) in
  let p := map (fun v => v * v) (slice start stop x) in
  match p with
  | [] => Err ValueError
  | _ =>
    bind (time_smoothing p (INR fs) (20 / 1000) None) (fun sm =>
    let sdb := map db_power sm in
    match fit_start noise p sdb, noise with
    | Some k, Some nz =>
        bind (polyfit1 one (skipn k (time_vector (length p) (INR fs))) (skipn k sdb)) (fun fit =>
        let '(av, e) := compensation fs nz fit in to_levels (integrate fs nz av e p))
    | _, _ => Err IndexError
    end)
  end).
(** _room_acoustics.py L17-84 _reverb on one channel; ir_start is only handed back (return_ir_start is never set) *)
Definition reverb1 (one : R -> R -> R * R) (fs : nat) (trim : list R -> option nat) (mode : rmode) (ir_start : option nat) (x : list R)
  : result (option R * option R) :=
  bind (decay_curve one fs (trim x) x) (reverb_of_curve one fs mode).
(** room_acoustics.py L104-117 reverb_time of an impulse response: one time and one coefficient for every channel *)
Definition reverb_time (one : R -> R -> R * R) (fs : nat) (trim : list R -> option nat) (mode : rmode) (starts : list (option nat)) (m : mat)
  : result (list (option R * option R)) :=
  seq_result (map (fun sc => reverb1 one fs trim mode (fst sc) (snd sc)) (combine starts m)).
