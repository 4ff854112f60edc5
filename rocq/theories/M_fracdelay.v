(** Model of fractional_delay (standard/latency_delay.py, standard/_standard_backend.py), of monopole sources and of the delay-and-sum
    beamformer in the time domain (beamforming/beamforming.py). Samples are real numbers, a signal is the list of its channels. *)
From Coq Require Import List Arith ZArith Bool Reals.
From Verif Require Import Alg Spec M_arrays M_delay M_latency M_beam.
Import ListNotations.
Local Open Scope R_scope.

(** np.sinc *)
Definition sinc (x : R) : R := if Req_EM_T x 0 then 1 else sin (PI * x) / (PI * x).
(** standard/_standard_backend.py L259-287 _kaiser_window_beta *)
Definition kaiser_beta (a : R) : R :=
  if Rlt_dec 50 (Rabs a) then 1102 / 10000 * (Rabs a - 87 / 10) else
  if Rle_dec 21 (Rabs a) then 5842 / 10000 * (if Req_EM_T (Rabs a - 21) 0 then 0 else Rpower (Rabs a - 21) (4 / 10)) + 7886 / 100000 * (Rabs a - 21) else 0.

Section Bessel.
(** scipy.special.iv(0, z) as a function of z ** 2 (its power series has only even powers, so that the value for the imaginary roots of
    negative numbers is real). *)
Variable b0 : R -> R.

(** standard/_standard_backend.py L308-321 _kaiser_window_fractional: one value; an order of zero divides by zero *)
Definition kaiser (order : nat) (a frac : R) (i : nat) : R :=
  let alpha := INR order / 2 in
  let L := INR i - frac + (if Nat.odd order then 1 / 2 else if Rlt_dec (1 / 2) frac then 1 else 0) in
  b0 (Rsqr (kaiser_beta a) * (1 - Rsqr ((L - alpha) / alpha))) / b0 (Rsqr (kaiser_beta a)).
(** L474-493 _fractional_delay_filter for a delay which is not negative (int rounds down) *)
Definition first_tap (order : nat) (d : R) : Z :=
  if Nat.odd order then (- Z.of_nat ((order - 1) / 2))%Z else (np_round (d - IZR (Int_part d)) - Z.of_nat (order / 2))%Z.
Definition frac_filter (order : nat) (a d : R) : Z * list R :=
  let frac := d - IZR (Int_part d) in
  ((Int_part d + first_tap order d)%Z, mk (order + 1) (fun i => sinc (INR i + IZR (first_tap order d) - frac) * kaiser order a frac i)).

(** standard/latency_delay.py L194-264 fractional_delay of a Signal; [fs] its sampling rate. The assignment to channels_not (L244) writes
    to channels given by negative numbers what is overwritten in L257; it is left out. *)
Definition fractional_td (fs delay_s : R) (channels : option (list Z)) (keep_length : bool) (order : nat) (a : R) (td : list (list R)) : result (list (list R)) :=
  let n := length td in
  let len := length (hd [] td) in
  if Rlt_dec delay_s 0 then Err AssertionError else
  if Req_EM_T delay_s 0 then Ok td else
  let d := delay_s * fs in
  if andb keep_length (if Rlt_dec d (INR len) then false else true) then Err AssertionError else
  let chs := match channels with None => map Z.of_nat (seq 0 n) | Some l => l end in
  if negb (forallb (fun z => (z <? Z.of_nat n)%Z) chs && znodup chs) then Err AssertionError else
  match chs with [] => Err IndexError | _ =>
  match resolve_all n chs with
  | None => Err IndexError
  | Some ks =>
      let (dint, h) := frac_filter order a d in
      let padded := map (pad_trim_col (len + length h - 1) true) td in
      let filtered := fold_left (fun m p => upd m (fst p) (snd p)) (combine ks (map (fun k => conv_full (nth k td []) h) ks)) padded in
      let total := Z.to_nat (dint + Z.of_nat (len + length h - 1)) in
      let delayed := map (fun k => pad_trim_col total false (nth k filtered [])) ks in
      let out := fold_left (fun m p => upd m (fst p) (snd p)) (combine ks delayed) (map (pad_trim_col total true) filtered) in
      Ok (if keep_length then map (firstn len) out else out)
  end end.

(** ** Sources and the time-domain beamformer: default order 30 and 60 dB *)
(** fractional_delay of one channel *)
Definition frac_one (fs delay_s : R) (keep_length : bool) (x : list R) : result (list R) :=
  bind (fractional_td fs delay_s None keep_length 30 60 [x]) (fun td => Ok (nth 0 td [])).
(** beamforming/beamforming.py L1443-1459 get_signals_on_array: an array has at least two microphones (see C66) *)
Record source := mkSource { so_signal : list R; so_place : point }.
Fixpoint collect {A} (l : list (result A)) : result (list A) :=
  match l with [] => Ok [] | r :: t => bind r (fun x => bind (collect t) (fun xs => Ok (x :: xs))) end.
Definition on_array (fs c : R) (mics : list point) (s : source) : result (list (list R)) :=
  collect (map (fun m => let d := dist m (so_place s) in bind (frac_one fs (d / c) true (so_signal s)) (fun y => Ok (map (fun v => v / (1 + d)) y))) mics).
(** L1483-1511 mix_sources_on_array: the caller's list afterwards, whose first entry is removed and whose signals may be trimmed, and the
    result. (A source passed without a list is put in a new list.) *)
Fixpoint mix_rest (fs c : R) (mics : list point) (total : nat) (acc : list (list R)) (srcs : list source) : list source * result (list (list R)) :=
  match srcs with
  | [] => ([], Ok acc)
  | s :: rest =>
      let n := length (so_signal s) in
      let total' := if (total =? n)%nat then total else min total n in
      let acc' := if (total =? n)%nat then acc else map (pad_trim_col total' true) acc in
      let s' := if (total =? n)%nat then s else mkSource (pad_trim_col total' true (so_signal s)) (so_place s) in
      match on_array fs c mics s' with
      | Err e => (s' :: rest, Err e)
      | Ok y => let (rest', r) := mix_rest fs c mics total' (mk (length acc') (fun m => vadd (nth m acc' []) (nth m y []))) rest in (s' :: rest', r)
      end
  end.
Definition mix (fs c : R) (mics : list point) (srcs : list source) : list source * result (list (list R)) :=
  match srcs with
  | [] => ([], Err AssertionError)
  | s :: rest =>
      match on_array fs c mics s with
      | Err e => (srcs, Err e)
      | Ok y => mix_rest fs c mics (length (so_signal s)) y rest
      end
  end.

(** beamforming/beamforming.py L1349-1394 BeamformerDASTime.get_beamformer_output: the channels of the microphones in [xs] *)
Definition das_time (fs c : R) (mics grid : list point) (xs : list (list R)) : result (list (list R)) :=
  let ds := flat_map (fun m => map (fun g => dist m g) grid) mics in
  let r0 := max_list ds in
  let longest := Z.to_nat (Int_part ((r0 - min_list ds) / c * fs + 2)) in
  let total := (length (hd [] xs) + longest)%nat in
  collect (map (fun g =>
    bind (collect (mk (length mics) (fun im => let d := dist (nth im mics (0, 0, 0)) g in
            bind (frac_one fs ((r0 - d) / c) false (nth im xs [])) (fun y => Ok (pad_trim_col total true (map (fun v => v * d) y))))))
         (fun ys => Ok (map (fun v => v / INR (length mics)) (fold_left vadd ys (repeat 0 total))))) grid).
End Bessel.
