(** Model of the trimming of impulse responses (transfer_functions/transfer_functions.py, transfer_functions/_transfer_functions.py).
    Samples are real numbers; None stands for nan. Sampling rates are natural numbers. A response is the list of its channels. *)
From Coq Require Import List Arith Lia ZArith Bool Reals.
From Verif Require Import Alg Spec Dft M_arrays M_signal M_latency M_dynamics M_level M_fvec M_minphase M_transforms M_beam M_reverb.
Import ListNotations.
Local Open Scope R_scope.

(** np.argmax(np.abs(td)), L301 *)
Definition peak_index (x : list R) : nat := argmax (map Rabs x).
(** _transfer_functions.py L306-313: hilbert with zero padding to the next fast length, and to_db of its magnitude *)
Definition etc (x : list R) : list R :=
  map (fun z => 20 * (ln (Rmax (cmod z) smallest_normal) / ln 10))
      (analytic (pad_trim_col (HA := CRing_R) (next_fast_len_c (length x)) true x)).
(** L329: (ms * 1e-3 * fs + 0.5).astype(int) *)
Definition window_len (fs ms : nat) : nat := ((2 * ms * fs + 1000) / 2000)%nat.
(** L337-346: the position reached after at most n windows. The first window is compared with 0 dB. *)
Fixpoint decay_run (env : list R) (w n pos : nat) (cur : R) : nat :=
  match n with
  | O => pos
  | S n' => let m := average (slice pos (pos + w) env) in
            if Rle_dec cur m then pos else decay_run env w n' (pos + w) m
  end.
(** L333-351; a window of no samples makes the number of windows 0 (a numpy division by zero with a warning) *)
Definition window_end (env : list R) (w : nat) : nat :=
  Nat.min ((decay_run env w (length env / w) 0 0 * 2 + w) / 2) (length env).
(** np.arange *)
Definition ramp (n : nat) : list R := mk n INR.
(** L352-355 *)
Definition window_corr (env : list R) (e : nat) : result (option R) := pearsonr (ramp e) (firstn e env).
(** comparisons with nan are false *)
Definition at_most (v : R) (c : option R) : bool := match c with Some r => if Rle_dec r v then true else false | None => false end.
(** int(np.mean(...)) of indices *)
Definition nat_mean (l : list nat) : nat := (list_sum l / length l)%nat.
Definition selected (v : R) (cs : list (option R)) (es : list nat) : list nat := map snd (filter (fun p => at_most v (fst p)) (combine cs es)).
(** L358-369 (the warning is not modelled) *)
Definition choose_end (len : nat) (cs : list (option R)) (es : list nat) : nat :=
  let k := argmin_nan cs in
  if at_most (-95 / 100) (nth k cs None) then nth k es 0%nat
  else if existsb (at_most (-9 / 10)) cs then nat_mean (selected (-9 / 10) cs es)
  else if existsb (at_most (-7 / 10)) cs then nat_mean (repeat (nth k es 0%nat) 9 ++ selected (-7 / 10) cs es)
  else nat_mean (repeat len 5 ++ es).
(** L381-410 __find_index_above_noise_floor. Polynomial.fit(...).convert() drops a slope that is zero: polynomial[1] is then out of
    range. A noise floor of nan cannot be converted to an integer. one is the fit through a single point. *)
Definition above_noise (one : R -> R -> R * R) (env : list R) (noise : option R) (dist : R) : result nat :=
  bind (polyfit1 one (ramp (length env)) env) (fun p =>
  let '(p1, p0) := p in
  if Rlt_dec 0 p1 then Ok (length env) else
  if Req_EM_T p1 0 then Err IndexError else
  match noise with
  | None => Err ValueError
  | Some nf => let i := truncate ((nf + dist - p0) / p1 + 1 / 2) in
               Ok (Z.to_nat (Z.min (Z.of_nat (length env)) (Z.max (Z.of_nat ((3 * length env + 2) / 4)) i)))
  end).
(** L276-378 _trim_ir: start, stop and the index of the impulse after the start, for an offset that is not negative. np.argmax of an
    empty array raises ValueError; the variance of no samples is nan. *)
Definition trim_bounds (one : R -> R -> R * R) (fs : nat) (offset safety : R) (x : list R) : result (nat * nat * nat) :=
  match x with
  | [] => Err ValueError
  | _ =>
    let p := peak_index x in
    let start := (p - 1 - Z.to_nat (truncate (offset * INR fs + 1 / 2)))%nat in
    let imp := (p - start)%nat in
    bind (time_smoothing (etc (skipn (start + imp) x)) (INR fs) (20 / 1000) None) (fun env =>
    let es := map (fun ms => window_end env (window_len fs ms)) [10; 30; 50; 70; 90]%nat in
    bind (seq_result (map (window_corr env) es)) (fun cs =>
    let e := choose_end (length env) cs es in
    let stop := (e + start + imp)%nat in
    if Req_EM_T safety 0 then Ok (start, stop, imp) else
    bind (above_noise one (firstn e env) (option_map db_power (variance (skipn stop x))) (Rabs safety)) (fun e' =>
    Ok (start, (e' + start + imp)%nat, imp))))
  end.
(** transfer_functions.py L1750-1754: no offset is the length of the response, which never cuts *)
Definition start_offset (fs len : nat) (offset : option R) : R := match offset with Some o => o | None => INR len / INR fs end.
(** transfer_functions.py L1695-1786 trim_ir: the channels of the trimmed response with start and stop. One channel of a single
    sample becomes an array without dimensions, which cannot be sliced. *)
Definition trim_ir (one : R -> R -> R * R) (fs : nat) (channel : option nat) (offset : option R) (chs : list (list R))
  : result (list (list R) * nat * nat) :=
  let off := start_offset fs (nrows chs) offset in
  if Rlt_dec off 0 then Err AssertionError else
  match channel with
  | Some c =>
      match nth_error chs c with
      | None => Err IndexError
      | Some x => if (length x =? 1)%nat then Err IndexError else
                  bind (trim_bounds one fs off 10 x) (fun r => let '(a, b, _) := r in Ok ([slice a b x], a, b))
      end
  | None =>
      bind (seq_result (map (trim_bounds one fs off 10) chs)) (fun rs =>
      match rs with
      | [] => Err ValueError
      | r :: t =>
          let a := fold_left Nat.min (map (fun q => fst (fst q)) t) (fst (fst r)) in
          let b := fold_left Nat.max (map (fun q => snd (fst q)) t) (snd (fst r)) in
          Ok (map (slice a b) chs, a, b)
      end)
  end.
