(** Model of the level functions: helpers/gain_and_level.py, standard/gain_and_level.py, the time vector of Signal and the
    activity detector of standard/other.py. Samples are real numbers, nan and -inf are None, a (time samples, channels)
    array is the list of its columns. *)
From Coq Require Import List Arith Lia ZArith Bool Reals.
From Verif Require Import Alg Spec M_arrays M_signal M_dynamics.
Import ListNotations.
Local Open Scope R_scope.

(** ** Decibels *)
(** helpers/gain_and_level.py L45, L190 *)
Definition db_factor (amp : bool) : R := if amp then 20 else 10.
(** helpers/gain_and_level.py L28-46 from_db, one value *)
Definition from_db (amp : bool) (x : R) : R := Rpower 10 (x / db_factor amp).
(** np.log10 of a non-negative number: -inf (None) at zero *)
Definition log10o (x : R) : option R := if Req_EM_T x 0 then None else Some (ln x / ln 10).
Definition to_db1 (amp : bool) (v : R) : option R := option_map (fun l => db_factor amp * l) (log10o v).
(** helpers/gain_and_level.py L158-200 to_db. np.max of an empty array raises ValueError. *)
Definition to_db (amp : bool) (dyn minv : option R) (x : list R) : result (list (option R)) :=
  match minv, dyn with
  | None, None => Ok (map (fun v => to_db1 amp (Rabs v)) x)
  | _, Some d =>
      match x with
      | [] => Err ValueError
      | _ => let m := vpeak x * Rpower 10 (- Rabs d / db_factor amp) in
             Ok (map (fun v => to_db1 amp (Rmax (Rabs v) m)) x)
      end
  | Some m, None => Ok (map (fun v => to_db1 amp (Rmax (Rabs v) m)) x)
  end.

(** ** Root mean square and normalisation *)
(** helpers/gain_and_level.py L7-25 _rms, one channel: np.std *)
Definition rms (x : list R) : R := std x.
(** helpers/gain_and_level.py L49-84 _normalize. The factor is from_db(dbfs) over the peak or over _rms, of every channel or
    of the whole array; a division by zero gives inf or nan, which makes the zero samples nan (None). flatten is modelled
    by concatenating the channels, which has the same entries in another order. *)
Definition norm_base (pk : bool) (x : list R) : R := if pk then vpeak x else rms x.
Definition norm_col (dbfs base : R) (x : list R) : option (list R) :=
  option_map (fun f => map (fun v => v * f) x) (div_opt (from_db true dbfs) base).
Definition normalize (dbfs : R) (pk per : bool) (m : mat) : list (option (list R)) :=
  if per then map (fun c => norm_col dbfs (norm_base pk c) c) m
  else map (fun c => norm_col dbfs (norm_base pk (concat m)) c) m.
Fixpoint opt_seq {T} (l : list (option T)) : option (list T) :=
  match l with [] => Some [] | o :: t => match o, opt_seq t with Some x, Some r => Some (x :: r) | _, _ => None end end.
(** standard/gain_and_level.py L12-60 normalize of a Signal: copy_with_new_time_data (classes/signal.py L1647-1680) of the
    normalised real part. None: some channel holds nan. A MultiBandSignal is normalised band by band. *)
Definition normalize_signal (dbfs : R) (pk per : bool) (s : signal) : option (result signal) :=
  option_map (fun m => set_data s (mkIn m None false)) (opt_seq (normalize dbfs pk per (s_re s))).
Definition normalize_bands (dbfs : R) (pk per : bool) (l : list signal) : list (option (result signal)) :=
  map (normalize_signal dbfs pk per) l.

(** standard/gain_and_level.py L281-360 apply_gain. L323-325: one gain multiplies everything; several gains multiply the
    channels by numpy broadcasting, which needs as many gains as channels, or one channel (repeated for every gain).
    L326: copy_with_new_time_data of the real part only. *)
Definition scale (g : R) (x : list R) : list R := map (fun v => v * g) x.
Definition gain_data (gs : list R) (m : mat) : result mat :=
  let g := map (from_db true) gs in
  match g with
  | [g1] => Ok (map (scale g1) m)
  | _ => if (length g =? length m)%nat then Ok (map (fun p => scale (fst p) (snd p)) (combine g m))
         else match m with [c] => Ok (map (fun k => scale k c) g) | _ => Err ValueError end
  end.
Definition apply_gain (gs : list R) (s : signal) : result signal :=
  bind (gain_data gs (s_re s)) (fun m => set_data s (mkIn m None false)).
Definition apply_gain_bands (gs : list R) (l : list signal) : result (list signal) := seq_result (map (apply_gain gs) l).

(** The representations of a Filter, classes/filter.py L79-89: a list of second-order sections (b, a), with the gain of the
    zeros-poles-gain form when the filter was made from it (the zeros and poles are left alone here), or one pair (b, a). *)
Inductive frep := FSos (k : option R) (sos : list (list R * list R)) | FBa (b a : list R).
Fixpoint scale_last (g : R) (sos : list (list R * list R)) : list (list R * list R) :=
  match sos with
  | [] => []
  | [ba] => [(scale g (fst ba), snd ba)]
  | ba :: t => ba :: scale_last g t
  end.
(** standard/gain_and_level.py L335-346: the gain of the zpk form, the numerator of the last section or b. *)
Definition filter_gain (db : R) (f : frep) : frep :=
  let g := from_db true db in
  match f with
  | FSos k sos => FSos (option_map (fun k => k * g) k) (scale_last g sos)
  | FBa b a => FBa (scale g b) a
  end.
(** L347-358: a FilterBank. *)
Definition bank_gain (gs : list R) (fs : list frep) : result (list frep) :=
  match gs with
  | [g] => Ok (map (filter_gain g) fs)
  | _ => if (length gs =? length fs)%nat then Ok (map (fun p => filter_gain (fst p) (snd p)) (combine gs fs))
         else Err AssertionError
  end.

(** standard/gain_and_level.py L362-401 crest_factor with the sample peak. Default min_value of to_db. *)
Definition smallest_normal : R := / 2 ^ 1022.
Definition crest_linear (s : mat) : list (option R) := map (fun c => div_opt (vpeak c) (rms c)) s.
Definition db_default (v : R) : option R := to_db1 true (Rmax (Rabs v) smallest_normal).
Definition obind {T U} (o : option T) (f : T -> option U) : option U := match o with Some x => f x | None => None end.
Definition crest_factor (in_db : bool) (s : mat) : list (option R) :=
  map (fun o => if in_db then obind o db_default else o) (crest_linear s).
(** The band values are those of crest_factor with the same in_db (L396) and are converted again at the end (L401). *)
Definition crest_factor_bands (in_db : bool) (bands : list mat) : list (list (option R)) :=
  map (fun b => map (fun o => if in_db then obind o db_default else o) (crest_factor in_db b)) bands.

(** ** Time vector and fades *)
(** np.linspace(a, b, n) *)
Definition linspace (a b : R) (n : nat) : list R :=
  match n with 1%nat => [a] | _ => mk n (fun i => a + INR i * ((b - a) / INR (n - 1))) end.
(** classes/signal.py L198-205 _generate_time_vector *)
Definition time_vector (n : nat) (fs : R) : list R := linspace 0 (INR n / fs) n.

Inductive fade_type := Exponential | Linear | Logarithmic | NoFade.
(** helpers/gain_and_level.py L135-146: the gains of a fade of l samples; None: an entry that is 0/0 (nan). fade[-1] of an
    empty array raises IndexError. *)
Definition log_top : R := 50 * Rpower 10 (1 / 2).
Definition fade_gains (ty : fade_type) (l : nat) : result (list (option R)) :=
  match ty with
  | NoFade => Ok []
  | Exponential => Ok (map (fun d => Some (Rpower 10 (d / 20))) (linspace (-100) 0 l))
  | Linear => Ok (map Some (linspace 0 1 l))
  | Logarithmic =>
      match l with
      | O => Err IndexError
      | S k => let raw := map (fun v => ln v / ln 10) (linspace 1 log_top l) in
               Ok (map (fun v => div_opt v (nth k raw 0)) raw)
      end
  end.
Definition opt_mul (v : option R) (g : option R) : option R :=
  match v, g with Some v, Some g => Some (v * g) | _, _ => None end.
(** s[:l] *= fade *)
Fixpoint mul_head (s gains : list (option R)) : list (option R) :=
  match s, gains with
  | v :: s', g :: gs => opt_mul v g :: mul_head s' gs
  | _, [] => s
  | [], _ => []
  end.
(** helpers/gain_and_level.py L92-155 _fade of one channel. The array that is passed is changed in place, which [fade_col]
    below relies on, as the code does. *)
Definition fade1 (ty : fade_type) (len fs : R) (at_start : bool) (s : list (option R)) : result (list (option R)) :=
  match ty with NoFade => Ok s | _ =>
    if Rlt_dec 0 len then
      let l := Z.to_nat (Int_part (len * fs)) in
      if (l <? length s)%nat then
        bind (fade_gains ty l) (fun g =>
          Ok (if at_start then mul_head s g else rev (mul_head (rev s) g)))
      else Err AssertionError
    else Err AssertionError
  end.
(** standard/gain_and_level.py L63-118 fade, one channel. L92-93: the default length is 2.5 % of the last entry of the time
    vector. L101-116: both fades act on the same array. *)
Definition fade_col (ty : fade_type) (len : option R) (fs : R) (at_start at_end : bool) (s : list R)
  : result (list (option R)) :=
  if at_start || at_end then
    let t_end := last (time_vector (length s) fs) 0 in
    let len := match len with Some l => l | None => t_end * (25 / 1000) end in
    if Rlt_dec len t_end then
      let v := map Some s in
      bind (if at_start then fade1 ty len fs true v else Ok v) (fun v1 =>
      if at_end then fade1 ty len fs false v1 else Ok v1)
    else Err AssertionError
  else Err AssertionError.

(** ** Activity detector *)
(** standard/_standard_backend.py L360-374: the loop. momentary_gain[i] is still zero when it is compared with the power of
    the previous sample (L366, L368). *)
Definition act_coeff (ca cr prev : R) : R := if Rlt_dec prev 0 then ca else if Rlt_dec 0 prev then cr else 0.
Fixpoint act_loop (ca cr g prev : R) (p : list R) : list R :=
  match p with
  | [] => []
  | v :: t => let c := act_coeff ca cr prev in
              let g' := c * v + (1 - c) * g in g' :: act_loop ca cr g' v t
  end.
Definition act_gain (ca cr : R) (p : list R) : list R :=
  match p with [] => [] | v :: t => 0 :: act_loop ca cr 0 v t end.
(** L375-379: 10 log10(gain) > threshold; log10 of zero is -inf. *)
Definition above (thr g : R) : bool :=
  match to_db1 false g with None => false | Some d => if Rlt_dec thr d then true else false end.
(** standard/_standard_backend.py L324-379 _indices_above_threshold_dbfs. Normalising silence gives nan, for which every
    comparison is false. *)
Definition act_mask (thr ca cr : R) (norm : bool) (x : list R) : list bool :=
  if norm then
    if Req_EM_T (vpeak x) 0 then map (fun _ => false) x
    else map (above thr) (act_gain ca cr (map (fun v => (v / vpeak x) ^ 2) x))
  else map (above thr) (act_gain ca cr (map (fun v => v ^ 2) x)).
(** x[mask] *)
Fixpoint select_mask {T} (m : list bool) (x : list T) : list T :=
  match m, x with b :: m', v :: x' => if b then v :: select_mask m' x' else select_mask m' x' | _, _ => [] end.
(** standard/other.py L155-176: assigning the selected samples. An empty selection reaches the setter as a (1, 0) array:
    with constrain_amplitude np.max raises ValueError and 500 zeros are assigned, otherwise the signal is left without
    channels. *)
Definition assign_selection (s : signal) (x : list R) : result signal :=
  match x with
  | [] => if s_constr s then set_data s (mkIn [repeat 0 500] None false)
          else Ok (mkSig [] None 1 (s_constr s) (s_fs s))
  | _ => set_data s (mkIn [x] None false)
  end.
Record activity := mkAct { a_sig : signal; a_noise : signal; a_mask : list bool; a_nmask : list bool }.
(** standard/other.py L55-179 activity_detector. The zero-phase pre-filter is a function of the channel. *)
Definition activity_detector (thr : R) (ch : Z) (rel : bool) (pre : option (list R -> list R)) (att_ms rel_ms : R)
    (s : signal) : result activity :=
  if Rlt_dec thr 0 then
  if Rlt_dec rel_ms 0 then Err AssertionError else
  if Rlt_dec att_ms 0 then Err AssertionError else
  bind (get_channels [ch] s) (fun s1 =>
    let x := hd [] (s_re s1) in
    let y := match pre with Some f => f x | None => x end in
    let fs := IZR (s_fs s) in
    let m := act_mask thr (ema_factor (att_ms / 1000) fs) (ema_factor (rel_ms / 1000) fs) rel y in
    let nm := map negb m in
    bind (assign_selection s1 (select_mask m x)) (fun d =>
    bind (assign_selection s1 (select_mask nm x)) (fun n => Ok (mkAct d n m nm))))
  else Err AssertionError.
