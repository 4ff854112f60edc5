(** Model of the effects Distortion, Tremolo and Chorus (effects/effects.py L83-117, L553-750, L1017-1324) and of the low-frequency oscillator
    (effects/_effects.py L14-57, L289-472). Samples and parameters are real numbers; a signal is the list of its channels, each with at least one
    sample; the new data is not passed through the amplitude constraint of copy_with_new_time_data (C19). None is a channel that is nan. *)
From Coq Require Import List Arith ZArith Bool Reals.
From Verif Require Import Alg Spec M_arrays M_signal M_delay.
Import ListNotations.
Local Open Scope R_scope.

(** 10 ** (db / 20); None is -np.inf *)
Definition linear (db : option R) : R := match db with Some v => Rpower 10 (v / 20) | None => 0 end.
Definition clip (lo hi x : R) : R := Rmin (Rmax x lo) hi.

(** effects.py L105-117 _restore_peak_values with the peak saved from the same signal: inp * (peak / max|inp|). With max|inp| = 0 every entry is
    0 * inf or 0 * nan. *)
Definition restore (p : R) (y : list R) : option (list R) := if Req_EM_T (vpeak y) 0 then None else Some (map (fun v => v * (p / vpeak y)) y).

(** ** Distortion *)
Inductive dist_type := Arctan | HardClip | SoftClip | NoDistortion | OtherType.
Inductive dist_fun := FArctan | FHard | FSoft | FClean.
(** _effects.py L14-57, one sample [n] of the normalised channel (L21, L32, L45), level and offset linear *)
Definition shape_sample (f : dist_fun) (level offset n : R) : R :=
  match f with
  | FArctan => atan (n * level + offset) * (2 / PI)
  | FHard => clip (-1) 1 (n * level + offset)
  | FSoft => let u := (n * (2 / 3) + offset) * level in clip (- (2 / 3)) (2 / 3) (u - u ^ 3 / 3)
  | FClean => n
  end.
(** The function on a channel: a silent channel is divided by zero, the clean signal is returned as it is *)
Definition distort (f : dist_fun) (level_db : R) (offset_db : option R) (x : list R) : option (list R) :=
  match f with
  | FClean => Some x
  | _ => if Req_EM_T (vpeak x) 0 then None else Some (map (fun v => shape_sample f (linear (Some level_db)) (linear offset_db) (v / vpeak x)) x)
  end.

(** L604-696: the attributes; [d_post] None is a gain of None *)
Record distortion := mkD { d_funs : list dist_fun; d_mix : list R; d_levels : list R; d_offsets : list (option R); d_post : option R }.
(** L698-718: the functions found before a type that is not implemented *)
Fixpoint select (l : list dist_type) : list dist_fun * result unit :=
  match l with
  | [] => ([], Ok tt)
  | OtherType :: _ => ([], Err ValueError)
  | t :: r => let '(fs, e) := select r in ((match t with Arctan => FArctan | HardClip => FHard | SoftClip => FSoft | _ => FClean end) :: fs, e)
  end.
Definition sum_of (l : list R) : R := fold_right Rplus 0 l.
(** np.isclose(x, 1) *)
Definition close_to_one (x : R) : bool := if Rle_dec (Rabs (x - 1)) (1 / 10 ^ 8 + 1 / 10 ^ 5 * 1) then true else false.
(** L604-696 set_advanced_parameters; scalars are lists of one. The attributes are assigned before the checks. *)
Definition set_distortion (types : list dist_type) (levels mix : list R) (offsets : list (option R)) (post : option R) (d : distortion) : distortion * result unit :=
  if negb (forallb (fun m => if Rle_dec m 100 then true else false) mix) then (d, Err AssertionError) else
  match select types with
  | (fs, Err e) => (mkD fs (d_mix d) (d_levels d) (d_offsets d) (d_post d), Err e)
  | (fs, Ok _) =>
    let mx := map (fun m => m / 100) mix in
    match fs, mx with
    | [f], [] => (mkD [f; FClean] mx levels offsets (d_post d), Err IndexError)
    | _, _ =>
      let one := (length fs =? 1)%nat in
      let d' := if one then mkD (fs ++ [FClean]) (mx ++ [1 - hd 0 mx]) (levels ++ [0]) (offsets ++ [None]) (d_post d) else mkD fs mx levels offsets (d_post d) in
      let n := length (d_funs d') in
      if ((n =? length (d_mix d')) && close_to_one (sum_of (d_mix d')) && (n =? length (d_levels d')) && (n =? length (d_offsets d')))%nat%bool
      then (mkD (d_funs d') (d_mix d') (d_levels d') (d_offsets d') post, Ok tt)
      else (d', Err AssertionError)
    end
  end.
(** L560-602 the constructor: the object has no attributes before *)
Definition new_distortion (level : R) (post : option R) (t : dist_type) : result distortion :=
  match set_distortion [t] [level] [100] [None] post (mkD [] [] [] [] None) with (d, Ok _) => Ok d | (_, Err e) => Err e end.

(** sums of channels, nan if one is *)
Definition add_opt (a b : option (list R)) : option (list R) :=
  match a, b with Some u, Some v => Some (map (fun p => fst p + snd p) (combine u v)) | _, _ => None end.
(** L736-745: the loop over the functions from number i on, one channel *)
Fixpoint mix_loop (d : distortion) (x : list R) (i : nat) (fs : list dist_fun) (acc : option (list R)) : result (option (list R)) :=
  match fs with
  | [] => Ok acc
  | f :: t =>
      match nth_error (d_mix d) i with
      | None => Err IndexError
      | Some m =>
          if Req_EM_T m 0 then mix_loop d x (S i) t acc else
          match nth_error (d_levels d) i, nth_error (d_offsets d) i with
          | Some l, Some o =>
              let y := match distort f l o x with Some y => restore (vpeak x) (map (fun v => v * m) y) | None => None end in
              mix_loop d x (S i) t (add_opt acc y)
          | _, _ => Err IndexError
          end
      end
  end.
(** L83-103 _add_gain_in_db *)
Definition post_gain (g : option R) (y : list R) : list R := match g with None => y | Some v => map (fun s => s * Rpower 10 (v / 20)) y end.
(** L720-750, one channel *)
Definition apply_distortion (d : distortion) (x : list R) : result (option (list R)) :=
  bind (mix_loop d x 0 (d_funs d) (Some (repeat 0 (length x)))) (fun r => Ok (option_map (post_gain (d_post d)) r)).

(** ** Low-frequency oscillator *)
Inductive wave := Harmonic | Square | Sawtooth | Triangle.
Record lfo := mkLfo { l_freq : R; l_wave : wave; l_smooth : R; l_phase : option R }.   (* [l_phase]: the random number, None without random phase *)
Definition phase_of (o : lfo) : R := match l_phase o with Some p => p | None => 0 end.
Definition sign (x : R) : R := if Rlt_dec x 0 then -1 else if Rlt_dec 0 x then 1 else 0.
(** np.max of a vector with at least one entry *)
Definition vmax (v : list R) : R := match v with [] => 0 | a :: t => fold_right Rmax a t end.
(** division of all entries by one number, nan or inf if it is zero *)
Definition divide (v : list R) (c : R) : option (list R) := if Req_EM_T c 0 then None else Some (map (fun x => x / c) v).
(** _effects.py L416-472. x % 1 is the fractional part. A number below zero to the power 1.5 is complex and max() of it raises TypeError. *)
Definition waveform (o : lfo) (fs : R) (n : nat) : result (option (list R)) :=
  let arg := mk n (fun t => l_freq o / fs * (2 * PI) * INR t + phase_of o) in
  match l_wave o with
  | Harmonic => Ok (Some (map sin arg))
  | Square => Ok (Some (map (fun a => if Req_EM_T (l_smooth o) 0 then sign (sin a) else atan (sin a / (l_smooth o * (1 / 40)))) arg))
  | Sawtooth =>
      if Req_EM_T (l_smooth o) 0 then Ok (Some (mk n (fun t => (frac_part (l_freq o / fs * INR t + phase_of o) - 1 / 2) * 2)))
      else if Rlt_dec (12 - l_smooth o) 0 then Err TypeError
      else let sm := Rmax 1 (if Req_EM_T (12 - l_smooth o) 0 then 0 else Rpower (12 - l_smooth o) (3 / 2)) in
           let w := mk n (fun t => let a := PI * (l_freq o / fs) * INR t + phase_of o in asin (tanh (cos a * sm) * sin a)) in
           Ok (divide w (Rabs (vmax w)))
  | Triangle =>
      let w := map (fun a => if Req_EM_T (l_smooth o) 0 then 2 / PI * asin (sin a) else 1 - 2 / PI * acos ((1 - l_smooth o * (8 / 1000)) * sin a)) arg in
      Ok (divide w (vpeak w))
  end.

(** ** Tremolo *)
(** A modulator is an LFO or a numpy array. *)
Inductive modulator := MLfo (o : lfo) | MArray (a : list R).
Record tremolo := mkT { t_mod : modulator; t_depth : R }.
(** effects.py L1049-1064: type(modulator) of an array is numpy.ndarray, which is not the alias NDArray[np.float64] *)
Definition set_tremolo (depth : option R) (m : option modulator) (t : tremolo) : tremolo * result unit :=
  match m with
  | Some (MArray _) => (t, Err AssertionError)
  | _ =>
    let t1 := match m with Some v => mkT v (t_depth t) | None => t end in
    match depth with
    | None => (t1, Ok tt)
    | Some v =>
        match t_mod t1 with
        | MLfo _ => if Rlt_dec 0 v then if Rle_dec v 1 then (mkT (t_mod t1) v, Ok tt) else (t1, Err AssertionError) else (t1, Err AssertionError)
        | MArray _ => (mkT (t_mod t1) v, Ok tt)
        end
    end
  end.
(** L1023-1047; the object has no attributes before, the dummy is overwritten *)
Definition default_lfo : lfo := mkLfo 1 Harmonic 0 None.
Definition new_tremolo (depth : R) (m : option modulator) : result tremolo :=
  match set_tremolo (Some depth) (Some (match m with Some v => v | None => MLfo default_lfo end)) (mkT (MLfo default_lfo) 0) with (t, Ok _) => Ok t | (_, Err e) => Err e end.
(** L1091-1102, all channels *)
Definition apply_tremolo (t : tremolo) (fs : R) (m : mat) : result (option mat) :=
  bind (match t_mod t with MLfo o => waveform o fs (nrows m) | MArray a => Ok (Some (pad_trim_col (nrows m) true a)) end) (fun w =>
  Ok (option_map (fun w => map (fun x => map (fun p => fst p * Rabs (snd p * t_depth t + 1)) (combine x w)) m) w)).

(** ** Chorus *)
(** The argument: one LFO, a list or tuple of LFOs (other entries are not modelled), an array *)
Inductive chorus_mod := COne (o : lfo) | CList (l : list lfo) | CArray.
(** [c_voices] number of voices, [c_depths], [c_bases], [c_mods], [c_mix] *)
Record chorus := mkC { c_voices : nat; c_bases : list R; c_depths : list R; c_mods : list lfo; c_mix : R }.
Definition spread {T} (n : nat) (l : list T) : list T := match l with [a] => repeat a n | _ => l end.
Definition one_or (n k : nat) : bool := ((k =? 1) || (k =? n))%nat%bool.
(** L1157-1252 in the order of the assignments. A list of modulators is compared with LFO in L1236 and never is one, so a depth below zero passes. *)
Definition set_chorus (depths bases : option (list R)) (mods : option chorus_mod) (mix : option R) (c : chorus) : chorus * result unit :=
  let nb := match bases with Some b => length b | None => length (c_bases c) end in
  let nd := match depths with Some d => length d | None => length (c_depths c) end in
  let nm := match mods with Some (CList l) => length l | Some _ => 1%nat | None => length (c_mods c) end in
  let n := Nat.max nb (Nat.max nd nm) in
  let c := mkC n (c_bases c) (c_depths c) (c_mods c) (c_mix c) in
  let '(c, e) := match bases with
    | Some b => if (forallb (fun v => if Rlt_dec 0 v then true else false) b && one_or n (length b))%bool then (mkC n (spread n b) (c_depths c) (c_mods c) (c_mix c), Ok tt) else (c, Err AssertionError)
    | None => (c, Ok tt) end in
  match e with Err _ => (c, e) | Ok _ =>
  let '(c, e) := match mods with
    | Some CArray => (c, Err AssertionError)
    | Some (COne o) => (mkC n (c_bases c) (c_depths c) (repeat o n) (c_mix c), Ok tt)
    | Some (CList l) => if one_or n (length l) then (mkC n (c_bases c) (c_depths c) (spread n l) (c_mix c), Ok tt) else (c, Err AssertionError)
    | None => (c, Ok tt) end in
  match e with Err _ => (c, e) | Ok _ =>
  let '(c, e) := match depths with
    | Some d => if one_or n (length d) then (mkC n (c_bases c) (spread n d) (c_mods c) (c_mix c), Ok tt) else (mkC n (c_bases c) d (c_mods c) (c_mix c), Err AssertionError)
    | None => (c, Ok tt) end in
  match e with Err _ => (c, e) | Ok _ =>
  match mix with
  | Some v => if Rle_dec (v / 100) 1 then if Rlt_dec 0 (v / 100) then (mkC n (c_bases c) (c_depths c) (c_mods c) (v / 100), Ok tt) else (c, Err AssertionError) else (c, Err AssertionError)
  | None => (c, Ok tt)
  end end end end.

(** L1110-1155, constructor: all parameters are given; the default modulator, an oscillator with a random phase, is an argument here *)
Definition new_chorus (depths bases : list R) (mods : chorus_mod) (mix : R) : result chorus :=
  match set_chorus (Some depths) (Some bases) (Some mods) (Some mix) (mkC 0 [] [] [] 0) with (c, Ok _) => Ok c | (_, Err e) => Err e end.

(** L1292-1304: delays in milliseconds of each voice; a column without a modulator stays zero. More modulators than voices, depths or delays
    raise IndexError; None: a waveform that is nan (its conversion to int is not modelled). *)
Fixpoint opt_results {T} (l : list (result (option T))) : result (option (list T)) :=
  match l with
  | [] => Ok (Some [])
  | r :: t => bind r (fun v => bind (opt_results t) (fun w => Ok (match v, w with Some a, Some b => Some (a :: b) | _, _ => None end)))
  end.
Definition voice_delays (c : chorus) (fs : R) (n : nat) : result (option (list (list R))) :=
  bind (opt_results (map (fun p : nat * lfo => let (i, o) := p in
      bind (waveform o fs n) (fun w =>
      match nth_error (c_depths c) i, nth_error (c_bases c) i with
      | Some d, Some b => if (i <? c_voices c)%nat then Ok (option_map (map (fun v => v * d + b)) w) else Err IndexError
      | _, _ => Err IndexError
      end)) (combine (seq 0 (length (c_mods c))) (c_mods c)))) (fun cols =>
  Ok (option_map (fun cols => cols ++ repeat (repeat 0 n) (c_voices c - length cols)) cols)).
(** L1307-1308 *)
Definition delay_in_samples (fs ms : R) : Z := np_round (ms * (1 / 1000) * fs).
Definition max_abs (ds : list (list Z)) : Z := fold_right Z.max 0%Z (map (fun col => fold_right Z.max 0%Z (map Z.abs col)) ds).
(** L1311-1322, one channel of n samples with the delays of the voices: td[ind + delay] with numpy's negative indices.
    An index is never further out than the padding, so the None of [py_index], IndexError, is not met. *)
Definition chorus_channel (mix : R) (ds : list (list Z)) (x : list R) : option (list R) :=
  let top := Z.to_nat (max_abs ds) in
  let td := x ++ repeat 0 top in
  let at_index z := match py_index (length td) z with Some k => nth k td 0 | None => 0 end in
  let wet := mk (length x) (fun i => nth i td 0 + sum_of (map (fun col => at_index (Z.of_nat i + nth i col 0%Z)%Z) ds)) in
  restore (vpeak td) (map (fun p => fst p * mix + snd p * (1 - mix)) (combine wet x)).
(** L1287-1324; without a voice the maximum of L1309 raises ValueError *)
Definition apply_chorus (c : chorus) (fs : R) (m : mat) : result (option (list (option (list R)))) :=
  bind (voice_delays c fs (nrows m)) (fun ds => match ds with
    | Some [] => Err ValueError
    | _ => Ok (option_map (fun ds => map (chorus_channel (c_mix c) (map (map (delay_in_samples fs)) ds)) m) ds) end).
