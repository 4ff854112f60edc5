(** Model of the signal generators: generators/generators.py and generators/_generators.py. Samples are real numbers, a nan or infinite sample is
    None, a (time samples, channels) array is the list of its columns. Random draws are arguments. Sampling rates and lengths in seconds are taken
    as positive and the number of channels as at least one where the code does not check them; chirps of one sample (which squeeze to a scalar) are
    not modelled. *)
From Coq Require Import List Arith Lia ZArith Bool Reals.
From Verif Require Import Alg Spec Dft M_arrays M_signal M_dynamics M_distances M_ir M_mel M_level.
Import ListNotations.
Local Open Scope R_scope.

(** int(r) of a non-negative number *)
Definition int_of (r : R) : nat := Z.to_nat (Int_part r).
(** the samples of a channel without nan *)
Definition finite (c : list (option R)) : option (list R) := opt_seq c.

(** ** What all generators do with the raw samples *)
(** generators.py L114-116, L236-238, L426: _normalize with peak normalisation per channel, one channel. A channel of zeros is multiplied by inf,
    which makes every sample nan. np.max of an empty array raises ValueError. *)
Definition level_col (dbfs : R) (c : list (option R)) : result (list (option R)) :=
  match c with
  | [] => Err ValueError
  | _ => Ok match finite c with
            | Some d => match norm_col dbfs (vpeak d) d with Some e => map Some e | None => map (fun _ => None) c end
            | None => map (fun _ => None) c
            end
  end.
(** L117-132, L240-255, L428-443: the fades over 5 % of the length at both ends. fade = None skips them. *)
Definition fade_both (ty : option fade_type) (len fs : R) (c : list (option R)) : result (list (option R)) :=
  match ty with
  | None => Ok c
  | Some ty => bind (fade1 ty (5 / 100 * len) fs true c) (fade1 ty (5 / 100 * len) fs false)
  end.
(** L133 (time_data of zeros), L257, L445: _pad_trim at the end *)
Definition fit (n : nat) (c : list (option R)) : list (option R) :=
  if (length c <? n)%nat then c ++ repeat (Some 0) (n - length c) else firstn n c.
Definition finish_col (dbfs : R) (ty : option fade_type) (len fs : R) (n : nat) (c : list (option R)) : result (list (option R)) :=
  bind (level_col dbfs c) (fun c1 => bind (fade_both ty len fs c1) (fun c2 => Ok (fit n c2))).
(** L135, L263, L448: the Signal; None when the array holds nan *)
Definition to_signal (fs : Z) (cols : list (list (option R))) : result (option signal) :=
  match opt_seq (map finite cols) with
  | Some m => bind (set_time_data true fs (mkIn m None false)) (fun s => Ok (Some s))
  | None => Ok None
  end.
Definition finish (dbfs : R) (ty : option fade_type) (len : R) (fs : Z) (n : nat) (cols : list (list (option R))) : result (option signal) :=
  bind (seq_result (map (finish_col dbfs ty len (IZR fs) n) cols)) (to_signal fs).

(** ** Impulse *)
(** classes/filter_helpers.py L146-164 _impulse *)
Definition impulse (n d : nat) : list R := mk n (fun i => if (i =? d)%nat then 1 else 0).
(** generators.py L272-314 dirac. The type checks (int) are not modelled. *)
Definition dirac (length delay channels fs : Z) : result signal :=
  if (0 <? length)%Z then if (0 <=? delay)%Z then if (delay <? length)%Z then if (0 <? channels)%Z then if (0 <? fs)%Z then
    set_time_data true fs (mkIn (repeat (impulse (Z.to_nat length) (Z.to_nat delay)) (Z.to_nat channels)) None false)
  else Err AssertionError else Err AssertionError else Err AssertionError else Err AssertionError else Err AssertionError.

(** ** Chirp *)
Inductive chirp_type := CLinear | CLogarithmic | CSyncLog.
(** L203-217: the range *)
Definition chirp_range (fs : Z) (range : option (list R)) : result (R * R) :=
  match range with
  | None => Ok (15, IZR (fs / 2))
  | Some [a; b] =>
      if Rlt_dec 0 (Rmin a b) then if Rle_dec (Rmax a b) (IZR (fs / 2)) then Ok (Rmin a b, Rmax a b) else Err AssertionError
      else Err AssertionError
  | Some _ => Err AssertionError
  end.
(** L218-222, L388-392: the samples of the padding, not rounded *)
Definition pad_samples (pad : R) (fs : Z) : result nat :=
  if Req_EM_T pad 0 then Ok O else if Rlt_dec 0 pad then Ok (int_of (pad * IZR fs)) else Err AssertionError.
(** L223, L393: the samples of the signal, rounded *)
Definition len_samples (len : R) (fs : Z) : nat := int_of (IZR fs * len + 5 / 10).
(** L229-232 *)
Definition linear_chirp (f0 f1 len phase : R) (l : nat) : list (option R) :=
  let k := (f1 - f0) / len in
  map (fun t => let freqs := (f0 + k / 2 * t) * 2 * PI in Some (sin (freqs * t + phase))) (linspace 0 len l).
(** L233-237. np.log(k) = 0 makes every sample nan: inf * 0. *)
Definition log_chirp (f0 f1 len phase : R) (l : nat) : list (option R) :=
  let k := exp ((ln f1 - ln f0) / len) in
  map (fun t => option_map (fun q => sin (q * (Rpower k t - 1) + phase)) (div_opt (2 * PI * f0) (ln k))) (linspace 0 len l).
(** _generators.py L31-43 _sync_log_chirp: the samples and the duration. Equal frequencies: int(inf) raises OverflowError, which is written
    ValueError here. k = 0: no samples. *)
Definition sync_log_chirp (f1 f2 len : R) (fs : Z) : result (list (option R) * R) :=
  let f2f1 := ln (f2 / f1) in
  if Req_EM_T f2f1 0 then Err ValueError else
  let k := int_of (f1 * len / f2f1 + 5 / 10) in
  let T := INR k / f1 * f2f1 in
  let L := INR (int_of (5 / 10 + T * f1 / f2f1)) / f1 in
  let t := linspace 0 T (int_of (T * IZR fs + 5 / 10)) in
  Ok (map (fun t => option_map (fun q => sin (2 * PI * f1 * L * (exp q - 1))) (div_opt t L)) t, T).
(** L138-264 chirp: the Signal and, for the synchronised chirp, its duration *)
Definition chirp (fs : Z) (ty : chirp_type) (range : option (list R)) (len dbfs : R) (channels : nat) (fade : option fade_type) (phase pad : R)
  : result (option signal * option R) :=
  bind (chirp_range fs range) (fun r => bind (pad_samples pad fs) (fun p =>
  let l := len_samples len fs in
  bind match ty with
       | CLinear => Ok (linear_chirp (fst r) (snd r) len phase l, None)
       | CLogarithmic => Ok (log_chirp (fst r) (snd r) len phase l, None)
       | CSyncLog => bind (sync_log_chirp (fst r) (snd r) len fs) (fun q => Ok (fst q, Some (snd q)))
       end (fun q =>
  bind (finish_col dbfs fade len (IZR fs) (l + p) (fst q)) (fun c =>
  bind (to_signal fs (repeat c channels)) (fun s => Ok (s, snd q)))))).

(** ** Oscillator *)
Inductive wave := WHarmonic | WSquare | WSawtooth | WTriangle.
(** the harmonic number and the factor of pass k of the loops L419-421, L426-434 and L440-448 *)
Definition wave_order (w : wave) (k : nat) : nat := match w with WSawtooth => k | _ => (2 * k - 1)%nat end.
Definition wave_amp (w : wave) (k : nat) : R :=
  match w with
  | WHarmonic => 1
  | WSquare => / INR (2 * k - 1)
  | WSawtooth => / INR k * (-1) ^ k
  | WTriangle => / INR (2 * k - 1) ^ 2 * (-1) ^ k
  end.
(** L423, L436, L449 *)
Definition wave_gain (w : wave) : R :=
  match w with WHarmonic => 1 | WSquare => 4 / PI | WSawtooth => - (2 / PI) | WTriangle => -8 / PI ^ 2 end.
(** The while loops, one sample n of one channel. The loop ends before [fuel] passes: the frequency of pass k is at least k times f. *)
Fixpoint harmonics (fuel k : nat) (w : wave) (f cutoff fs phase : R) (n : nat) (acc : R) : R :=
  match fuel with
  | O => acc
  | S m => if Rlt_dec (INR (wave_order w k) * f) cutoff
           then harmonics m (S k) w f cutoff fs phase n
                  (acc + sin (PI * 2 * INR (wave_order w k) * f / fs * INR n + phase) * wave_amp w k)
           else acc
  end.
Definition harm_fuel (f cutoff : R) : nat := S (int_of (cutoff / f)).
(** L410-451, one channel *)
Definition wave_col (w : wave) (f cutoff fs phase : R) (l : nat) : list R :=
  match w with
  | WHarmonic => mk l (fun n => sin (2 * PI * f / fs * INR n + phase))
  | _ => mk l (fun n => wave_gain w * harmonics (harm_fuel f cutoff) 1 w f cutoff fs phase n 0)
  end.
(** L317-454 oscillator; [phases] are the random phases of the channels, read when uncorrelated *)
Definition oscillator (f : R) (fs : Z) (len : R) (w : wave) (cutoff : option R) (dbfs : R) (channels : nat) (uncorrelated : bool)
  (phases : list R) (fade : option fade_type) (pad : R) : result (option signal) :=
  if Rlt_dec f (IZR (fs / 2)) then if Rlt_dec 0 f then
    bind (pad_samples pad fs) (fun p =>
    let l := len_samples len fs in
    let c := match cutoff with Some c => c | None => IZR (fs / 2) end in
    if Rlt_dec 0 c then if Rle_dec c (IZR (fs / 2)) then
      finish dbfs fade len fs (l + p)
        (mk channels (fun ch => map Some (wave_col w f c (IZR fs) (if uncorrelated then nth ch phases 0 else 0) l)))
    else Err AssertionError else Err AssertionError)
  else Err AssertionError else Err AssertionError.

(** ** Noise *)
Inductive noise_type := NWhite | NPink | NRed | NBlue | NViolet | NGrey | NBeta (beta : R).
(** numpy f ** e with f >= 0: inf (None) for a zero base and a negative exponent *)
Definition fpow (f e : R) : option R :=
  if Req_EM_T f 0 then if Rlt_dec e 0 then None else if Req_EM_T e 0 then Some 1 else Some 0 else Some (Rpower f e).
(** L86-112: the magnitude of bin k, drawn as m, with frequency f and A-weight w. L90 is always true, so that L91 also applies to white noise.
    The factor of a bin is applied to mag[id_low:]; L89: mag[0] = 0, and 0/0 and 0*inf are nan (None). *)
Definition noise_bin (ty : noise_type) (id k : nat) (f w m : R) : option R :=
  let m0 := if (k =? 0)%nat then 0 else m in
  if (k <? id)%nat then Some (m0 * / 10 ^ 20) else
  match ty with
  | NWhite => Some m0
  | NPink => div_opt m0 (sqrt f)
  | NRed => div_opt m0 f
  | NBlue => Some (m0 * sqrt f)
  | NViolet => Some (m0 * f)
  | NGrey => div_opt m0 w
  | NBeta b => option_map (fun g => m0 * g) (fpow f (- b * (5 / 10)))
  end.
(** L94-98: the phase of bin k: zero at 0 Hz and, for an even number of samples, at the last bin *)
Definition noise_phase (l k : nat) (p : R) : R :=
  if (k =? 0)%nat then 0 else if (l mod 2 =? 0)%nat && (k =? l / 2)%nat then 0 else p.
(** L84-113: the samples of one channel before the normalisation; [mag] and [ph] are the draws *)
Definition noise_col (ty : noise_type) (fs : R) (l : nat) (weights mag ph : list R) : option (list R) :=
  let f := rfftfreq l fs in
  let id := nearest 15 f in
  option_map (fun m => irfft_n l (mk (l / 2 + 1) (fun k => cmul (rc (get m k)) (cis (noise_phase l k (get ph k))))))
    (opt_seq (mk (l / 2 + 1) (fun k => noise_bin ty id k (get f k) (get weights k) (get mag k)))).
(** L20-136 noise. rfftfreq of no samples divides by zero. The type check of L69-72 is not modelled. *)
Definition noise (len : R) (fs : Z) (ty : noise_type) (dbfs : R) (channels : nat) (fade : option fade_type) (pad : R)
  (mags phs : list (list R)) : result (option signal) :=
  if Rlt_dec 0 len then if Rle_dec dbfs 0 then if (1 <=? channels)%nat then
    let l := int_of (len * IZR fs + 5 / 10) in
    if (l =? 0)%nat then Err ZeroDivisionError else
    bind (if Req_EM_T pad 0 then Ok O else if Rlt_dec 0 pad then Ok (int_of (pad * IZR fs + 5 / 10)) else Err AssertionError) (fun p =>
    bind match ty with NGrey => frequency_weighting WA (rfftfreq l (IZR fs)) | _ => Ok (Some []) end (fun w =>
    finish dbfs fade len fs (l + p) (mk channels (fun ch =>
      match w with
      | None => repeat None l
      | Some w => match noise_col ty (IZR fs) l w (nth ch mags []) (nth ch phs []) with Some c => map Some c | None => repeat None l end
      end))))
  else Err AssertionError else Err AssertionError else Err AssertionError.
