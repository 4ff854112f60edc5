(** Model of transfer_functions/transfer_functions.py lin_phase_from_mag and of the helpers it uses. Numbers are real numbers. *)
From Coq Require Import List Arith ZArith Bool Reals.
From Verif Require Import Alg Spec Dft M_arrays M_signal M_level M_spectrum M_fvec M_minphase M_groupdelay M_irfilter M_specdiff.
Import ListNotations.
Local Open Scope R_scope.

(** transfer_functions/_transfer_functions.py L574-606 _get_frequency_vector_with_frequency_resolution: frequencies, resolution and length of the
    time data. A negative length is refused by np.linspace, a single frequency by f_vec[1]. *)
Definition freq_vector (df fs : R) : result (list R * R * nat) :=
  if Req_EM_T df 0 then Err ZeroDivisionError else
  let z := truncate (fs / 2 / df + 1 / 2) in
  let z := if Z.even z then (z + 1)%Z else z in
  if (z <? 0)%Z then Err ValueError else
  let n := Z.to_nat z in
  let f := linspace 0 (fs / 2) n in
  if (n <? 2)%nat then Err IndexError else Ok (f, nth 1 f 0, ((n - 1) * 2)%nat).
(** helpers/spectrum_utilities.py L229-265 _correct_for_real_phase_spectrum, one column *)
Definition real_phase (ph : list R) : list R :=
  let factor := fmod (last ph 0) PI in
  mk (length ph) (fun k => get ph k - get (linspace 0 1 (length ph)) k * factor).
(** spectrum.get_interpolated_spectrum(f, SpectrumType.Magnitude) *)
Definition mags_at (s : spectrum) (f : list R) : result (list (list R)) := bind (get_interp s f OMagnitude) (fun d => Ok (map (map fst) d)).
(** transfer_functions.py L731-739: the smallest admissible delay of each channel *)
Definition least_delays (mags : list (list R)) (df : R) (n : nat) (factor : R) : result (list R) :=
  let mx := vmax (concat mags) in
  bind (seq_result (map (fun col => group_delay_direct (minimum_phase_mag mx col (n mod 2 =? 1)%nat) df) mags)) (fun gds =>
  Ok (map (fun g => factor * (vmax g + 1 / 1000)) gds)).
(** L767-784: time data of one channel before trimming *)
Definition lin_phase_td (n : nat) (f mags : list R) (delay : R) : list R :=
  let ph := real_phase (map (fun v => - 2 * PI * v * delay) f) in
  irfft_n n (mk (length mags) (fun k => cmul (rc (get mags k)) (cexp (0, get ph k)))).
(** L666-786. [gd] is the delay in milliseconds. *)
Definition lin_phase_from_mag (s : spectrum) (fs : Z) (gd : option R) (check : bool) (factor : R) : result signal :=
  let r := IZR fs in
  let all d := repeat d (length (sp_d s)) in
  bind (match gd with None => Ok (1 / 2) | Some g => if Req_EM_T (g / 1000 * 2) 0 then Err ZeroDivisionError else Ok (1 / (g / 1000 * 2) * (9 / 10)) end) (fun df =>
  bind (freq_vector df r) (fun '(f, df, n) =>
  bind (mags_at s f) (fun mags =>
  bind (match gd, check with
    | Some g, false => Ok (f, n, mags, all (g / 1000))
    | _, _ =>
      if Rlt_dec factor 1 then Err AssertionError else
      bind (least_delays mags df n factor) (fun ld =>
      bind (match gd with
        | None => Ok ld
        | Some g => if forallb (fun d => if Rle_dec d (g / 1000) then true else false) ld then Ok (all (g / 1000)) else Err AssertionError
        end) (fun ds =>
      if existsb (fun d => if Rlt_dec (INR n / r) (d * 2) then true else false) ds then
        if Req_EM_T (vmax ds * 2) 0 then Err ZeroDivisionError else
        bind (freq_vector (1 / (vmax ds * 2) * (9 / 10)) r) (fun '(f, _, n) => bind (mags_at s f) (fun mags => Ok (f, n, mags, ds)))
      else Ok (f, n, mags, ds)))
    end) (fun '(f, n, mags, ds) =>
  let len := Z.to_nat (truncate (2 * vmax ds * r + 1 / 2)) in
  ir_from_time_data (map (fun p => pad_trim_col len true (lin_phase_td n f (fst p) (snd p))) (combine mags ds)) fs)))).
