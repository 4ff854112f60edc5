(** Model of classes/calibration_data.py: CalibrationData. The recording is a Signal, given as such or made from a tuple; paths are not
    modelled. Samples are real numbers, nan and inf are None. *)
From Coq Require Import List Arith ZArith Bool Reals.
From Verif Require Import Alg Spec M_arrays M_signal M_dynamics M_level.
Import ListNotations.
Local Open Scope R_scope.

(** L15-63: the attributes. [c_factors] is set by the first computation. [c_named] says that the spectrum parameters of the recording
    were replaced by strings (L119-121): the recording is the caller's object, it is not copied in L53-60. *)
Record calib := mkCal { c_sig : signal; c_spl : R; c_high : bool; c_update : bool; c_factors : list (option R); c_named : bool }.
Definition new_calib (s : signal) (spl : R) (high : bool) : calib := mkCal s spl high true [] false.

(** L65-104 add_calibration_channel *)
Definition add_calibration_channel (s : signal) (allow : bool) (c : calib) : calib * result unit :=
  match append_signals allow true (c_sig c) [s] with
  | Ok s' => (mkCal s' (c_spl c) (c_high c) true (c_factors c) (c_named c), Ok tt)
  | Err e => (c, Err e)
  end.

(** L113-115 *)
Definition pressure (spl : R) : R := Rpower 10 (spl / 20) * (20 / 10 ^ 6).
Definition factors_of (s : signal) (spl : R) : list (option R) := map (fun col => div_opt (pressure spl) (rms col)) (s_re s).
(** L118-124 _get_rms_from_spectrum: the parameters are set to the strings "standard" and "amplitude spectrum"; get_spectrum
    (classes/signal.py L906-911) then asks the string for fft_norm. *)
Definition rms_from_spectrum (c : calib) : calib * result (list R) :=
  (mkCal (c_sig c) (c_spl c) (c_high c) (c_update c) (c_factors c) true, Err AttributeError).
(** classes/signal.py L861-911 on the recording: only whether it raises *)
Definition recording_spectrum (c : calib) : result unit := if c_named c then Err AttributeError else Ok tt.
(** L106-116 _compute_calibration_factors *)
Definition compute_factors (c : calib) : calib * result unit :=
  if c_update c then
    if c_high c then (mkCal (c_sig c) (c_spl c) (c_high c) false (factors_of (c_sig c) (c_spl c)) (c_named c), Ok tt)
    else match rms_from_spectrum c with
         | (c', Ok r) => (mkCal (c_sig c') (c_spl c') (c_high c') false (map (div_opt (pressure (c_spl c'))) r) (c_named c'), Ok tt)
         | (c', Err e) => (c', Err e)
         end
  else (c, Ok tt).

(** L163-167: one Signal. [time_data *= factors] multiplies the real part and assigns it, so that the setter drops the imaginary part. *)
Definition times (fs : list (option R)) (m : mat) : option mat :=
  opt_seq (map (fun p => option_map (fun f => scale f (snd p)) (fst p)) (combine fs m)).
Definition calibrate_one (fs : list (option R)) (s : signal) : option (result signal) :=
  option_map (fun m => set_time_data false (s_fs s) (mkIn m None false)) (times fs (s_re s)).
(** L126-178 calibrate_signal. A Signal is the list with that signal, a MultiBandSignal the list of its bands (non-empty, all of them with
    as many channels as the first one). None: some sample is nan or infinite. *)
Definition calibrate_signal (sigs : list signal) (force : bool) (c : calib) : calib * result (option (list (result signal))) :=
  let c := if force then mkCal (c_sig c) (c_spl c) (c_high c) true (c_factors c) (c_named c) else c in
  match compute_factors c with
  | (c, Err e) => (c, Err e)
  | (c, Ok _) =>
    let k := match sigs with s :: _ => ncols (s_re s) | [] => 0%nat end in
    let f := c_factors c in
    if (1 <? length f)%nat then
      if (k =? length f)%nat then (c, Ok (opt_seq (map (calibrate_one f) sigs))) else (c, Err AssertionError)
    else (c, Ok (opt_seq (map (calibrate_one (repeat (hd None f) k)) sigs)))
  end.

(** Calls on a CalibrationData object and changes of its attributes by hand (L139-142 of the documentation) *)
Inductive cal_op := AddChannel (s : signal) (allow : bool) | SetLevel (spl : R) | SetRecording (s : signal) | Calibrate (sigs : list signal) (force : bool).
Definition cal_step (c : calib) (o : cal_op) : calib :=
  match o with
  | AddChannel s a => fst (add_calibration_channel s a c)
  | SetLevel v => mkCal (c_sig c) v (c_high c) (c_update c) (c_factors c) (c_named c)
  | SetRecording s => mkCal s (c_spl c) (c_high c) (c_update c) (c_factors c) (c_named c)
  | Calibrate l f => fst (calibrate_signal l f c)
  end.
