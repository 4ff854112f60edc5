(** Model of the cached spectra of Signal / ImpulseResponse: classes/signal.py, classes/impulse_response.py.
    The numerical routines are parameters (any functions of the arguments the code passes to them):
      welch data fs rest scaling          signal.py L883-894 (_welch)
      fft data fs window rest smoothing scaling   signal.py L895-938
      csm_welch data fs rest scaling      signal.py L978-988
      csm_fft spectrum scaling window fs  signal.py L996-1001
      stft data fs params                 signal.py L1036-1046
    [rest] are the entries of the parameter dictionary other than method, smoothing and scaling. *)
From Coq Require Import List Arith Lia ZArith Bool.
From Verif Require Import Alg Spec M_arrays.
Import ListNotations.

Section Cache.
Context {T W Sc Re Q V C G : Type}.
Variable welch : T -> Z -> Re -> Sc -> V.
Variable fft : T -> Z -> option W -> Re -> Z -> Sc -> V.
Variable csm_welch : T -> Z -> Re -> Sc -> C.
Variable csm_fft : V -> Sc -> option W -> Z -> C.
Variable stft : T -> Z -> Q -> G.
Variable nch : T -> nat.
Variable backward : Sc.   (* SpectrumScaling.FFTBackward *)
Variable rest0 : Re.      (* default values of the other arguments of set_spectrum_parameters *)

Inductive meth := Welch | Fft.
(** signal.py L562-571: the dictionary _spectrum_parameters. Smoothing is an integer here. *)
Record params := mkP { p_meth : meth; p_smooth : Z; p_rest : Re; p_scal : Sc }.
Variable same_params : forall p q : params, {p = q} + {p <> q}.
Variable same_sg : forall p q : Q, {p = q} + {p <> q}.

(** Attributes of a Signal which matter: data, rate, window, parameters, activate_cache, cached values
    (hasattr = Some) and the three flags __spectrum_state_update, __csm_state_update, __spectrogram_state_update. *)
Record st := mkSt { t_data : T; t_fs : Z; t_win : option W; t_par : params; t_sg : Q; t_cache : bool;
  c_spec : option V; c_csm : option C; c_sg : option G; u_spec : bool; u_csm : bool; u_sg : bool }.

Inductive op :=
| SetData (d : T)            (* time_data setter L223-301 and the channel operations ending in it *)
| SetRate (fs : Z)           (* L328-348 *)
| SetParams (p : params)     (* set_spectrum_parameters L562-588 *)
| SetScaling (s : Sc)        (* L603-628 *)
| SetMethod (m : meth)       (* L640-666 *)
| SetSmoothing (z : Z)       (* L682-704 *)
| SetSgParams (q : Q)        (* set_spectrogram_parameters L752-773 *)
| SetWindow (w : W)          (* impulse_response.py L139-152 *)
| ClearWindow                (* signal.py L854-858 *)
| SetCache (b : bool)        (* plain attribute activate_cache, L94 *)
| EditInPlace (d : T)        (* s.time_data[...] = v : the getter L208-219 returns the stored array *)
| PlotMagnitude              (* L1104-1111; plot_phase L1496-1503 has the same steps *)
| PlotGroupDelay             (* L1333-1341 *)
| GetSpectrum (force : bool) (* L861-946 *)
| GetCsm (force : bool)      (* L948-1007 *)
| GetSpectrogram (force : bool). (* L1009-1056 *)
Inductive out := ODone | OSpec (v : V) | OCsm (c : C) | OSg (g : G) | OErr.

Definition upd_all (s : st) : st :=
  mkSt (t_data s) (t_fs s) (t_win s) (t_par s) (t_sg s) (t_cache s) (c_spec s) (c_csm s) (c_sg s) true true true.
(** signal.py L876-938 and L980: the computation of the spectrum with the stored parameters. *)
Definition compute (d : T) (fs : Z) (w : option W) (p : params) : V :=
  match p_meth p with Welch => welch d fs (p_rest p) (p_scal p) | Fft => fft d fs w (p_rest p) (p_smooth p) (p_scal p) end.
Definition with_par (p : params) (us uc : bool) (s : st) : st :=
  mkSt (t_data s) (t_fs s) (t_win s) p (t_sg s) (t_cache s) (c_spec s) (c_csm s) (c_sg s) us uc (u_sg s).
(** signal.py L873-946 get_spectrum. *)
Definition get_spectrum (force : bool) (s : st) : st * V :=
  match c_spec s with
  | Some v => if u_spec s || force then
      let v' := compute (t_data s) (t_fs s) (t_win s) (t_par s) in
      (if t_cache s then mkSt (t_data s) (t_fs s) (t_win s) (t_par s) (t_sg s) (t_cache s) (Some v') (c_csm s) (c_sg s) false (u_csm s) (u_sg s) else s, v')
    else (s, v)
  | None => let v' := compute (t_data s) (t_fs s) (t_win s) (t_par s) in
      (if t_cache s then mkSt (t_data s) (t_fs s) (t_win s) (t_par s) (t_sg s) (t_cache s) (Some v') (c_csm s) (c_sg s) false (u_csm s) (u_sg s) else s, v')
  end.
Definition set_scal (x : Sc) (p : params) : params := mkP (p_meth p) (p_smooth p) (p_rest p) x.
Definition set_smooth (z : Z) (p : params) : params := mkP (p_meth p) z (p_rest p) (p_scal p).
Definition set_meth (m : meth) (p : params) : params := mkP m (p_smooth p) (p_rest p) (p_scal p).
(** signal.py L603-628: the scaling setter always asks for new spectra and matrices. *)
Definition scaling_setter (x : Sc) (s : st) : st := with_par (set_scal x (t_par s)) true true s.
(** signal.py L965-1007 get_csm. *)
Definition get_csm (force : bool) (s : st) : st * out :=
  if nch (t_data s) <=? 1 then (s, OErr) else
  let store c s := if t_cache s then mkSt (t_data s) (t_fs s) (t_win s) (t_par s) (t_sg s) (t_cache s) (c_spec s) (Some c) (c_sg s) (u_spec s) false (u_sg s) else s in
  let fresh :=
    match p_meth (t_par s) with
    | Welch => let c := csm_welch (t_data s) (t_fs s) (p_rest (t_par s)) (p_scal (t_par s)) in (store c s, OCsm c)
    | Fft => let old := p_scal (t_par s) in
        let (s1, sp) := get_spectrum false (scaling_setter backward s) in
        let c := csm_fft sp old (t_win s1) (t_fs s1) in
        (store c (scaling_setter old s1), OCsm c)
    end in
  match c_csm s with Some c => if force || u_csm s then fresh else (s, OCsm c) | None => fresh end.
(** signal.py L1029-1056 get_spectrogram: the flag is cleared even if nothing is stored. *)
Definition get_sg (force : bool) (s : st) : st * G :=
  let g := stft (t_data s) (t_fs s) (t_sg s) in
  let fresh := (mkSt (t_data s) (t_fs s) (t_win s) (t_par s) (t_sg s) (t_cache s) (c_spec s) (c_csm s)
                 (if t_cache s then Some g else c_sg s) (u_spec s) (u_csm s) false, g) in
  match c_sg s with Some g0 => if force || u_sg s then fresh else (s, g0) | None => fresh end.
(** signal.py L562-588 set_spectrum_parameters (the attribute exists already after the constructor). *)
Definition set_params (p : params) (s : st) : st :=
  if same_params (t_par s) p then s else with_par p true true s.
(** signal.py L1333-1341: parameters used by plot_group_delay. *)
Definition gd_params : params := mkP Fft 0 rest0 backward.

Definition step (s : st) (o : op) : st * out :=
  match o with
  | SetData d => (mkSt d (t_fs s) None (t_par s) (t_sg s) (t_cache s) (c_spec s) (c_csm s) (c_sg s) true true true, ODone)
  | SetRate fs => (mkSt (t_data s) fs (t_win s) (t_par s) (t_sg s) (t_cache s) (c_spec s) (c_csm s) (c_sg s) true true true, ODone)
  | SetParams p => (set_params p s, ODone)
  | SetScaling x => (scaling_setter x s, ODone)
  | SetMethod m => (with_par (set_meth m (t_par s)) true true s, ODone)
  | SetSmoothing z => if (z <? 0)%Z then (s, OErr) else (with_par (set_smooth z (t_par s)) (u_spec s) (u_csm s) s, ODone)
  | SetSgParams q => (if same_sg (t_sg s) q then s else
      mkSt (t_data s) (t_fs s) (t_win s) (t_par s) q (t_cache s) (c_spec s) (c_csm s) (c_sg s) (u_spec s) (u_csm s) true, ODone)
  | SetWindow w => (mkSt (t_data s) (t_fs s) (Some w) (t_par s) (t_sg s) (t_cache s) (c_spec s) (c_csm s) (c_sg s) (u_spec s) (u_csm s) (u_sg s), ODone)
  | ClearWindow => (mkSt (t_data s) (t_fs s) None (t_par s) (t_sg s) (t_cache s) (c_spec s) (c_csm s) (c_sg s) (u_spec s) (u_csm s) (u_sg s), ODone)
  | SetCache b => (mkSt (t_data s) (t_fs s) (t_win s) (t_par s) (t_sg s) b (c_spec s) (c_csm s) (c_sg s) (u_spec s) (u_csm s) (u_sg s), ODone)
  | EditInPlace d => (mkSt d (t_fs s) (t_win s) (t_par s) (t_sg s) (t_cache s) (c_spec s) (c_csm s) (c_sg s) (u_spec s) (u_csm s) (u_sg s), ODone)
  | PlotMagnitude =>
      let old := p_smooth (t_par s) in
      let (s1, v) := get_spectrum false (with_par (set_smooth 0 (t_par s)) (u_spec s) (u_csm s) s) in
      (with_par (set_smooth old (t_par s1)) (u_spec s1) (u_csm s1) s1, OSpec v)
  | PlotGroupDelay =>
      let old := t_par s in
      let (s1, v) := get_spectrum false (set_params gd_params s) in
      (with_par old (u_spec s1) (u_csm s1) s1, OSpec v)
  | GetSpectrum f => let (s1, v) := get_spectrum f s in (s1, OSpec v)
  | GetCsm f => get_csm f s
  | GetSpectrogram f => let (s1, g) := get_sg f s in (s1, OSg g)
  end.
Fixpoint run (s : st) (l : list op) : list out :=
  match l with [] => [] | o :: t => let (s1, x) := step s o in x :: run s1 t end.
(** signal.py L90-115 constructor: flags set, nothing stored. *)
Definition fresh (d : T) (fs : Z) (p : params) (q : Q) (cache : bool) : st :=
  mkSt d fs None p q cache None None None true true true.
(** signal.py L1668-1680 copy_with_new_time_data. *)
Definition copy_with (d : T) (s : st) : st := fresh d (t_fs s) (t_par s) (t_sg s) (t_cache s).
End Cache.
