(** Model of the group delay functions: classes/filter_helpers.py (_group_delay_filter), standard/_standard_backend.py
    (_group_delay_direct) and transfer_functions/transfer_functions.py (group_delay). Samples are real numbers, complex values pairs. *)
From Coq Require Import List Arith Lia ZArith Bool Reals.
From Verif Require Import Alg Spec Dft M_arrays M_signal M_block M_latency M_tf M_ir M_minphase.
Import ListNotations.
Local Open Scope R_scope.

(** np.polyval(c, z) for real coefficients (Horner, highest power first) *)
Definition cpolyval (c : list R) (z : C) : C := fold_left (fun acc v => cadd (cmul acc z) (rc v)) c (rc 0).
(** np.linspace(0, pi, L)[i] *)
Definition omega (L i : nat) : R := PI * INR i / INR (L - 1).
(** ** classes/filter_helpers.py *)
(** L188-205 of L167-207 _group_delay_filter at one angular frequency: c = convolve(b, a[::-1]) (real coefficients), the ratio of the ramped and the plain
    polynomial, minus len(a) - 1. A zero denominator gives nan or inf, replaced by 0. Result in samples. *)
Definition gd_at (b a : list R) (w : R) : R :=
  let c := conv_full b (rev a) in
  let cr := mk (length c) (fun t => get c t * INR t) in
  match cdiv (cpolyval cr (cis w)) (cpolyval c (cis w)) with
  | Some q => fst q - INR (length a) + 1
  | None => 0
  end.
(** L167-207: frequencies and group delays in seconds *)
Definition group_delay_filter (b a : list R) (L : nat) (fs : R) : list R * list R :=
  (mk L (fun i => omega L i / PI * (fs / 2)), mk L (fun i => gd_at b a (omega L i) / fs)).

(** ** standard/_standard_backend.py *)
(** Python's and numpy's x % y for y > 0 *)
Definition rmod (x y : R) : R := x - y * IZR (Int_part (x / y)).
(** the phase jump np.unwrap puts in place of dd (discont = pi, period = 2 pi) *)
Definition unwrap_jump (dd : R) : R :=
  let m := rmod (dd + PI) (2 * PI) - PI in
  let m := if Req_EM_T m (- PI) then if Rlt_dec 0 dd then PI else m else m in
  if Rlt_dec (Rabs dd) PI then dd else m.
(** np.unwrap: the corrections are accumulated, so sample k is the first phase plus the corrected jumps up to k *)
Fixpoint unwrap_from (acc prev : R) (l : list R) : list R :=
  match l with [] => [] | v :: t => let acc' := acc + unwrap_jump (v - prev) in acc' :: unwrap_from acc' v t end.
Definition unwrap (l : list R) : list R := match l with [] => [] | v :: t => v :: unwrap_from v v t end.
(** np.gradient(u, d): central differences, one-sided at the ends; fewer than two samples raise ValueError *)
Definition gradient (u : list R) (d : R) : result (list R) :=
  let n := length u in
  if (n <? 2)%nat then Err ValueError
  else Ok (mk n (fun k => if (k =? 0)%nat then (get u 1 - get u 0) / d
                          else if (k =? n - 1)%nat then (get u (n - 1) - get u (n - 2)) / d
                          else (get u (k + 1) - get u (k - 1)) / (2 * d))).
(** L37-63 _group_delay_direct for the phases of one channel *)
Definition group_delay_direct (phase : list R) (df : R) : result (list R) :=
  if Req_EM_T df 1 then bind (gradient (unwrap phase) 1) (fun g => Ok (map Ropp g))
  else bind (gradient (unwrap phase) df) (fun g => Ok (map (fun v => - v / PI / 2) g)).

(** ** transfer_functions/transfer_functions.py *)
(** L893-898, L918-925: group_delay, analytic, no smoothing, one channel. f has len(td) // 2 + 1 entries. *)
Definition group_delay_analytic (x : list R) (fs : R) (remove_latency : bool) : list R * list R :=
  let len := if remove_latency then next_fast_len (length x * 8) else length x in
  let td := pad_trim_col len true x in
  let f := rfftfreq len fs in
  let b := if remove_latency then skipn (argmax (map Rabs td) - 1) td else td in
  (f, snd (group_delay_filter b [1] (length f) fs)).
(** L900-915 with remove_ir_latency = False: numerical computation, one channel; f[1] fails for a single sample *)
Definition group_delay_numeric (x : list R) (fs : R) : result (list R * list R) :=
  let n := length x in
  let f := rfftfreq n fs in
  if (length f <? 2)%nat then Err IndexError
  else bind (group_delay_direct (map angle (rfft n x)) (get f 1 - get f 0)) (fun g => Ok (f, g)).
