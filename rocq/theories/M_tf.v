(** Model of transfer_functions/transfer_functions.py compute_transfer_function (L420-536). *)
From Coq Require Import List Arith Lia ZArith Bool Reals.
From Verif Require Import Alg Spec M_arrays M_frames Dft M_scaling M_welch.
Import ListNotations.
Local Open Scope R_scope.

(** transfer_functions/enums.py L4-15 *)
Inductive tf_mode := H1 | H2 | H3.
Definition c_is_zero (z : C) : bool := if Req_EM_T (fst z) 0 then if Req_EM_T (snd z) 0 then true else false else false.
(** numpy's division; a zero denominator gives nan or inf, modelled as None *)
Definition cdiv (a b : C) : option C := if c_is_zero b then None else Some (cmul a (cinv b)).
(** L523-531, one bin. The real arrays G_xx, G_yy are complex numbers with zero imaginary part here. *)
Definition tf_bin (mode : tf_mode) (gxx gyy gyx gxy : C) : option C :=
  match mode with
  | H1 => cdiv gxy gxx
  | H2 => cdiv gyy gyx
  | H3 => match cdiv gxy (rc (sqrt (cabs2 gxy))), cdiv gyy gxx with Some u, Some q => Some (cmul u (csqrt q)) | _, _ => None end
  end.
(** L532; storing into a real array keeps the real part *)
Definition coherence_bin (gxx gyy gxy : C) : option R :=
  match cdiv (rc (cabs2 gxy)) gxx with Some q => option_map fst (cdiv q gyy) | None => None end.
(** one output channel (L490-532); every _welch call gets 1-D data *)
Definition tf_channel (mode : tf_mode) (x y : list R) (fs : R) (window : list R) (w overlap : nat) (detrend md : bool) (s : scaling)
  : result (list (option C) * list (option R)) :=
  let psd a b := welch true a b fs window w overlap detrend md s in
  bind (psd x None) (fun gxx => bind (psd y None) (fun gyy => bind (psd y (Some x)) (fun gyx => bind (psd x (Some y)) (fun gxy =>
  let at_ l k := nth k l (rc 0) in
  Ok (mk (w / 2 + 1) (fun k => tf_bin mode (at_ gxx k) (at_ gyy k) (at_ gyx k) (at_ gxy k)),
      mk (w / 2 + 1) (fun k => coherence_bin (at_ gxx k) (at_ gyy k) (at_ gxy k))))))).
(** compute_transfer_function: [ins] and [outs] are the channels of rectangular signals. The parameters of the input signal's spectrum
    are [window] (values), [overlap], [detrend], [md] (median) and [s]. G_yx is computed here in every mode; in the code only for H2. *)
Definition compute_tf (mode : tf_mode) (outs ins : list (list R)) (fs_out fs_in : R) (window : list R) (w overlap : nat) (detrend md : bool) (s : scaling)
  : result (list (list (option C) * list (option R))) :=
  if Req_EM_T fs_in fs_out then
    if negb (length (hd [] ins) =? length (hd [] outs))%nat then Err AssertionError else
    if negb ((length ins =? 1) || (length ins =? length outs))%nat then Err AssertionError else
    sequence (mk (length outs) (fun n => tf_channel mode (nth (if (length ins =? 1)%nat then 0 else n) ins []) (nth n outs []) fs_in window w overlap detrend md s))
  else Err AssertionError.
