(** Model of the conversions between impulse responses and FIR filters: transfer_functions.py L1193-1285 (ir_to_filter, filter_to_ir), the
    coefficient setter and the properties of Filter they use (filter.py L445-470, L485-535, L620-642) and ImpulseResponse.from_time_data
    (impulse_response.py L69-137). Coefficients and samples are real numbers; complex coefficients are not modelled. *)
From Coq Require Import List Arith Lia ZArith Bool Reals.
From Verif Require Import Alg Spec M_arrays M_signal M_filter.
Import ListNotations.
Local Open Scope R_scope.

(** np.trim_zeros(a, "b") *)
Fixpoint trim_back (a : list R) : list R :=
  match a with
  | [] => []
  | v :: t => match trim_back t with [] => if Req_EM_T v 0 then [] else [v] | u => v :: u end
  end.
(** A filter with coefficients; a filter with second-order sections (made from sections or zeros and poles) *)
Record cfilter := mkCF { c_b : list R; c_a : list R; c_fs : Z }.
Inductive afilter := FBa (f : cfilter) | FSos (fs : Z).
(** filter.py L238-260 from_ba and L485-535, the setter *)
Definition from_ba (b a : list R) (fs : Z) : cfilter :=
  match trim_back a with [a0] => mkCF (map (fun v => v / a0) b) [a0 / a0] fs | _ => mkCF b a fs end.
(** L445-458 *)
Definition is_iir (f : afilter) : bool :=
  match f with FSos _ => true | FBa f => match c_a f with [v] => if Req_EM_T v 1 then false else true | _ => true end end.
(** L620-642: order + 1 *)
Definition taps (f : cfilter) : nat := max (length (c_b f)) (length (c_a f)).
(** transfer_functions.py L1193-1249 ir_to_filter. [change] is the phase mode: [Ok] for "direct", the minimum or linear phase response otherwise *)
Definition ir_to_filter (change : signal -> result signal) (channel : option Z) (s : signal) : result (cfilter + list cfilter) :=
  bind match channel with Some ch => get_channels [ch] s | None => Ok s end (fun s1 =>
  bind (change s1) (fun s2 =>
  let fs := map (fun ch => from_ba ch [1] (s_fs s2)) (s_re s2) in
  match channel, fs with Some _, f :: _ => Ok (inl f) | _, _ => Ok (inr fs) end)).
(** impulse_response.py L109-137 from_time_data: the samples are set twice, as a Signal and as an ImpulseResponse *)
Definition ir_from_time_data (m : mat) (fs : Z) : result signal :=
  bind (set_time_data true fs (mkIn m None false)) (fun s => set_time_data true fs (mkIn (s_re s) None false)).
(** transfer_functions.py L1252-1285 filter_to_ir of a Filter. np.max of no samples raises ValueError. *)
Definition filter_to_ir (f : afilter) : result signal :=
  if is_iir f then Err AssertionError else
  match f with
  | FSos _ => Err AssertionError
  | FBa f => match c_b f with [] => Err ValueError | _ => ir_from_time_data [c_b f] (c_fs f) end
  end.
(** the same of a FilterBank; [same] is same_sampling_rate, the rate is that of the first filter *)
Definition padded (n : nat) (b : list R) : list R := b ++ repeat 0 (n - length b).
Definition bank_to_ir (same : bool) (l : list afilter) : result signal :=
  if existsb is_iir l then Err AssertionError else
  if negb same then Err AssertionError else
  match seq_result (map (fun f => match f with FBa f => Ok f | FSos _ => Err AssertionError end) l) with
  | Ok ((f0 :: _) as fs) =>
      let n := fold_right max 0%nat (map taps fs) in
      ir_from_time_data (map (fun f => padded n (c_b f)) fs) (c_fs f0)
  | _ => Err ValueError
  end.
