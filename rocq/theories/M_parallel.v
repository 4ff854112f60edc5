(** Model of classes/parallel_filter.py: second-order sections in parallel with an FIR part, for whole signals and sample by sample.
    Simplifications: the solution of the least-squares problem (scipy.linalg.lstsq) and the denominators of the sections (zpk2sos of the poles) are
    parameters; the assertions on poles, dimensions and sampling rates are left out; whole signals are one channel. *)
From Coq Require Import List Arith Lia ZArith Bool Reals.
From Verif Require Import Alg Spec M_realtime M_filter M_coeffs.
Import ListNotations.
Local Open Scope R_scope.

(** scipy.signal.sos2tf of one section: numpy's polymul drops the zeros in front of the numerator (the denominator begins with one) *)
Fixpoint drop_zeros (b : list R) : list R := match b with [] => [] | v :: t => if Req_EM_T v 0 then drop_zeros t else b end.
Definition section_ba (s : section) : list R * list R := (match drop_zeros (fst s) with [] => [0] | b => b end, snd s).

(** real-time filters with their columns: self.iir, self.fir, self.iir_delay; an attribute that was never set is None *)
Record rts := mkRt { r_iir : list ((list R * list R) * list (list R)); r_fir : option (list R * list (@fir_state R)); r_dly : option (list R * list (@fir_state R)) }.
(** the object; [p_sos] and [p_rt] are None before the first fit *)
Record pf := mkPf { p_nfir : nat; p_off : nat; p_delay : nat; p_sos : option (list section); p_fir : list R; p_rt : option rts }.

(** L77-79, L81-109: set_parameters. None is compared with zero before it is looked for. *)
Definition offset_samples (fs ms : R) : nat := Z.to_nat (Z.max 1 (Int_part (fs * ms / 1000 + 1 / 2))).
Definition set_parameters (fs : R) (delay : option Z) (ms : R) (p : pf) : pf * result unit :=
  match delay with
  | None => (p, Err TypeError)
  | Some d => if (d <? 0)%Z then (p, Err AssertionError) else (mkPf (p_nfir p) (offset_samples fs ms) (Z.to_nat d) (p_sos p) (p_fir p) (p_rt p), Ok tt)
  end.
Definition new_parallel (n_fir : nat) (fs : R) : pf := fst (set_parameters fs (Some 0%Z) 0 (mkPf n_fir 1 0 None [] None)).

(** L111-138 set_coefficients: two numbers per section, the third stays; the filters for single samples stay *)
Definition set_coefficients (iir : list (R * R)) (fir : option (list R)) (p : pf) : pf * result unit :=
  match p_sos p with
  | None => (p, Err AttributeError)
  | Some sos => if negb (length iir =? length sos)%nat then (p, Err AssertionError) else
      let sos' := map (fun q : (R * R) * section => let '((u, v), (b, a)) := q in ([u; v; get b 2], a)) (combine iir sos) in
      let f := match fir with Some f => f | None => [] end in
      (mkPf (length f) (p_off p) (p_delay p) (Some sos') f (p_rt p), Ok tt)
  end.

(** L222-231: zeros between the FIR coefficients; a slice with another number of places than coefficients raises *)
Definition expand (off : nat) (f : list R) : result (list R) :=
  let n := length f in
  if ((1 <? off) && (1 <? n))%nat%bool then
    let L := (off * (n - 1) + 1)%nat in
    let places := ((L + off) / (off + 1))%nat in
    if (places =? n - 1)%nat then Ok (mk L (fun i => if (i =? L - 1)%nat then get f (n - 1) else if (i mod (off + 1) =? 0)%nat then get f (i / (off + 1)) else 0))
    else Err ValueError
  else Ok f.
(** L236-261: the real-time filters are made anew, each with one channel; fir and iir_delay stay from before when there is nothing to make *)
Definition realtime (delay : nat) (sos : list section) (f : list R) (old : option rts) : rts :=
  let new_fir (b : list R) := Some (b, [rt_fresh (fir_filter b)]) in
  mkRt (map (fun s => (section_ba s, [rt_fresh (iir_filter (fst (section_ba s)) (snd (section_ba s)))])) sos)
       (match f with [] => match old with Some r => r_fir r | None => None end | _ => new_fir f end)
       (if (0 <? delay)%nat then new_fir (repeat 0 delay ++ [1]) else match old with Some r => r_dly r | None => None end).
(** L140-234 fit_to_ir after the least-squares problem: three numbers per section and the FIR coefficients. [dens]: a1 and a2 of the sections. *)
Definition fit (dens : list (R * R)) (sol : list R) (p : pf) : pf * result unit :=
  let sos := mk (length dens) (fun s => ([get sol (3 * s); get sol (3 * s + 1); get sol (3 * s + 2)], [1; fst (nth s dens (0, 0)); snd (nth s dens (0, 0))])) in
  let f := skipn (3 * length dens) sol in
  match expand (p_off p) f with
  | Err e => (mkPf (p_nfir p) (p_off p) (p_delay p) (Some sos) f (p_rt p), Err e)
  | Ok ff => (mkPf (p_nfir p) (p_off p) (p_delay p) (Some sos) ff (Some (realtime (p_delay p) sos ff (p_rt p))), Ok tt)
  end.

(** L263-294 filter_signal, one channel *)
Definition delayed (d : nat) (x : list R) : list R := firstn (length x) (repeat 0 d ++ x).
Definition add (a b : list R) : list R := map (fun q => fst q + snd q) (combine a b).
Definition filter_signal (p : pf) (x : list R) : result (list R) :=
  match p_sos p with
  | None => Err AttributeError
  | Some sos =>
      let y0 := if (0 <? p_nfir p)%nat then mk (length x) (conv (p_fir p) x) else repeat 0 (length x) in
      Ok (fold_left (fun y s => add y (fst (sosfilt [s] (delayed (p_delay p) x) [[0; 0]]))) sos y0)
  end.
(** L296-299 get_ir *)
Definition get_ir (p : pf) (n : nat) : result (list R) := filter_signal p (mk n (fun i => if (i =? 0)%nat then 1 else 0)).

(** one call on an FIR filter that may be missing *)
Definition fir_op (o : rt_op R) (r : option (list R * list (@fir_state R))) : option (list R * list (@fir_state R)) * rt_out R :=
  match r with
  | None => (None, Raise AttributeError)
  | Some (b, cols) => let (c, out) := rt_step (fir_filter b) cols o in (Some (b, c), out)
  end.
(** the loops over self.iir: the call goes to each; their values are added to [y]; the first exception ends it *)
Fixpoint iir_ops (o : rt_op R) (l : list ((list R * list R) * list (list R))) (y : R) : list ((list R * list R) * list (list R)) * rt_out R :=
  match l with
  | [] => ([], Val y)
  | (ba, cols) :: t =>
      match rt_step (iir_filter (fst ba) (snd ba)) cols o with
      | (c, Raise e) => ((ba, c) :: t, Raise e)
      | (c, Val v) => let (t', r) := iir_ops o t (y + v) in ((ba, c) :: t', r)
      | (c, Done) => let (t', r) := iir_ops o t y in ((ba, c) :: t', r)
      end
  end.
(** L301-333: set_n_channels, reset_state, process_sample *)
Definition with_rt (p : pf) (r : rts) : pf := mkPf (p_nfir p) (p_off p) (p_delay p) (p_sos p) (p_fir p) (Some r).
Definition pf_step (p : pf) (o : rt_op R) : pf * rt_out R :=
  match p_rt p with
  | None => (p, Raise AttributeError)
  | Some r =>
      match o with
      | Proc x ch =>
          let '(f, yf) := if (1 <? p_nfir p)%nat then fir_op o (r_fir r) else (r_fir r, Val (if (p_nfir p =? 1)%nat then get (p_fir p) 0 * x else 0)) in
          match yf with
          | Val y =>
              let '(d, yd) := if (0 <? p_delay p)%nat then fir_op o (r_dly r) else (r_dly r, Val x) in
              match yd with
              | Val x' => let (i, out) := iir_ops (Proc x' ch) (r_iir r) y in (with_rt p (mkRt i f d), out)
              | e => (with_rt p (mkRt (r_iir r) f d), e)
              end
          | e => (with_rt p (mkRt (r_iir r) f (r_dly r)), e)
          end
      | _ =>
          let (i, _) := iir_ops o (r_iir r) 0 in
          let need := match o with SetN _ => (0 <? p_nfir p)%nat | _ => (1 <? p_nfir p)%nat end in
          let '(f, e) := if need then fir_op o (r_fir r) else (r_fir r, Done) in
          match e with
          | Raise _ => (with_rt p (mkRt i f (r_dly r)), e)
          | _ => let '(d, e) := if (0 <? p_delay p)%nat then fir_op o (r_dly r) else (r_dly r, Done) in (with_rt p (mkRt i f d), e)
          end
      end
  end.
