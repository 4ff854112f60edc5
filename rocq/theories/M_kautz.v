(** Model of classes/kautz_filter.py (without the pole search, L337-420, which needs a least-squares solver). *)
From Coq Require Import List Arith Lia ZArith Reals Bool.
From Verif Require Import Alg Spec M_realtime M_filter.
Import ListNotations.
Local Open Scope R_scope.

(** L101-112, L133-135: poles split into real ones (imaginary part 0) and the others, with their weights. *)
Record kautz := mkK { kz_real : list R; kz_cplx : list (R * R); kz_cr : list R; kz_cc : list R }.
Definition is_real (p : R * R) : bool := if Req_EM_T (snd p) 0 then true else false.
(** L114-136 set_filter_coefficients *)
Definition kz_set_coeffs (k : kautz) (cr cc : list R) : result kautz :=
  if (2 * length (kz_cplx k) =? length cc)%nat then
    if (length (kz_real k) =? length cr)%nat then Ok (mkK (kz_real k) (kz_cplx k) cr cc) else Err AssertionError
  else Err AssertionError.
(** L56-69 __init__ *)
Definition kz_new (poles : list (R * R)) : result kautz :=
  if existsb (fun p => if Rlt_dec (snd p) 0 then true else false) poles then Err AssertionError else
  if existsb (fun p => if Rle_dec 1 (sqrt (fst p * fst p + snd p * snd p)) then true else false) poles then Err AssertionError else
  let ps := map fst (filter is_real poles) in
  let zs := filter (fun p => negb (is_real p)) poles in
  kz_set_coeffs (mkK ps zs [] []) (repeat 1 (length ps)) (repeat 1 (2 * length zs)).

(** L144-157: filters of a real pole; L159-183: filters of a pole pair. np.abs(z)**2 is written re^2 + im^2. *)
Definition kf_real (p : R) : rtf R R (list R) := iir_filter [sqrt (1 - p * p)] [1; - p].
Definition kf_real_adv (p : R) : rtf R R (list R) := iir_filter [- p; 1] [1; - p].
Definition kq (z : R * R) : R := - (2 * fst z).
Definition kr (z : R * R) : R := fst z * fst z + snd z * snd z.
Definition kf_c1 (z : R * R) : rtf R R (list R) :=
  iir_filter (map (fun v => v * sqrt ((1 - kr z) * (1 + kr z - kq z) / 2)) [1; -1]) [1; kq z; kr z].
Definition kf_c2 (z : R * R) : rtf R R (list R) :=
  iir_filter (map (fun v => v * sqrt ((1 - kr z) * (1 + kr z + kq z) / 2)) [1; 1]) [1; kq z; kr z].
Definition kf_c_adv (z : R * R) : rtf R R (list R) := iir_filter [kr z; kq z; 1] [1; kq z; kr z].

(** One channel's state of all the filters. *)
Definition rstate := (list R * list R)%type.
Definition cstate := (list R * list R * list R)%type.
Definition kstate := (list rstate * list cstate)%type.

(** L207-209, loop over the real poles; [ps], [cs], [ss] are walked together. Returns (y, x, states). *)
Fixpoint kz_loop_real (ps cs : list R) (ss : list rstate) (y x : R) : result (R * R * list rstate) :=
  match ps with
  | [] => Ok (y, x, [])
  | p :: ps' =>
      let (s1, s2) := hd ([], []) ss in
      bind (rt_proc (kf_real p) s1 x) (fun r1 =>
      bind (rt_proc (kf_real_adv p) s2 x) (fun r2 =>
      bind (kz_loop_real ps' (tl cs) (tl ss) (y + fst r1 * get cs 0) (fst r2)) (fun r =>
      let '(y', x', ss') := r in Ok (y', x', (snd r1, snd r2) :: ss'))))
  end.
(** L211-220, loop over the pole pairs. *)
Fixpoint kz_loop_cplx (zs : list (R * R)) (cs : list R) (ss : list cstate) (y x : R) : result (R * list cstate) :=
  match zs with
  | [] => Ok (y, [])
  | z :: zs' =>
      let '(s1, s2, s3) := hd ([], [], []) ss in
      bind (rt_proc (kf_c1 z) s1 x) (fun r1 =>
      bind (rt_proc (kf_c2 z) s2 x) (fun r2 =>
      bind (rt_proc (kf_c_adv z) s3 x) (fun r3 =>
      bind (kz_loop_cplx zs' (tl (tl cs)) (tl ss) (y + (fst r1 * get cs 0 + fst r2 * get cs 1)) (fst r3)) (fun r =>
      let (y', ss') := r in Ok (y', (snd r1, snd r2, snd r3) :: ss')))))
  end.
(** L205-221 process_sample *)
Definition kz_proc (k : kautz) (s : kstate) (x : R) : result (R * kstate) :=
  bind (kz_loop_real (kz_real k) (kz_cr k) (fst s) 0 x) (fun r =>
  let '(y, x', sr) := r in
  bind (kz_loop_cplx (kz_cplx k) (kz_cc k) (snd s) y x') (fun r2 =>
  let (y', sc) := r2 in Ok (y', (sr, sc)))).
(** L185-203 set_n_channels, reset_state. With no poles at all a wrong channel does not raise in the code: this record is
    used for filters with at least one pole. *)
Definition kz_filter (k : kautz) : rtf R R kstate := {|
  rt_okn := fun _ => true;
  rt_fresh := (map (fun p => (rt_fresh (kf_real p), rt_fresh (kf_real_adv p))) (kz_real k),
               map (fun z => (rt_fresh (kf_c1 z), rt_fresh (kf_c2 z), rt_fresh (kf_c_adv z))) (kz_cplx k));
  rt_reset := fun s =>
    (map (fun q => (rt_reset (kf_real (fst q)) (fst (snd q)), rt_reset (kf_real_adv (fst q)) (snd (snd q)))) (combine (kz_real k) (fst s)),
     map (fun q => let '(s1, s2, s3) := snd q in
                   (rt_reset (kf_c1 (fst q)) s1, rt_reset (kf_c2 (fst q)) s2, rt_reset (kf_c_adv (fst q)) s3)) (combine (kz_cplx k) (snd s)));
  rt_proc := kz_proc k |}.

(** scipy.signal.lfilter without zi: zero initial state. *)
Definition lf0 (b a x : list R) : list R := fst (lfilter b a x (repeat 0 (lf_order b a))).
(** L276-335 __process_time_data_vector on one channel: the list of tap outputs (columns of the tap-out matrix). *)
Fixpoint kz_taps_cplx (zs : list (R * R)) (cs : list R) (x : list R) : list (list R) :=
  match zs with
  | [] => []
  | z :: zs' =>
      map (fun v => sqrt ((1 - kr z) * (1 + kr z - kq z) / 2) * v * get cs 0) (lf0 [1; -1] [1; kq z; kr z] x)
      :: map (fun v => sqrt ((1 - kr z) * (1 + kr z + kq z) / 2) * v * get cs 1) (lf0 [1; 1] [1; kq z; kr z] x)
      :: kz_taps_cplx zs' (tl (tl cs)) (lf0 [kr z; kq z; 1] [1; kq z; kr z] x)
  end.
Fixpoint kz_taps (k_cplx : list (R * R)) (cc : list R) (ps cs : list R) (x : list R) : list (list R) :=
  match ps with
  | [] => kz_taps_cplx k_cplx cc x
  | p :: ps' =>
      map (fun v => sqrt (1 - p * p) * v * get cs 0) (lf0 [1] [1; - p] x)
      :: kz_taps k_cplx cc ps' (tl cs) (lf0 [- p; 1] [1; - p] x)
  end.
Definition kz_tapout (k : kautz) (x : list R) : list (list R) := kz_taps (kz_cplx k) (kz_cc k) (kz_real k) (kz_cr k) x.
(** compute_tap_out_matrix = False: the taps are added to the zero output, in order. *)
Definition kz_vector (k : kautz) (x : list R) : list R :=
  fold_left (fun out tap => mk (length x) (fun i => get out i + get tap i)) (kz_tapout k x) (repeat 0 (length x)).
(** L258-265 filter_signal on the channels (sampling-rate check and the Signal around the data omitted). *)
Definition kz_filter_signal (k : kautz) (td : list (list R)) : list (list R) := map (kz_vector k) td.
(** L223-256 fit_coefficients_to_ir: unit weights, reversed response, last row of the tap-out matrix. *)
Definition kz_fit (k : kautz) (ir : list R) : result kautz :=
  bind (kz_set_coeffs k (repeat 1 (length (kz_real k))) (repeat 1 (2 * length (kz_cplx k)))) (fun k1 =>
  if (length ir =? 0)%nat then Err IndexError else
  let c := map (fun tap => get tap (length tap - 1)) (kz_tapout k1 (rev ir)) in
  kz_set_coeffs k1 (firstn (length (kz_real k)) c) (skipn (length (kz_real k)) c)).
