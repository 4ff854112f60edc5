(** Model of the Linkwitz-Riley filter bank, of the QMF crossover (filterbanks/_filterbank.py) and of
    filterbanks.complementary_fir_filter, on one channel. Samples are real numbers; sampling rates are natural numbers. *)
From Coq Require Import List Arith Lia ZArith Bool Reals.
From Verif Require Import Alg Spec M_arrays M_filter.
Import ListNotations.
Local Open Scope R_scope.

(** ** Linkwitz-Riley filter bank *)
Definition sos := list (list R * list R).
(** scipy.signal.bilinear of (p2 s^2 + p1 s + p0) / (q2 s^2 + q1 s + q0) with s = c (z - 1) / (z + 1), in powers of 1/z and
    normalised; c is twice the passed rate. *)
Definition bl (c p2 p1 p0 : R) : list R := [p2 * c * c + p1 * c + p0; 2 * p0 - 2 * p2 * c * c; p2 * c * c - p1 * c + p0].
Definition bilinear2 (c p2 p1 p0 q2 q1 q0 : R) : list R * list R :=
  let n := q2 * c * c + q1 * c + q0 in (map (fun v => v / n) (bl c p2 p1 p0), map (fun v => v / n) (bl c q2 q1 q0)).
(** filterbanks/_filterbank.py L1307-1345 _get_2nd_order_linkwitz_riley; tf2sos of a second-order system is one section with
    the same coefficients *)
Definition linkwitz2 (f0 fs : R) : sos * sos :=
  let omega := 2 * PI * f0 in
  let warped := PI * f0 / tan (PI * f0 / fs) in
  ([bilinear2 (2 * warped) 0 0 (omega * omega) 1 (2 * omega) (omega * omega)],
   [bilinear2 (2 * warped) (-1) 0 0 1 (2 * omega) (omega * omega)]).
(** scipy.signal.butter(..., output="sos") of orders one and two by their closed forms (bilinear transform of the analogue Butterworth
    prototypes with prewarping); other orders are a parameter. Cut-offs outside (0, fs / 2) raise ValueError. *)
Section Bank.
Variable butter_n : nat -> bool -> R -> R -> sos.
Definition bl1 (c p1 p0 : R) : list R := [p1 * c + p0; p0 - p1 * c; 0].
Definition butter (n : nat) (highpass : bool) (f0 fs : R) : sos :=
  let c := / tan (PI * f0 / fs) in
  match n with
  | 1%nat => [(map (fun v => v / (c + 1)) (if highpass then bl1 c 1 0 else bl1 c 0 1), map (fun v => v / (c + 1)) (bl1 c 1 1))]
  | 2%nat => [if highpass then bilinear2 c 1 0 0 1 (sqrt 2) 1 else bilinear2 c 0 0 1 1 (sqrt 2) 1]
  | _ => butter_n n highpass f0 fs
  end.
(** filterbanks/_filterbank.py L142-181 _create_filters_sos, one crossover *)
Definition crossover (order : nat) (f0 : R) (fs : nat) : result (sos * sos) :=
  if (order =? 2)%nat then Ok (linkwitz2 f0 (INR fs)) else
  if Nat.even order && negb (order mod 4 =? 0)%nat then Err AssertionError else
  if negb (if Rlt_dec 0 f0 then if Rlt_dec f0 (INR fs / 2) then true else false else false) then Err ValueError else
  let n := if Nat.even order then (order / 2)%nat else order in
  let lp := butter n false f0 (INR fs) in let hp := butter n true f0 (INR fs) in
  Ok (if Nat.even order then (lp ++ lp, hp ++ hp) else (lp, hp)).
(** freqs.argsort(): ascending frequencies; equal ones keep their order here *)
Fixpoint insert_f (p : R * nat) (l : list (R * nat)) : list (R * nat) :=
  match l with [] => [p] | q :: t => if Rle_dec (fst p) (fst q) then p :: l else q :: insert_f p t end.
Definition sort_f (l : list (R * nat)) : list (R * nat) := fold_right insert_f [] l.
(** filterbanks/_filterbank.py L61-120 the constructor: orders of length one serve all frequencies *)
Definition make_bank (freqs : list R) (orders : list nat) (fs : nat) : result (list (sos * sos)) :=
  let orders := if (length orders =? 1)%nat then repeat (hd 0%nat orders) (length freqs) else orders in
  if (length freqs =? 0)%nat then Err ValueError else
  if negb (forallb (fun f => if Rle_dec f (INR (fs / 2)) then true else false) freqs) then Err AssertionError else
  if negb (length freqs =? length orders)%nat then Err AssertionError else
  all_ok (map (fun p => crossover (snd p) (fst p) fs) (sort_f (combine freqs orders))).
End Bank.

(** sosfilt from rest; filterbanks/_filterbank.py L355-368 _filt *)
Definition rest (s : sos) (x : list R) : list R := fst (sosfilt s x (repeat [0; 0] (length s))).
Definition both (p : sos * sos) (x : list R) : list R := vadd (rest (fst p) x) (rest (snd p) x).
(** filterbanks/_filterbank.py L292-300: standard filtering; the list of bands from low to high. (The bands become signals through
    copy_with_new_time_data; its amplitude constraint is the subject of C19 and not applied here.) *)
Fixpoint lr_split (bank : list (sos * sos)) (x : list R) : list (list R) :=
  match bank with
  | [] => [x]
  | (lo, hi) :: t => fold_left (fun b p => both p b) t (rest lo x) :: lr_split t (rest hi x)
  end.
(** L314-317: the Summed mode adds the bands *)
Definition lr_summed (bank : list (sos * sos)) (x : list R) : list R :=
  fold_left vadd (tl (lr_split bank x)) (hd [] (lr_split bank x)).

(** *** Streaming *)
(** scipy.signal.sosfilt_zi: states of the sections for a step of height one that lasts forever (a0 = 1, sum of a not zero) *)
Definition section_zi (b a : list R) : list R :=
  let g := (get b 0 + get b 1 + get b 2) / (get a 0 + get a 1 + get a 2) in
  [get b 1 + get b 2 - (get a 1 + get a 2) * g; get b 2 - get a 2 * g].
Fixpoint sosfilt_zi (scale : R) (s : sos) : list (list R) :=
  match s with
  | [] => []
  | (b, a) :: t => map (fun v => scale * v) (section_zi b a) ::
                   sosfilt_zi (scale * ((get b 0 + get b 1 + get b 2) / (get a 0 + get a 1 + get a 2))) t
  end.
Definition zstate := (list (list R) * list (list R))%type.
(** filterbanks/_filterbank.py L183-211 initialize_zi, one channel: the states of the splitting filters, and the states of the
    allpasses. The list of the allpass states is appended once per inner iteration, so the rows 0 ... n - 1 that filtering uses are
    all the one list made in the first iteration of the outer loop: one row of states shared by all bands. *)
Definition init_zi (bank : list (sos * sos)) : list zstate * list zstate :=
  let z := map (fun p => (sosfilt_zi 1 (fst p), sosfilt_zi 1 (snd p))) bank in (z, z).
(** L323-337 _allpass_zi for the crossovers above a band, with the shared row *)
Fixpoint allpasses (bank : list (sos * sos)) (row : list zstate) (b : list R) : list R * list zstate :=
  match bank, row with
  | (lo, hi) :: t, (zl, zh) :: row' =>
      let (yl, zl') := sosfilt lo b zl in let (yh, zh') := sosfilt hi b zh in
      let (y, row2) := allpasses t row' (vadd yl yh) in (y, (zl', zh') :: row2)
  | _, _ => (b, row)
  end.
(** L257-275 filter_signal with activate_zi, and L339-353 _two_way_split_zi *)
Fixpoint lr_zi (bank : list (sos * sos)) (cross row : list zstate) (x : list R) : list (list R) * list zstate * list zstate :=
  match bank, cross, row with
  | (lo, hi) :: t, (zl, zh) :: cross', r :: row' =>
      let (yl, zl') := sosfilt lo x zl in let (yh, zh') := sosfilt hi x zh in
      let (band, row1) := allpasses t row' yl in
      let '(bands, cross2, row2) := lr_zi t cross' row1 yh in
      (band :: bands, (zl', zh') :: cross2, r :: row2)
  | _, _, _ => ([x], cross, row)
  end.
(** consecutive calls: the bands of every block *)
Fixpoint lr_blocks (bank : list (sos * sos)) (cross row : list zstate) (blocks : list (list R)) : list (list (list R)) :=
  match blocks with
  | [] => []
  | x :: t => let '(bands, cross', row') := lr_zi bank cross row x in bands :: lr_blocks bank cross' row' t
  end.
Definition lr_stream (bank : list (sos * sos)) (blocks : list (list R)) : list (list (list R)) :=
  lr_blocks bank (fst (init_zi bank)) (snd (init_zi bank)) blocks.

(** ** QMF crossover, FIR prototype *)
(** filterbanks/_filterbank.py L1132-1133, L1182-1187: every second coefficient negated *)
Definition mirror (b : list R) : list R := mk (length b) (fun i => if Nat.odd i then - get b i else get b i).
Definition negated (b : list R) : list R := map (fun v => - v) b.
(** classes/filter.py L745-815 filter_and_resample_signal of an FIR filter: the ratio of the rates must be p / 1 or 1 / q in lowest
    terms, and the filter has the higher rate *)
Definition resample_fir (b : list R) (fs_filter fs_sig fs_new : nat) (x : list R) : result (list R) :=
  let g := Nat.gcd fs_new fs_sig in
  let up := (fs_new / g)%nat in let down := (fs_sig / g)%nat in
  if (up =? 1)%nat then if (fs_sig =? fs_filter)%nat then filter_downsample down b x else Err AssertionError
  else if (down =? 1)%nat then if (fs_sig * up =? fs_filter)%nat then filter_upsample up b x else Err AssertionError
  else Err AssertionError.
(** L1212-1241 _crossover_downsample, Parallel: (low, high) *)
Definition qmf_analyse (h : list R) (fs : nat) (x : list R) : result (list R * list R) :=
  bind (resample_fir h fs fs (fs / 2) x) (fun lo => bind (resample_fir (mirror h) fs fs (fs / 2) x) (fun hi => Ok (lo, hi))).
(** L921-951 reconstruct_signal, L1273-1304 _reconstruct_from_crossover_upsample *)
Definition qmf_reconstruct (h : list R) (fs_filter fs_band : nat) (upsample : bool) (bands : list R * list R) : result (list R) :=
  let fs := ((if upsample then 2 else 1) * fs_band)%nat in
  bind (resample_fir h fs_filter fs_band fs (fst bands)) (fun lo =>
  bind (resample_fir (negated (mirror h)) fs_filter fs_band fs (snd bands)) (fun hi =>
  if (length lo =? length hi)%nat then Ok (vadd lo hi) else Err ValueError)).

(** ** Complementary FIR filter *)
(** np.argmax(np.abs(b)): index of the first largest magnitude *)
Fixpoint peak_from (b : list R) (i best : nat) (v : R) : nat :=
  match b with [] => best | a :: t => if Rlt_dec v (Rabs a) then peak_from t (S i) i (Rabs a) else peak_from t (S i) best v end.
Definition peak (b : list R) : nat := match b with [] => O | a :: t => peak_from t 1 0 (Rabs a) end.
(** filterbanks/filterbanks.py L453-493; the windowed sinc of even lengths (L487-488) is a parameter, a function of the length *)
Definition complementary (sinc : nat -> list R) (b : list R) : list R :=
  if Nat.odd (length b) then upd (negated b) (peak b) (- get b (peak b) + 1)
  else mk (length b) (fun i => get (sinc (length b)) i - get b i).
