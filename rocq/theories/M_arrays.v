(** Model of the array helpers of dsptoolbox: padding, polyphase, block FIR filtering, multirate filtering, framing.
    A (time samples, channels) array is the list of its columns; per-channel code is modelled on one column. *)
From Coq Require Import List Arith Lia ZArith Bool.
From Coq.Floats Require Import SpecFloat.
From Verif Require Import Alg Spec.
Import ListNotations.
Local Open Scope nat_scope.

(** Python slicing l[start:stop] with step 1: negative bounds count from the end, then both are clipped. *)
Definition py_bound (n : nat) (i : Z) : nat :=
  if (i <? 0)%Z then Z.to_nat (Z.of_nat n + i) else min (Z.to_nat i) n.
Definition py_slice {T} (l : list T) (start stop : Z) : list T :=
  let a := py_bound (length l) start in
  let b := py_bound (length l) stop in
  firstn (b - a) (skipn a l).

Section Arr.
Context {A : Type} {HA : CRing A}.

(** l[start::step] read, for start <= len(l) and step >= 1 *)
Definition get_stride (l : list A) (start step : nat) : list A :=
  mk ((length l - start + (step - 1)) / step) (fun m => get l (start + m * step)).

(** l[start::step] = vals *)
Definition set_stride (l : list A) (start step : nat) (vals : list A) : list A :=
  mk (length l) (fun i => if (start <=? i) && ((i - start) mod step =? 0)
                          then get vals ((i - start) / step) else get l i).

(** helpers/other.py L216-259 [_pad_trim] along the time axis of one column (desired_length >= 0). *)
Definition pad_trim_col (n : nat) (in_end : bool) (v : list A) : list A :=
  if length v =? n then v
  else
    let v1 := if in_end then v else rev v in
    let w := if length v <? n then v1 ++ repeat r0 (n - length v) else firstn n v1 in
    if in_end then w else rev w.

(** helpers/polyphase.py L43-50: front padding. Returns the padded column and the reported padding. *)
Definition poly_pad (n : nat) (v : list A) : list A * nat :=
  let remainder := length v mod n in
  let padding := n - remainder in
  (if remainder =? 0 then v else pad_trim_col (length v + padding) false v, padding).

(** helpers/polyphase.py L7-56, one channel: the list of the n components (poly[:, ind]).
    n = 0 is a ZeroDivisionError. *)
Definition polyphase (n : nat) (flip : bool) (v : list A) : result (list (list A) * nat) :=
  if n =? 0 then Err ZeroDivisionError else
  let (v', padding) := poly_pad n v in
  let poly := mk n (fun ind => get_stride v' ind n) in
  Ok (if flip then rev poly else poly, padding).

(** helpers/polyphase.py L59-90, one channel. *)
Definition polyphase_reconstruct (poly : list (list A)) : list A :=
  let n := length poly in
  fold_left (fun s ind => set_stride s ind n (nth ind poly []))
            (seq 0 n) (repeat r0 (length (hd [] poly) * n)).

(** scipy.signal.oaconvolve / convolve, mode "full", of two non-empty vectors. *)
Definition conv_full (x b : list A) : list A :=
  match x, b with
  | [], _ => [] | _, [] => []
  | _, _ => mk (length x + length b - 1) (fun n => conv b x n)
  end.

(** element-wise a + b of equal-length vectors *)
Definition vadd (u v : list A) : list A := mk (length u) (fun i => get u i +! get v i).

(** classes/filter_helpers.py L454-503 [_lfilter_fir], one channel; b and x non-empty.
    Without zi: L499-502. With zi: L495-503, the slices [: len(zi)] and [-len(zi) :] with Python semantics.
    An empty block makes y empty, and adding a non-empty zi to it is a broadcasting error. *)
Definition lfilter_fir (b x : list A) : list A := firstn (length x) (conv_full x b).

Definition lfilter_fir_zi (b x zi : list A) : result (list A * list A) :=
  let y := conv_full x b in
  if length y <? length zi then Err ValueError else
  let y1 := vadd (firstn (length zi) y) zi ++ skipn (length zi) y in
  let zf := py_slice y1 (- Z.of_nat (length zi)) (Z.of_nat (length y1)) in
  (* y1[-0:] is the whole vector *)
  let zf := if length zi =? 0 then y1 else zf in
  Ok (firstn (length x) y1, zf).

(** Filtering consecutive blocks, handing zf to the next call (classes/filter.py L700-743, FIR branch, one channel). *)
Fixpoint lfilter_fir_blocks (b : list A) (blocks : list (list A)) (zi : list A) : result (list A * list A) :=
  match blocks with
  | [] => Ok ([], zi)
  | x :: t => bind (lfilter_fir_zi b x zi) (fun r =>
              bind (lfilter_fir_blocks b t (snd r)) (fun r' => Ok (fst r ++ fst r', snd r')))
  end.

(** classes/filter_helpers.py L506-561 [_filter_and_downsample], polyphase branch, one channel. *)
Definition filter_downsample (d : nat) (b x : list A) : result (list A) :=
  bind (polyphase d false x) (fun px =>
  bind (polyphase d true b) (fun pb =>
  let poly := fst px in let bpoly := fst pb in
  let half := (length b - 1) / 2 in
  let L := length (hd [] poly) + length (hd [] bpoly) - 1 in
  let temp := fold_left (fun t n => vadd t (conv_full (nth n poly []) (nth n bpoly [])))
                        (seq 0 (length poly)) (repeat r0 L) in
  Ok (py_slice temp (Z.of_nat half / Z.of_nat d) (- Z.of_nat half / Z.of_nat d)))).

(** classes/filter_helpers.py L571-639 [_filter_and_upsample], polyphase branch, one channel. *)
Definition of_nat (n : nat) : A := sum n (fun _ => r1).
Definition filter_upsample (u : nat) (b x : list A) : result (list A) :=
  bind (polyphase u false b) (fun pb =>
  let padding := snd pb in
  let bpoly := map (map (fun c => c *! of_nat u)) (fst pb) in
  let half := (length b - 1) / 2 in
  let L := (length x + length (hd [] bpoly) - 1) * u in
  let out := fold_left (fun t ind => set_stride t ind u (conv_full x (nth ind bpoly [])))
                       (seq 0 u) (repeat r0 L) in
  Ok (if padding =? u then py_slice out (Z.of_nat half) (- Z.of_nat half)
      else py_slice out (Z.of_nat half + Z.of_nat padding) (- Z.of_nat half + Z.of_nat padding))).

(** L562-566 and L640-645: the branches for filters which are not FIR, for a given response of lfilter. *)
Definition decimate (d : nat) (y : list A) : list A := get_stride y 0 d.
Definition zero_stuff (u : nat) (x : list A) : list A :=
  set_stride (repeat r0 (length x * u)) 0 u (map (fun v => v *! of_nat u) x).

(** helpers/other.py L181-213 [_compute_number_frames]. np.ceil of a quotient of integers; step >= 1.
    (float division is exact enough for the lengths in question; rounding is not modelled) *)
Definition ceil_div (a b : Z) : Z := (- ((- a) / b))%Z.
Definition number_frames (window step len : Z) (zero_padding : bool) : Z * Z :=
  if zero_padding then (ceil_div len step, (window - len mod step)%Z)
  else (ceil_div (len - window) step, 0%Z).

(** standard/_framed_signal_representation.py L9-67, one channel; result is the list of frames.
    The slice assignment L64 fails when the slice is shorter than the window. n_frames < 0 is an error of np.zeros.
    A negative padding (window < len mod step) trims. *)
Definition framed (window step : nat) (keep_last : bool) (v : list A) : result (list (list A)) :=
  let '(n, pad) := number_frames (Z.of_nat window) (Z.of_nat step) (Z.of_nat (length v)) keep_last in
  if (n <? 0)%Z then Err ValueError else
  let td := pad_trim_col (Z.to_nat (Z.of_nat (length v) + pad)) true v in
  let frames := mk (Z.to_nat n) (fun i => firstn window (skipn (i * step) td)) in
  if forallb (fun f => length f =? window) frames then Ok frames else Err ValueError.

(** standard/_framed_signal_representation.py L113-124: overlap-add of frames (one channel), for a given
    total_length. The in-place addition L122-123 fails when the slice is shorter than the frame. *)
Definition overlap_add (step w : nat) (frames : list (list A)) (total : nat) : result (list A) :=
  fold_left (fun r i => bind r (fun td =>
               if length (py_slice td (Z.of_nat (i * step)) (Z.of_nat (i * step + w))) =? w
               then Ok (mk (length td) (fun k =>
                 if (i * step <=? k) && (k <? i * step + w)
                 then get td k +! get (nth i frames []) (k - i * step) else get td k))
               else Err ValueError))
            (seq 0 (length frames)) (Ok (repeat r0 total)).
End Arr.

(** standard/latency_delay.py L318-359 [delay] on the columns of a real signal (delay_samples >= 0).
    channels = None means all channels. The index check L328-330 only looks at the upper bound and at repeated
    values; negative channels below -n raise IndexError when used. An empty list becomes a float index array. *)
Section Delay.
Context {A : Type} {HA : CRing A}.
Fixpoint resolve_all (n : nat) (chs : list Z) : option (list nat) :=
  match chs with
  | [] => Some []
  | z :: t => match py_index n z, resolve_all n t with Some k, Some l => Some (k :: l) | _, _ => None end
  end.
Fixpoint zmem (z : Z) (l : list Z) : bool := match l with [] => false | h :: t => (z =? h)%Z || zmem z t end.
Fixpoint znodup (l : list Z) : bool := match l with [] => true | h :: t => negb (zmem h t) && znodup t end.

Definition delay_td (d : nat) (channels : option (list Z)) (keep_length : bool) (td : list (list A))
  : result (list (list A)) :=
  let n := length td in
  let len := length (hd [] td) in
  if d =? 0 then Ok td else
  if keep_length && negb (d <? len) then Err AssertionError else
  let chs := match channels with None => map Z.of_nat (seq 0 n) | Some l => l end in
  if negb (forallb (fun z => (z <? Z.of_nat n)%Z) chs && znodup chs) then Err AssertionError else
  match chs with [] => Err IndexError | _ =>
  match resolve_all n chs with
  | None => Err IndexError
  | Some ks =>
      let base := map (pad_trim_col (d + len) true) td in
      let delayed := map (fun k => pad_trim_col (d + len) false (nth k td [])) ks in
      let out := fold_left (fun m p => upd m (fst p) (snd p)) (combine ks delayed) base in
      Ok (if keep_length then map (firstn len) out else out)
  end end.
End Delay.

(** standard/_framed_signal_representation.py L115-118: the total length of the output,
    int(step * n + w * (1 - step / w)), in binary64 arithmetic (operations of Coq.Floats.SpecFloat);
    the integer part step * n is exact in Python, then converted for the addition. *)
Definition f64 (z : Z) : spec_float := binary_normalize 53 1024 z 0 false.
Definition f64_trunc (x : spec_float) : option Z :=
  match x with
  | S754_zero _ => Some 0%Z
  | S754_finite s m e =>
      let a := match e with Z0 => Zpos m | Zpos p => (Zpos m * 2 ^ Zpos p)%Z | Zneg p => (Zpos m / 2 ^ Zpos p)%Z end in
      Some (if s then (- a)%Z else a)
  | _ => None
  end.
Definition ola_total_float (step w n : nat) : option Z :=
  let q := SFdiv 53 1024 (f64 (Z.of_nat step)) (f64 (Z.of_nat w)) in
  let m := SFmul 53 1024 (f64 (Z.of_nat w)) (SFsub 53 1024 (f64 1) q) in
  f64_trunc (SFadd 53 1024 (f64 (Z.of_nat (step * n))) m).

(** standard/_framed_signal_representation.py L70-137 without window: length, overlap-add, final pad/trim. *)
Definition reconstruct_frames {A} {HA : CRing A} (step w : nat) (frames : list (list A)) (original : option nat)
  : result (list A) :=
  match ola_total_float step w (length frames) with
  | Some t =>
      if (t <? 0)%Z then Err ValueError else
      bind (overlap_add step w frames (Z.to_nat t)) (fun td =>
      Ok (match original with None => td | Some n => pad_trim_col n true td end))
  | None => Err ValueError
  end.

(** standard/pad_trim_methods.py L158-178 [trim_with_level_threshold] on the columns; [above x] stands for
    abs(x) >= from_db(threshold). np.where lists row indices row by row. min/max of an empty selection raises. *)
Section TrimLevel.
Context {T : Type}.
Definition above_rows (above : T -> bool) (td : list (list T)) : list nat :=
  flat_map (fun r => flat_map (fun col => match nth_error col r with
                                          | Some x => if above x then [r] else []
                                          | None => [] end) td)
           (seq 0 (length (hd [] td))).
Definition lmin (l : list nat) : result nat :=
  match l with [] => Err ValueError | h :: t => Ok (fold_left Nat.min t h) end.
Definition lmax (l : list nat) : result nat :=
  match l with [] => Err ValueError | h :: t => Ok (fold_left Nat.max t h) end.
Definition trim_level (above : T -> bool) (at_start at_end : bool) (td : list (list T))
  : result (list (list T) * nat * nat) :=
  if negb (at_start || at_end) then Err AssertionError else
  let n := length td in
  let len := length (hd [] td) in
  let rows := above_rows above td in
  bind (if at_start then lmin (firstn n rows) else Ok 0) (fun start =>
  bind (if at_end then bind (lmax (skipn (length rows - n) rows)) (fun m => Ok (min len (m + 1))) else Ok len) (fun stop =>
  Ok (map (fun col => firstn (stop - start) (skipn start col)) td, start, stop))).
End TrimLevel.

(** standard/pad_trim_methods.py L79-124 [modify_signal_length] for the sample counts of L83-92
    (rounding of seconds to samples not modelled). *)
Definition modify_length {A} {HA : CRing A} (start stop : Z) (td : list (list A)) : result (list (list A)) :=
  let len := Z.of_nat (length (hd [] td)) in
  if ((start <? 0) && negb (- start <? len))%Z then Err AssertionError else
  if ((stop <? 0) && negb (- stop <? len))%Z then Err AssertionError else
  if ((start <? 0) && (stop <? 0) && negb (- (start + stop) <? len))%Z then Err AssertionError else
  let td1 := map (fun col => if (0 <=? start)%Z then repeat r0 (Z.to_nat start) ++ col
                             else py_slice col (- start) (Z.of_nat (length col))) td in
  Ok (map (fun col => if (0 <=? stop)%Z then col ++ repeat r0 (Z.to_nat stop)
                      else py_slice col 0 stop) td1).
