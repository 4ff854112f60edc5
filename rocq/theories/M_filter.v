(** Model of Filter.filter_signal with and without carried state, of FilterBank and of MultiBandSignal. *)
From Coq Require Import List Arith Lia ZArith Bool Reals.
From Verif Require Import Alg Spec M_arrays M_signal.
Import ListNotations.
Local Open Scope nat_scope.

Section Filt.
Context {A : Type} {HA : CRing A}.

(** scipy.signal.lfilter(b, a, x, zi) on one channel, a[0] = 1: transposed direct form II
    y = b0 x + z0; z_i = z_{i+1} + b_{i+1} x - a_{i+1} y. (called in classes/filter_helpers.py L338-359) *)
Definition lf_sample (b a z : list A) (v : A) : A * list A :=
  let y := get b 0 *! v +! get z 0 in
  (y, mk (length z) (fun i => get z (S i) +! get b (S i) *! v -! get a (S i) *! y)).
Fixpoint lfilter (b a x z : list A) : list A * list A :=
  match x with
  | [] => ([], z)
  | v :: t => let (y, z1) := lf_sample b a z v in
              let (ys, z2) := lfilter b a t z1 in (y :: ys, z2)
  end.

(** len of the state: max(len(a), len(b)) - 1 *)
Definition lf_order (b a : list A) : nat := max (length b) (length a) - 1.

(** classes/filter_helpers.py L331-334, L349-356: the per-channel call of _lfilter_fir or scipy's lfilter with zi.
    scipy checks the length of zi. *)
Definition ba_core (is_fir : bool) (b a x z : list A) : result (list A * list A) :=
  if is_fir then lfilter_fir_zi b x z
  else if length z =? lf_order b a then Ok (lfilter b a x z) else Err ValueError.

(** all results, or the first exception *)
Fixpoint all_ok {T} (l : list (result T)) : result (list T) :=
  match l with [] => Ok [] | Ok v :: t => bind (all_ok t) (fun r => Ok (v :: r)) | Err e :: _ => Err e end.

(** classes/filter.py L331-353 [initialize_zi] and L692-703: which zi is used. [zi0] is the value of
    scipy.signal.lfilter_zi / sosfilt_zi, a parameter. *)
Definition pick_zi {Z0} (zi0 : Z0) (st : option (list Z0)) (nch : nat) : list Z0 :=
  match st with
  | Some z => if length z =? nch then z else repeat zi0 nch
  | None => repeat zi0 nch
  end.

(** classes/filter.py L700-741 with activate_zi = True, channels = None, ba path (classes/filter_helpers.py L288-382).
    The attribute zi is a list of nch vectors after initialize_zi. np.asarray(zi).T gives channel c the vector zi[c].
    The returned zi is the array of shape (order, nch) (L382 returns zi and not zi_new), so zi[j] afterwards holds
    state j of all channels. The time data is the list of columns; copy_with_new_time_data is not applied here. *)
Definition ba_call (is_fir : bool) (b a zi0 : list A) (st : option (list (list A))) (td : list (list A))
  : option (list (list A)) * result (list (list A)) :=
  let zi := pick_zi zi0 st (length td) in
  match all_ok (map (fun p => ba_core is_fir b a (fst p) (snd p)) (combine td zi)) with
  | Err e => (Some zi, Err e)
  | Ok rs => (Some (mk (lf_order b a) (fun j => map (fun r => get (snd r) j) rs)), Ok (map fst rs))
  end.

(** scipy.signal.sosfilt on one channel; a section is (b0 b1 b2, a0 a1 a2) with a0 = 1, its state a pair. *)
Fixpoint sosfilt (sos : list (list A * list A)) (x : list A) (z : list (list A)) : list A * list (list A) :=
  match sos with
  | [] => (x, [])
  | (b, a) :: t =>
      let (y, z1) := lfilter b a x (hd [] z) in
      let (y', zs) := sosfilt t y (tl z) in (y', z1 :: zs)
  end.
(** zi of one channel must have shape (n_sections, 2) *)
Definition zi_shape_ok (n : nat) (z : list (list A)) : bool :=
  (length z =? n) && forallb (fun r => length r =? 2) z.

(** classes/filter.py L700-741, SOS path (classes/filter_helpers.py L208-285): np.moveaxis(zi, 0, -1) gives channel c
    the matrix zi[c]; the returned zi has shape (n_sections, 2, nch) (L285 returns zi and not zi_new). *)
Definition sos_call (sos : list (list A * list A)) (zi0 : list (list A)) (st : option (list (list (list A))))
  (td : list (list A)) : option (list (list (list A))) * result (list (list A)) :=
  let zi := pick_zi zi0 st (length td) in
  let n := length sos in
  if negb (forallb (zi_shape_ok n) zi) then (Some zi, Err ValueError) else
  let rs := map (fun p => sosfilt sos (fst p) (snd p)) (combine td zi) in
  (Some (mk n (fun s => mk 2 (fun k => map (fun r => get (nth s (snd r) []) k) rs))), Ok (map fst rs)).

(** A caller who filters consecutive blocks with activate_zi = True *)
Fixpoint stream {St} (call : St -> list (list A) -> St * result (list (list A))) (st : St) (blocks : list (list (list A)))
  : list (result (list (list A))) :=
  match blocks with
  | [] => []
  | x :: t => let (st', r) := call st x in r :: stream call st' t
  end.
End Filt.

(** ** Filter.filter_signal without state, on Signal objects.
    classes/filter.py L683-743, filter_helpers.py L252-253, L276-278 / L336-337, L372-374: selected columns of the real
    part are replaced by their filtered version. [flt] is the filter of one channel (zero-phase or not).
    The imaginary part is not carried over. Channels: every value must be < number_of_channels; negative values index
    from the end; an index below -n raises IndexError. *)
Definition filter_channels (flt : list R -> list R) (chs : option (list Z)) (s : signal) : result signal :=
  let n := ncols (s_re s) in
  let sel := match chs with None => map Z.of_nat (seq 0 n) | Some l => l end in
  if negb (forallb (fun z => (z <? Z.of_nat n)%Z) sel) then Err AssertionError else
  match sel with [] => Err IndexError | _ =>
  match resolve_all n sel with
  | None => Err IndexError
  | Some ks =>
      let ys := map (fun k => flt (nth k (s_re s) [])) ks in
      set_data s (mkIn (fold_left (fun m p => upd m (fst p) (snd p)) (combine ks ys) (s_re s)) None false)
  end end.

(** A Filter as FilterBank uses it: its sampling rate and the filter of one channel. *)
Record filt := mkFilt { f_fs : Z; f_flt : list R -> list R }.
(** classes/filter.py L680-682, L683-743 *)
Definition filter_signal (f : filt) (chs : option (list Z)) (s : signal) : result signal :=
  if negb (f_fs f =? s_fs s)%Z then Err AssertionError else filter_channels (f_flt f) chs s.

(** ** FilterBank, classes/filterbank.py. sampling_rate_hz is an integer (same_sampling_rate) or a list. *)
Inductive rate := ROne (r : Z) | RMany (l : list Z) | RUnset.
Record bank := mkBank { fb_same : bool; fb_rate : rate; fb_filters : list filt }.

(** L198-241, filters setter. On a mismatch the rate has already been replaced when the assertion fails. *)
Definition fb_set (l : list filt) (b : bank) : bank * option exn :=
  match l with
  | [] => (mkBank (fb_same b) (fb_rate b) [], None)
  | f0 :: _ =>
      if fb_same b then
        let b1 := mkBank true (ROne (f_fs f0)) (fb_filters b) in
        if forallb (fun f => (f_fs f =? f_fs f0)%Z) l then (mkBank true (ROne (f_fs f0)) l, None)
        else (b1, Some AssertionError)
      else (mkBank false (RMany (map f_fs l)) l, None)
  end.

(** Python's list.insert(i, x) *)
Definition py_insert {T} (i : Z) (x : T) (l : list T) : list T :=
  let k := if (i <? 0)%Z then Z.to_nat (Z.max 0 (Z.of_nat (length l) + i)) else min (Z.to_nat i) (length l) in
  firstn k l ++ x :: skipn k l.

(** L298-327 [add_filter] *)
Definition fb_add (f : filt) (i : Z) (b : bank) : bank * option exn :=
  match fb_filters b with
  | [] => fb_set [f] (mkBank (fb_same b) (if fb_same b then ROne (f_fs f) else RMany [f_fs f]) [])
  | l => if fb_same b && negb (match fb_rate b with ROne r => (r =? f_fs f)%Z | _ => false end)
         then (b, Some AssertionError)
         else fb_set (if (i =? -1)%Z then l ++ [f] else py_insert i f l) b
  end.

(** L329-360 [remove_filter] *)
Definition fb_remove (i : Z) (b : bank) : bank * option exn :=
  let n := length (fb_filters b) in
  if n =? 0 then (b, Some AssertionError) else
  let i := if (i =? -1)%Z then (Z.of_nat n - 1)%Z else i in
  if ((0 <=? i) && (i <? Z.of_nat n))%Z then fb_set (delete_at (Z.to_nat i) (fb_filters b)) b
  else (b, Some AssertionError).

(** L362-394 [swap_filters]: an order with one entry is squeezed to a 0-d array and rejected *)
Definition fb_swap (order : list Z) (b : bank) : bank * option exn :=
  let n := length (fb_filters b) in
  if length order =? 1 then (b, Some AssertionError) else
  if negb (n =? length order) then (b, Some AssertionError) else
  if negb (forallb (fun z => (z <? Z.of_nat n) && (0 <=? z))%Z order) then (b, Some AssertionError) else
  if negb (znodup order) then (b, Some AssertionError) else
  match fb_filters b with
  | [] => fb_set [] b
  | f0 :: _ => fb_set (select (map Z.to_nat order) f0 (fb_filters b)) b
  end.

Inductive fb_op := FbSet (l : list filt) | FbAdd (f : filt) (i : Z) | FbRemove (i : Z) | FbSwap (o : list Z).
Definition fb_step (b : bank) (o : fb_op) : bank * option exn :=
  match o with
  | FbSet l => fb_set l b | FbAdd f i => fb_add f i b | FbRemove i => fb_remove i b | FbSwap o => fb_swap o b
  end.

(** L415-475 [filter_signal] with activate_zi = False, and filter_helpers.py L385-451. L456-458 compares the signal's
    integer rate with the bank's rate: an integer never equals a list. *)
Definition fb_rate_ok (s : signal) (b : bank) : bool :=
  match fb_rate b with ROne r => (s_fs s =? r)%Z | _ => false end.
Definition fb_parallel (b : bank) (s : signal) : result (list signal) :=
  if negb (fb_rate_ok s b) then Err AssertionError else
  all_ok (map (fun f => filter_signal f None s) (fb_filters b)).
Definition fb_sequential (b : bank) (s : signal) : result signal :=
  if negb (fb_same b) then Err AssertionError else
  if negb (fb_rate_ok s b) then Err AssertionError else
  fold_left (fun r f => bind r (filter_signal f None)) (fb_filters b) (Ok s).
Definition fb_summed (b : bank) (s : signal) : result signal :=
  if negb (fb_same b) then Err AssertionError else
  if negb (fb_rate_ok s b) then Err AssertionError else
  bind (all_ok (map (fun f => filter_signal f None s) (fb_filters b))) (fun outs =>
  let n := nrows (s_re s) in let k := ncols (s_re s) in
  set_data s (mkIn (mk k (fun c => mk n (fun i => sum (length outs) (fun j =>
                get (nth c (s_re (nth j outs s)) []) i)))) None false)).

(** L614-654 [get_transfer_function] at one frequency, given the values h of the filters at it *)
Definition tf_sequential {A} {HA : CRing A} (h : list A) : A := fold_left (fun a v => a *! v) h r1.
Definition tf_summed {A} {HA : CRing A} (h : list A) : A := fold_left (fun a v => a +! v) h r1.

(** ** MultiBandSignal, classes/multibandsignal.py *)
Record mband := mkMB { mb_same : bool; mb_nch : nat; mb_rate : rate; mb_bands : list signal }.

(** L116-183, bands setter. __number_of_channels and the rate are replaced before the checks that can fail. *)
Definition mb_set (l : list signal) (m : mband) : mband * option exn :=
  match l with
  | [] => (mkMB (mb_same m) (mb_nch m) (mb_rate m) [], None)
  | s0 :: _ =>
      let k := ncols (s_re s0) in
      let m1 := mkMB (mb_same m) k (mb_rate m) (mb_bands m) in
      if negb (forallb (fun s => (ncols (s_re s) =? k) && Bool.eqb (is_some (s_im s)) (is_some (s_im s0))) l)
      then (m1, Some AssertionError) else
      if mb_same m then
        if forallb (fun s => (s_fs s =? s_fs s0)%Z && (nrows (s_re s) =? nrows (s_re s0))) l
        then (mkMB true k (ROne (s_fs s0)) l, None)
        else (mkMB true k (ROne (s_fs s0)) (mb_bands m), Some AssertionError)
      else (mkMB false k (RMany (map s_fs l)) l, None)
  end.

(** L333-352 *)
Definition mb_add (s : signal) (i : Z) (m : mband) : mband * option exn :=
  match mb_bands m with
  | [] => mb_set [s] m
  | l => mb_set (if (i =? -1)%Z then l ++ [s] else py_insert i s l) m
  end.
(** L354-374: list.pop(index), negative indices allowed *)
Definition mb_remove (i : Z) (m : mband) : mband * option exn :=
  if length (mb_bands m) =? 0 then (m, Some AssertionError) else
  match py_index (length (mb_bands m)) i with
  | None => (m, Some IndexError)
  | Some k => mb_set (delete_at k (mb_bands m)) m
  end.
(** L376-403 *)
Definition mb_swap (order : list Z) (m : mband) : mband * option exn :=
  let n := length (mb_bands m) in
  if length order =? 1 then (m, Some AssertionError) else
  if negb (n =? length order) then (m, Some AssertionError) else
  if negb (forallb (fun z => (z <? Z.of_nat n) && (0 <=? z))%Z order) then (m, Some AssertionError) else
  if negb (znodup order) then (m, Some AssertionError) else
  match mb_bands m with
  | [] => mb_set [] m
  | s0 :: _ => mb_set (select (map Z.to_nat order) s0 (mb_bands m)) m
  end.
Inductive mb_op := MbSet (l : list signal) | MbAdd (s : signal) (i : Z) | MbRemove (i : Z) | MbSwap (o : list Z).
Definition mb_step (m : mband) (o : mb_op) : mband * option exn :=
  match o with
  | MbSet l => mb_set l m | MbAdd s i => mb_add s i m | MbRemove i => mb_remove i m | MbSwap o => mb_swap o m
  end.

Definition madd (x y : mat) : mat := mk (length x) (fun c => mk (length (nth c x [])) (fun i => (get (nth c x []) i + get (nth c y []) i)%R)).

(** L405-427 [collapse]: returns the new Signal and the multi-band signal afterwards. For real bands the sum is
    accumulated in the array of the first band. copy_with_new_time_data (signal.py L1664-1668) copies that array when
    it is a view ([owns] = false) and otherwise shares it with the result, whose setter then normalises in place. *)
Definition set_re (s : signal) (re : mat) : signal := mkSig re (s_im s) (s_scale s) (s_constr s) (s_fs s).
Definition collapse (owns : bool) (m : mband) : result (signal * mband) :=
  if negb (mb_same m) then Err AssertionError else
  match mb_bands m with
  | [] => Err IndexError
  | b0 :: rest =>
      match s_im b0 with
      | None =>
          let total := fold_left (fun acc s => madd acc (s_re s)) rest (s_re b0) in
          bind (set_data b0 (mkIn total None false)) (fun out =>
          let re0 := if owns then s_re out else total in
          Ok (out, mkMB (mb_same m) (mb_nch m) (mb_rate m) (set_re b0 re0 :: rest)))
      | Some _ =>
          let zero := map (fun col => map (fun _ => 0%R) col) (s_re b0) in
          let re := fold_left (fun acc s => madd acc (s_re s)) (b0 :: rest) zero in
          let im := fold_left (fun acc s => match s_im s with Some i => madd acc i | None => acc end) (b0 :: rest) zero in
          bind (set_data b0 (mkIn re (Some im) false)) (fun out => Ok (out, m))
      end
  end.

(** L463-520 [get_all_bands] in constant-rate mode: band n of one channel becomes channel n.
    The Signal constructor is called without constrain_amplitude, whose default is False (signal.py L62). *)
Definition get_all_bands (ch : nat) (m : mband) : result signal :=
  match mb_bands m with
  | [] => Err IndexError
  | b0 :: _ =>
      match mb_rate m with
      | ROne fs =>
          set_time_data false fs
            (mkIn (map (fun b => nth ch (s_re b) []) (mb_bands m))
                  (match s_im b0 with
                   | None => None
                   | Some _ => Some (map (fun b => nth ch (match s_im b with Some i => i | None => [] end) []) (mb_bands m))
                   end) false)
      | _ => Err ValueError
      end
  end.
