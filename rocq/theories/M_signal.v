(** Model of the Signal class: the time-data setter and the channel operations.
    Samples are real numbers; a (time samples, channels) array is the list of its columns. *)
From Coq Require Import List Arith Lia ZArith Bool Reals.
From Verif Require Import Alg Spec M_arrays.
Import ListNotations.
Local Open Scope nat_scope.

Definition mat := list (list R).
Definition nrows (m : mat) : nat := length (hd [] m).
Definition ncols (m : mat) : nat := length m.
(** m.T *)
Definition transpose (m : mat) : mat := mk (nrows m) (fun i => map (fun col => get col i) m).
(** np.max(np.abs(m)) of a non-empty array *)
Definition vpeak (v : list R) : R := fold_right (fun x acc => Rmax (Rabs x) acc) 0%R v.
Definition peak (m : mat) : R := fold_right (fun col acc => Rmax (vpeak col) acc) 0%R m.
Definition mdiv (m : mat) (c : R) : mat := map (map (fun x => (x / c)%R)) m.

(** classes/signal.py, the attributes set by the time_data setter *)
Record signal := mkSig {
  s_re : mat;                  (* __time_data *)
  s_im : option mat;           (* time_data_imaginary *)
  s_scale : R;                 (* __amplitude_scale_factor *)
  s_constr : bool;             (* __constrain_amplitude *)
  s_fs : Z                     (* __sampling_rate_hz *)
}.

(** What is assigned: an array with at least one row and one column, its imaginary part when its dtype is complex,
    and whether its dtype is an integer one. 1-D input of length n is the n x 1 array. *)
Record input := mkIn { i_re : mat; i_im : option mat; i_int : bool }.

(** classes/signal.py L258-301, time_data setter. squeeze L259 turns a 1 x k array into k samples (the same as the
    transposition of L271) and a 1 x 1 array into a 0-d array, for which shape[1] in L270 raises IndexError.
    L287: in-place true division of an integer array raises TypeError (UFuncTypeError). Arrays with more than two
    non-trivial dimensions (AssertionError) are not modelled. *)
Definition set_time_data (constr : bool) (fs : Z) (x : input) : result signal :=
  let n := nrows (i_re x) in
  let k := ncols (i_re x) in
  if (n =? 1) && (k =? 1) then Err IndexError else
  let t := if n <? k then transpose else fun m => m in
  let re := t (i_re x) in
  let im := option_map t (i_im x) in
  if constr then
    let p := match im with None => peak re | Some i => Rmax (peak re) (peak i) end in
    if Rlt_dec 1 p then
      if i_int x then Err TypeError else
      Ok (mkSig (mdiv re p) (option_map (fun i => mdiv i p) im) (1 / p)%R constr fs)
    else Ok (mkSig re im 1%R constr fs)
  else Ok (mkSig re im 1%R constr fs).

(** L1625-1631 [_get_data]: the complex array when there is an imaginary part. *)
Definition get_data (s : signal) : input := mkIn (s_re s) (s_im s) false.
Definition map_data (f : mat -> mat) (x : input) : input := mkIn (f (i_re x)) (option_map f (i_im x)) (i_int x).

(** L1633-1635 [_set_data]; L1637-1641, L1647-1680 [copy_with_new_time_data] (the time-data part). *)
Definition set_data (s : signal) (x : input) : result signal := set_time_data (s_constr s) (s_fs s) x.

Definition delete_at {T} (k : nat) (l : list T) : list T := firstn k l ++ skipn (S k) l.

(** classes/_multichannel_data.py L32-55 [remove_channel] *)
Definition remove_channel (ch : Z) (s : signal) : result signal :=
  let n := ncols (s_re s) in
  let ch := if (ch =? -1)%Z then (Z.of_nat n - 1)%Z else ch in
  if negb (1 <? n) then Err AssertionError else
  if negb (ch <=? Z.of_nat n - 1)%Z then Err AssertionError else
  match py_index n ch with
  | None => Err IndexError
  | Some k => set_data s (map_data (delete_at k) (get_data s))
  end.

Definition select {T} (ks : list nat) (d : T) (l : list T) : list T := map (fun k => nth k l d) ks.

(** classes/_multichannel_data.py L57-88 [swap_channels]; the order as a list of integers *)
Definition swap_channels (order : list Z) (s : signal) : result signal :=
  let n := ncols (s_re s) in
  if negb (n =? length order) then Err AssertionError else
  if negb (forallb (fun z => (z <? Z.of_nat n) && (0 <=? z))%Z order) then Err AssertionError else
  if negb (znodup order) then Err AssertionError else
  set_data s (map_data (select (map Z.to_nat order) []) (get_data s)).

(** classes/_multichannel_data.py L90-105 [get_channels] with a non-empty list of integers.
    An empty list is a float index array: IndexError. *)
Definition get_channels (chs : list Z) (s : signal) : result signal :=
  match chs with [] => Err IndexError | _ =>
  match resolve_all (ncols (s_re s)) chs with
  | None => Err IndexError
  | Some ks => set_data s (map_data (select ks []) (get_data s))
  end end.

(** classes/_multichannel_data.py L107-118 [sum_channels] *)
Definition sum_cols (m : mat) : mat := [mk (nrows m) (fun i => sum (ncols m) (fun c => get (nth c m []) i))].
Definition sum_channels (s : signal) : result signal := set_data s (map_data sum_cols (get_data s)).

(** classes/signal.py L776-852 [add_channel] with real new data *)
Definition add_channel (new : mat) (fs : Z) (allow : bool) (s : signal) : result signal :=
  if negb (fs =? s_fs s)%Z then Err AssertionError else
  let new := if nrows new <? ncols new then transpose new else new in
  let len := nrows (s_re s) in
  if negb (nrows new =? len) && negb allow then Err AttributeError else
  let new := map (pad_trim_col len true) new in
  set_data s (mkIn (s_re s ++ new) None false).

(** classes/signal.py L428-456: constrain_amplitude setter on a signal that has time data *)
Definition set_constrain (b : bool) (s : signal) : result signal :=
  if b then set_time_data true (s_fs s) (mkIn (s_re s) None false)
  else Ok (mkSig (s_re s) (s_im s) (s_scale s) false (s_fs s)).

(** A call on a Signal object; a call which raises leaves it as it was
    (set_constrain: the flag is set before the data; with float data it does not raise). *)
Inductive sig_op :=
| SetTimeData (x : input) | RemoveCh (ch : Z) | SwapCh (o : list Z) | AddCh (new : mat) (fs : Z) (allow : bool)
| Constrain (b : bool) | GetCh (chs : list Z) | SumCh.
Definition sig_apply (o : sig_op) (s : signal) : result signal :=
  match o with
  | SetTimeData x => set_data s x
  | RemoveCh c => remove_channel c s
  | SwapCh o => swap_channels o s
  | AddCh n fs a => add_channel n fs a s
  | Constrain b => set_constrain b s
  | GetCh c => get_channels c s
  | SumCh => sum_channels s
  end.
(** GetCh and SumCh return a new object, which replaces the current one here. *)
Definition sig_step (s : signal) (o : sig_op) : signal :=
  match sig_apply o s with Ok s' => s' | Err _ => s end.

(** standard/latency_delay.py L318-359, appending.py L43-85, pad_trim_methods.py L32-44 on Signal objects. *)
Definition delay (d : nat) (chs : option (list Z)) (keep : bool) (s : signal) : result signal :=
  if d =? 0 then Ok s else
  bind (delay_td d chs keep (s_re s)) (fun td => set_data s (mkIn td None false)).

(** standard/pad_trim_methods.py L32-44 [pad_trim]: only the real part is carried over. *)
Definition pad_trim (n : nat) (in_end : bool) (s : signal) : result signal :=
  set_data s (mkIn (map (pad_trim_col n in_end) (s_re s)) None false).

(** standard/appending.py L43-97 [append_signals] for a list of Signal objects (first, others) *)
Definition is_some {T} (o : option T) : bool := match o with Some _ => true | None => false end.
Definition zeros_like (m : mat) : mat := map (fun col => repeat 0%R (length col)) m.
Definition append_signals (allow at_end : bool) (s0 : signal) (rest : list signal) : result signal :=
  let all := s0 :: rest in
  let len := nrows (s_re s0) in
  match rest with [] => Err AssertionError | _ =>
  if negb (forallb (fun s => (s_fs s =? s_fs s0)%Z && (allow || (nrows (s_re s) =? len))) all)
  then Err AssertionError else
  let fit := map (pad_trim_col len at_end) in
  let re := flat_map (fun s => fit (s_re s)) all in
  let im := if existsb (fun s => is_some (s_im s)) all
            then Some (flat_map (fun s => fit (match s_im s with Some i => i | None => zeros_like (s_re s) end)) all)
            else None in
  set_data s0 (mkIn re im false)
  end.

(** standard/appending.py L98-126 [append_signals] for MultiBandSignal objects, each the list of its bands
    (all with the same sampling rate, number of bands and, unless allow, length).
    L118: the band of the first signal is always [signals[0].bands[0]]. *)
Fixpoint append_chain (allow at_end : bool) (acc : signal) (l : list signal) : result signal :=
  match l with
  | [] => Ok acc
  | s :: t => bind (append_signals allow at_end acc [s]) (fun acc' => append_chain allow at_end acc' t)
  end.
Fixpoint seq_result {T} (l : list (result T)) : result (list T) :=
  match l with [] => Ok [] | r :: t => bind r (fun v => bind (seq_result t) (fun vs => Ok (v :: vs))) end.
Definition append_multiband (allow at_end : bool) (m0 : list signal) (rest : list (list signal)) : result (list signal) :=
  match rest with [] => Err AssertionError | _ =>
  if negb (forallb (fun m => length m =? length m0) rest) then Err AssertionError else
  match m0 with
  | [] => Err AssertionError
  | b0 :: _ => seq_result (map (fun n => append_chain allow at_end b0 (map (fun m => nth n m b0) rest))
                              (seq 0 (length m0)))
  end end.

(** standard/pad_trim_methods.py L158-178 on a Signal: the trimmed real data goes through copy_with_new_time_data. *)
Definition trim_signal (above : R -> bool) (at_start at_end : bool) (s : signal) : result (signal * nat * nat) :=
  bind (trim_level above at_start at_end (s_re s)) (fun r =>
  let '(td, a, b) := r in
  bind (set_data s (mkIn td None false)) (fun s' => Ok (s', a, b))).
