(** Model of the block convolvers in classes/fir_filter_realtime.py. rfft / irfft are the defining sums of Dft.v.
    Block sizes are assumed positive. *)
From Coq Require Import List Arith Lia ZArith Reals Bool.
From Verif Require Import Alg Spec Dft Spec_block M_arrays M_signal.
Import ListNotations.
Local Open Scope nat_scope.

(** scipy.fft.next_fast_len(target, real=True): the smallest 2^a 3^b 5^c >= target. *)
Fixpoint strip (fuel p n : nat) : nat :=
  match fuel with O => n | S k => if (n mod p =? 0) then strip k p (n / p) else n end.
Definition smooth5 (n : nat) : bool := strip n 5 (strip n 3 (strip n 2 n)) =? 1.
Definition next_fast_len (t : nat) : nat := match find smooth5 (seq t (S t)) with Some n => n | None => t end.

(** Python slice x[-k:] for 1 <= k. *)
Definition last_n {T} (k : nat) (l : list T) : list T := skipn (length l - k) l.

(** fir_filter_realtime.py L105-144 FIRFilterOverlapSave: attributes set by prepare. *)
Record os := mkOs { os_bs : nat; os_L : nat; os_spec : list C; os_buf : list (list R) }.
(** L105-119 prepare. *)
Definition os_prepare (fir : list R) (bs nch : nat) : os :=
  let L := next_fast_len (length fir + bs) in mkOs bs L (rfft L fir) (repeat (repeat 0%R L) nch).
(** L121-144 process_block on one channel buffer: write, convolve, roll. *)
Definition os_block (s : os) (buf block : list R) : list R * list R :=
  let buf1 := firstn (os_L s - os_bs s) buf ++ block in
  let y := last_n (os_bs s) (irfft (cmul_list (rfft (os_L s) buf1) (os_spec s))) in
  (skipn (os_bs s) buf1 ++ last_n (os_bs s) buf1, y).
Definition os_step (fir : list R) (s : option os) (o : blk_op) : option os * blk_out :=
  match o, s with
  | Prepare bs nch, _ => (Some (os_prepare fir bs nch), BDone)
  | _, None => (s, BRaise AttributeError)
  | BReset, Some t => (Some (mkOs (os_bs t) (os_L t) (os_spec t) (map (fun b => repeat 0%R (length b)) (os_buf t))), BDone) (* L149-151 *)
  | Block x ch, Some t =>
      match py_index (length (os_buf t)) ch with
      | None => (s, BRaise IndexError)
      | Some c => match fit (os_bs t) x with
                  | None => (s, BRaise ValueError)
                  | Some b => let (buf, y) := os_block t (nth c (os_buf t) []) b in
                              (Some (mkOs (os_bs t) (os_L t) (os_spec t) (upd (os_buf t) c buf)), BVal y)
                  end
      end
  end.

(** L157-240 FIRUniformPartitioned. Spectra: per channel, per slot. *)
Record up := mkUp { up_bs : nat; up_np : nat; up_parts : list (list C); up_ind : nat;
                    up_spec : list (list (list C)); up_in : list (list R) }.
(** L195-198 fir[n*bs : (n+1)*bs] padded to bs. *)
Definition partition (fir : list R) (bs n : nat) : list R := let p := firstn bs (skipn (n * bs) fir) in p ++ repeat 0%R (bs - length p).
Definition czero (n : nat) : list C := repeat (rc 0) n.
(** L182-212 prepare and __prepare_partitions. *)
Definition up_prepare (fir : list R) (bs nch : nat) : up :=
  let np := length fir / bs + 1 in
  mkUp bs np (mk np (fun n => rfft (2 * bs) (partition fir bs n))) 0
    (repeat (repeat (czero (bs + 1)) np) nch) (repeat (repeat 0%R (2 * bs)) nch).
(** L226-233 sum over the partitions; numpy index buffer_ind - n wraps below zero. *)
Definition slot (np ind n : nat) : nat := if n <=? ind then ind - n else np + ind - n.
Definition accumulate (np bs : nat) (parts spec : list (list C)) (ind : nat) : list C :=
  mk (bs + 1) (fun k => sum (HA := CRing_C) np (fun n => nth k (nth n parts []) (rc 0) *! nth k (nth (slot np ind n) spec []) (rc 0))).
(** L214-240 process_block on one channel. *)
Definition up_block (np bs : nat) (parts : list (list C)) (ind : nat) (spec : list (list C)) (inb block : list R)
  : list (list C) * list R * list R :=
  let inb1 := last_n bs inb ++ block in
  let spec1 := upd spec ind (rfft (2 * bs) inb1) in
  (spec1, inb1, last_n bs (irfft (accumulate np bs parts spec1 ind))).
Definition up_step (fir : list R) (s : option up) (o : blk_op) : option up * blk_out :=
  match o, s with
  | Prepare bs nch, _ => (Some (up_prepare fir bs nch), BDone)
  | _, None => (s, BRaise AttributeError)
  | BReset, Some t => (Some (mkUp (up_bs t) (up_np t) (up_parts t) (up_ind t)
        (map (map (fun v => czero (length v))) (up_spec t)) (map (fun b => repeat 0%R (length b)) (up_in t))), BDone) (* L187-189 *)
  | Block x ch, Some t =>
      match py_index (length (up_in t)) ch with
      | None => (s, BRaise IndexError)
      | Some c => match fit (up_bs t) x with
          | None => (* L216-219: the first half of the input buffer has been overwritten already *)
              let inb := nth c (up_in t) [] in
              (Some (mkUp (up_bs t) (up_np t) (up_parts t) (up_ind t) (up_spec t) (upd (up_in t) c (last_n (up_bs t) inb ++ last_n (up_bs t) inb))), BRaise ValueError)
          | Some b =>
              let '(sp, inb, y) := up_block (up_np t) (up_bs t) (up_parts t) (up_ind t) (nth c (up_spec t) []) (nth c (up_in t) []) b in
              (Some (mkUp (up_bs t) (up_np t) (up_parts t) ((up_ind t + 1) mod up_np t) (upd (up_spec t) c sp) (upd (up_in t) c inb)), BVal y)
          end
      end
  end.

(** L252-335 FIRUniformPartitionedMultichannel: one filter per channel, all channels in one call. Blocks have the right
    shape (numpy broadcasting and shape errors are not modelled). The coefficients pass through
    Signal.from_time_data(fir, 10000), i.e. the setter with constrain_amplitude=True (L262). *)
Record upm := mkUpm { um_bs : nat; um_np : nat; um_parts : list (list (list C)); um_ind : nat;
                      um_spec : list (list (list C)); um_in : list (list R) }.
Definition upm_prepare (fir : list (list R)) (bs : nat) : upm :=
  let np := length (hd [] fir) / bs + 1 in
  mkUpm bs np (map (fun f => mk np (fun n => rfft (2 * bs) (partition f bs n))) fir) 0
    (repeat (repeat (czero (bs + 1)) np) (length fir)) (repeat (repeat 0%R (2 * bs)) (length fir)).
(** L301-335 process_block: block as list of columns. *)
Definition upm_block (s : upm) (block : list (list R)) : upm * list (list R) :=
  let r := mk (length (um_in s)) (fun c =>
    up_block (um_np s) (um_bs s) (nth c (um_parts s) []) (um_ind s) (nth c (um_spec s) []) (nth c (um_in s) []) (nth c block [])) in
  (mkUpm (um_bs s) (um_np s) (um_parts s) ((um_ind s + 1) mod um_np s) (map (fun t => fst (fst t)) r) (map (fun t => snd (fst t)) r), map snd r).
Fixpoint upm_run (s : upm) (blocks : list (list (list R))) : list (list (list R)) :=
  match blocks with [] => [] | b :: t => let (s1, y) := upm_block s b in y :: upm_run s1 t end.
(** L252-262 constructor. *)
Definition upm_init (td : input) : result (list (list R)) :=
  match set_time_data true 10000 td with Ok s => Ok (s_re s) | Err e => Err e end.
