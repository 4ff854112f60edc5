(** Reference for block convolvers: each channel remembers the samples received since prepare or reset_state and
    answers a block with the next samples of the convolution. Nothing here refers to the model. *)
From Coq Require Import List Arith Lia ZArith Reals Bool.
From Verif Require Import Alg Spec.
Import ListNotations.
Local Open Scope nat_scope.

Inductive blk_op :=
| Prepare (bs nch : nat)             (* prepare(blocksize_samples, n_channels) *)
| BReset                             (* reset_state() *)
| Block (x : list R) (ch : Z).       (* process_block(x, ch) *)
Inductive blk_out := BDone | BVal (y : list R) | BRaise (e : exn).

(** numpy: a block of the right length, or a single value for all samples. *)
Definition fit (bs : nat) (x : list R) : option (list R) :=
  if length x =? bs then Some x else match x with [v] => Some (repeat v bs) | _ => None end.

(** Samples n-bs .. n-1 of the convolution of fir with the samples h (n = length of h). *)
Definition last_block (fir h : list R) (bs : nat) : list R :=
  mk bs (fun t => conv (HA := CRing_R) fir h (length h - bs + t)).

Definition blk_ref (fir : list R) (s : option (nat * list (list R))) (o : blk_op) : option (nat * list (list R)) * blk_out :=
  match o, s with
  | Prepare bs nch, _ => (Some (bs, repeat [] nch), BDone)
  | _, None => (s, BRaise AttributeError)
  | BReset, Some (bs, h) => (Some (bs, map (fun _ => []) h), BDone)
  | Block x ch, Some (bs, h) =>
      match py_index (length h) ch with
      | None => (s, BRaise IndexError)
      | Some c => match fit bs x with
                  | None => (s, BRaise ValueError)
                  | Some b => let hc := nth c h [] ++ b in (Some (bs, upd h c hc), BVal (last_block fir hc bs))
                  end
      end
  end.

(** n is the smallest number >= t of the form 2^a 3^b 5^c (the FFT length chosen by scipy for real data). *)
Definition five_smooth (n : nat) : Prop := exists a b c, n = 2 ^ a * 3 ^ b * 5 ^ c.
Definition fast_length (t n : nat) : Prop := five_smooth n /\ t <= n /\ forall m, t <= m < n -> ~ five_smooth m.

(** Order of calls that the partitioned convolver needs for a filter of flen coefficients: between two consecutive blocks of
    one channel, the number of process_block calls on all channels is 1 modulo flen/bs + 1. The state is the block size, the
    number of blocks processed and, per channel, the number of its last block since prepare or reset. *)
Fixpoint in_turn (flen : nat) (s : option (nat * nat * list (option nat))) (ops : list blk_op) : Prop :=
  match ops with
  | [] => True
  | Prepare bs nch :: t => 0 < bs /\ in_turn flen (Some (bs, 0, repeat None nch)) t
  | BReset :: t => in_turn flen (option_map (fun s => (fst s, map (fun _ => None) (snd s))) s) t
  | Block x ch :: t =>
      match s with
      | None => in_turn flen s t
      | Some (bs, n, last) =>
          match py_index (length last) ch with
          | None => in_turn flen s t
          | Some c =>
              match fit bs x with
              | None => in_turn flen s t
              | Some _ =>
                  match nth c last None with None => True | Some l => (n - l) mod (flen / bs + 1) = 1 mod (flen / bs + 1) end /\
                  in_turn flen (Some (bs, n + 1, upd last c (Some n))) t
              end
          end
      end
  end.
