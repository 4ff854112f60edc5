(** Proofs about windowed overlap-add. *)
From Coq Require Import List Arith Lia ZArith Bool Reals Lra.
From Verif Require Import Alg Spec M_arrays M_frames P_realtime P_arrays P_arrays2.
Import ListNotations.
Local Open Scope nat_scope.

(** sum of the squared window over the frames containing sample k *)
Definition envelope (step n : nat) (window : list R) (k : nat) : R :=
  sum n (fun i => if (i * step <=? k) && (k <? i * step + length window)
                  then (get window (k - i * step) * get window (k - i * step))%R else 0%R).

Lemma get_vmul u v i : i < length v -> get (vmul u v) i = (get u i * get v i)%R.
Proof. intros. unfold vmul. now rewrite get_mk. Qed.

(** frames of v multiplied by the window *)
Definition windowed_frames_of (window : list R) (s n : nat) (v : list R) (frames : list (list R)) : Prop :=
  length frames = n /\
  forall i, i < n -> length (nth i frames []) = length window /\
    forall k, k < length window -> get (nth i frames []) k = (get window k * get v (i * s + k))%R.

Lemma reconstruct_windowed_eq s n window thr v frames total :
  windowed_frames_of window s n v frames -> (0 < thr)%R ->
  (forall i, i < n -> i * s + length window <= total) ->
  exists out fr win, reconstruct_windowed s window thr frames total = Ok (out, fr, win) /\
    length out = total /\
    forall k, k < total -> get out k = (get v k * envelope s n window k / Rmax (envelope s n window k) thr)%R.
Proof.
  intros [HL HF] Ht Htot. unfold reconstruct_windowed.
  rewrite overlap_add_eq by (rewrite map_length, HL; auto). cbn [bind].
  rewrite overlap_add_eq by (rewrite repeat_length, HL; auto). cbn [bind].
  eexists _, _, _. split; [reflexivity|]. split; [apply mk_length|].
  intros k Hk. rewrite get_mk by auto. rewrite get_mk by auto.
  unfold get at 2. rewrite (nth_map' _ _ k 0%R) by (rewrite mk_length; auto). rewrite nth_mk by auto.
  rewrite map_length, repeat_length, HL.
  assert (E2 : sum n (fun i => if covers s (length window) k i
       then get (nth i (repeat (map (fun v0 => (v0 * v0)%R) window) n) []) (k - i * s) else r0) = envelope s n window k).
  { unfold envelope. apply sum_ext. intros i Hi. unfold covers. destruct (_ && _) eqn:E; auto.
    apply andb_true_iff in E. rewrite Nat.leb_le, Nat.ltb_lt in E.
    rewrite nth_repeat_lt by auto. unfold get at 1. now rewrite (nth_map' _ _ _ 0%R) by lia. }
  assert (E1 : sum n (fun i => if covers s (length window) k i
       then get (nth i (map (vmul window) frames) []) (k - i * s) else r0) = (get v k * envelope s n window k)%R).
  { unfold envelope. rewrite <- (sum_scal_l (HA := CRing_R) n (get v k)). apply sum_ext. intros i Hi. unfold covers.
    destruct (_ && _) eqn:E; [|cbn; ring].
    apply andb_true_iff in E. rewrite Nat.leb_le, Nat.ltb_lt in E.
    destruct (HF i Hi) as [F1 F2].
    rewrite (nth_map' _ frames i []) by lia. rewrite get_vmul by lia. rewrite F2 by lia.
    replace (i * s + (k - i * s)) with k by lia. cbn. ring. }
  rewrite E1, E2. reflexivity.
Qed.
