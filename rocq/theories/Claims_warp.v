(** Properties C13, C14: warped FIR and IIR filters. *)
From Coq Require Import List Arith Lia ZArith QArith Qcanon Setoid.
From Verif Require Import Alg Spec M_realtime P_realtime M_warp P_warp.
Import ListNotations.
Local Open Scope nat_scope.

(** Y 0 = x and every Y (k+1) is the response of the allpass (z^-1 - lam) / (1 - lam z^-1) to Y k, from rest. *)
Definition allpass_chain {A} {HA : CRing A} (lam : A) (x : list A) (Y : nat -> list A) : Prop :=
  Y 0 = x /\ forall k, diff_eq [-! lam; r1] [r1; -! lam] (Y k) (Y (S k)).
Lemma chain_is_chain {A} {HA : CRing A} (lam : A) x : allpass_chain lam x (fun k => chain lam k x).
Proof. split; auto. intros. apply ap_diff. Qed.

(** ** C13 *)
(** Every call sequence is answered, per channel, with F of the samples received since the last reset, where the outputs of F
    along x are sum_k b_k Y_k[n] for the allpass chain Y driven by x; with warping factor 0 this is the convolution with b. *)
Theorem C13_warped_fir :
  forall (A : Type) (HA : CRing A) (lam : A) (b : list A), b <> [] ->
  exists F : list A -> A,
    (forall ops, rt_run (warp_fir lam b) ops = ref_run (fun n => 1 <=? n) F ops) /\
    (forall x, exists Y, allpass_chain lam x Y /\ outputs F x = mk (length x) (fun n => sum (length b) (fun k => get b k *! get (Y k) n))) /\
    (lam = r0 -> forall x, outputs F x = mk (length x) (conv b x)).
Proof.
  intros A HA lam b Hb. exists (wfir_F lam b). split; [|split].
  - apply (rt_refines (warp_fir lam b) _ (fun s h => s = wbuf lam (length b) h)).
    + cbn. now rewrite wbuf_nil.
    + intros s h ->. cbn. rewrite wbuf_nil. apply map_zero_mk.
    + intros s h x E. now apply wfir_step.
  - intros x. exists (fun k => chain lam k x). split. apply chain_is_chain. apply wfir_outputs.
  - intros -> x. rewrite wfir_outputs. apply mk_ext. intros n Hn. unfold conv.
    transitivity (sum (max (length b) (S n)) (fun k => get b k *! (if k <=? n then get x (n - k) else r0))).
    + rewrite (sum_trunc (length b) (max (length b) (S n))); [|lia|intros k Hk; rewrite (get_out b) by lia; apply rmul_0_l].
      apply sum_ext. intros k Hk. now rewrite chain_0 by auto.
    + rewrite (sum_trunc (S n) (max (length b) (S n))).
      * apply sum_ext. intros k Hk. destruct (Nat.leb_spec k n); auto; lia.
      * lia.
      * intros k Hk. destruct (Nat.leb_spec k n); [lia|]. apply rmul_0_r.
Qed.
Print Assumptions C13_warped_fir.

(** filter_signal gives, per channel, the outputs of a fresh filter and leaves the object's buffers as they were. *)
Theorem C13_filter_signal :
  forall (A : Type) (HA : CRing A) (lam : A) (b : list A) (st td : list (list A)), b <> [] ->
  warp_filter_signal (warp_fir lam b) st td =
  Ok (st, map (fun x => mk (length x) (fun n => match nth n (rt_run (warp_fir lam b) (map (fun v => Proc v 0%Z) x)) Done with Val y => y | _ => r0 end)) td).
Proof.
  intros A HA lam b st td Hb. unfold warp_filter_signal.
  rewrite (all_ok_map _ (fun x => mk (length x) (fun n => match nth n (rt_run (warp_fir lam b) (map (fun v => Proc v 0%Z) x)) Done with Val y => y | _ => r0 end))); auto.
  intros x _. rewrite (process_vector_ok _ (wfir_F lam b) (fun s h => s = wbuf lam (length b) h)) with (h := []).
  - f_equal. apply mk_ext. intros n Hn.
    assert (E : rt_run (warp_fir lam b) (map (fun v => Proc v 0%Z) x) = ref_run (fun n => 1 <=? n) (wfir_F lam b) (map (fun v => Proc v 0%Z) x)).
    { apply (rt_refines (warp_fir lam b) _ (fun s h => s = wbuf lam (length b) h)).
      + cbn. now rewrite wbuf_nil.
      + intros s h ->. cbn. rewrite wbuf_nil. apply map_zero_mk.
      + intros s h y E. now apply wfir_step. }
    rewrite E. unfold ref_run. rewrite ref_run_single by auto. cbn [app]. now rewrite Nat.add_1_r.
  - intros s h y E. now apply wfir_step.
  - cbn. now rewrite wbuf_nil.
Qed.
Print Assumptions C13_filter_signal.

Example C13_example :
  rt_run (warp_fir 2 [1;3;5])%Z [Proc 1 0; Proc 0 0; Proc 4 0; Reset; SetN 0; Proc 2 (-1); Proc 7 1]%Z
  = [Val 15; Val 51; Val 207; Done; Raise AssertionError; Val 30; Raise IndexError]%Z.
Proof. vm_compute. reflexivity. Qed.

(** ** C14 *)
(** For every input x there is an internal sequence w whose allpass chain Y solves the delay-free loop
    sum_k a_k Y_k[n] = x[n] at every n, and the output is sum_k b_k Y_k[n]. The condition is that the loop gain
    sum_k a_k (-lam)^k does not vanish. *)
Theorem C14_warped_iir :
  forall (A : Type) (HF : CField A) (lam : A) (b a : list A), b <> [] -> 2 <= length a -> get a 0 <> r0 ->
  sum (length a) (fun k => get a k *! rpow (-! lam) k) <> r0 ->
  exists F : list A -> A,
    (forall ops, rt_run (warp_iir lam b a) ops = ref_run (fun n => 1 <=? n) F ops) /\
    (forall x, exists w Y, length w = length x /\ allpass_chain lam w Y /\
       forall n, n < length x ->
         sum (length a) (fun k => get a k *! get (Y k) n) = get x n /\
         get (outputs F x) n = sum (length b) (fun k => get b k *! get (Y k) n)).
Proof.
  intros A HF lam b a Hb Ha Ha0 Hl. exists (wiir_F lam b a). split.
  - apply (rt_refines (warp_iir lam b a) _ (fun s h => s = wbuf lam (max (length a) (length b)) (vhist lam b a h))).
    + cbn [rt_fresh warp_iir]. change (vhist lam b a []) with (@nil A). now rewrite wbuf_nil.
    + intros s h ->. cbn [rt_reset warp_iir]. change (vhist lam b a []) with (@nil A). rewrite wbuf_nil. apply map_zero_mk.
    + intros s h x E. now apply wiir_step.
  - intros x. exists (wint lam b a x), (fun k => chain lam k (wint lam b a x)).
    split. unfold wint. now rewrite map_length, vhist_length. split. apply chain_is_chain.
    intros n Hn. split. now apply wint_loop. unfold outputs. rewrite get_mk by auto. now apply wint_out.
Qed.
Print Assumptions C14_warped_iir.

(** The loop equation has one solution only, so the output above is the only one. *)
Theorem C14_loop_unique :
  forall (A : Type) (HF : CField A) (lam : A) (a : list A),
  sum (length a) (fun k => get a k *! rpow (-! lam) k) <> r0 ->
  forall w w' Y Y', length w = length w' -> allpass_chain lam w Y -> allpass_chain lam w' Y' ->
  (forall n, n < length w -> sum (length a) (fun k => get a k *! get (Y k) n) = sum (length a) (fun k => get a k *! get (Y' k) n)) ->
  w = w'.
Proof.
  intros A HF lam a Ha w w' Y Y' L [E1 C1] [E2 C2] H.
  assert (G : forall (Z : nat -> list A) v, Z 0 = v -> (forall k, diff_eq [-! lam; r1] [r1; -! lam] (Z k) (Z (S k))) -> forall k, Z k = chain lam k v).
  { intros Z v E C. induction k; auto. cbn [chain]. rewrite <- IHk. now apply diff_ap. }
  apply (loop_unique lam a Ha); auto. intros n Hn. specialize (H n Hn).
  rewrite (sum_ext _ _ (fun k => get a k *! get (Y k) n)) by (intros; now rewrite (G Y w)).
  rewrite H. apply sum_ext. intros. now rewrite (G Y' w').
Qed.
Print Assumptions C14_loop_unique.

(** A single denominator coefficient: the object feeds back its own output although there is no loop (it should act as
    the warped FIR filter). *)
Theorem C14_single_denominator_refuted :
  rt_run (warp_iir (Q2Qc 0) [Q2Qc 1] [Q2Qc 1]) [Proc (Q2Qc 1) 0%Z; Proc (Q2Qc 0) 0%Z] = [Val (Q2Qc 1); Val (Q2Qc (-1))] /\
  rt_run (warp_fir (Q2Qc 0) [Q2Qc 1]) [Proc (Q2Qc 1) 0%Z; Proc (Q2Qc 0) 0%Z] = [Val (Q2Qc 1); Val (Q2Qc 0)].
Proof. split; vm_compute; reflexivity. Qed.
Print Assumptions C14_single_denominator_refuted.

(** lam = 1/2, a = [2, 1, 4]: loop gain 2 - 1/2 + 1 = 5/2. *)
Example C14_example :
  sum 3 (fun k => get [Q2Qc 2; Q2Qc 1; Q2Qc 4] k *! rpow (-! Q2Qc (1#2)) k) = Q2Qc (5#2) /\
  map (fun o => match o with Val y => Some (this y) | _ => None end)
    (rt_run (warp_iir (Q2Qc (1#2)) [Q2Qc 1; Q2Qc 3] [Q2Qc 2; Q2Qc 1; Q2Qc 4]) [Proc (Q2Qc 5) 0%Z; Proc (Q2Qc 0) 0%Z; Reset; Proc (Q2Qc 10) 0%Z])
  = [Some (-1); Some (18#5); None; Some (-2)]%Q.
Proof. split; vm_compute; reflexivity. Qed.
