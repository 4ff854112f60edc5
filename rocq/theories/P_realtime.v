(** Proofs about M_realtime. *)
From Coq Require Import List Arith Lia ZArith Reals Lra.
From Verif Require Import Alg Spec M_realtime.
Import ListNotations.
Local Open Scope nat_scope.

(** ** Generic refinement *)

Lemma Forall2_repeat {S T} (P : S -> T -> Prop) a b n : P a b -> Forall2 P (repeat a n) (repeat b n).
Proof. induction n; simpl; auto. Qed.

Lemma Forall2_len {S T} (P : S -> T -> Prop) l l' : Forall2 P l l' -> length l = length l'.
Proof. induction 1; simpl; auto. Qed.

Lemma Forall2_upd {S T} (P : S -> T -> Prop) l l' i a b :
  Forall2 P l l' -> P a b -> Forall2 P (upd l i a) (upd l' i b).
Proof.
  intros H Hab. revert i. induction H; intros [|i]; simpl; auto.
Qed.

Lemma Forall2_nth {S T} (P : S -> T -> Prop) l l' i da db :
  Forall2 P l l' -> i < length l -> P (nth i l da) (nth i l' db).
Proof.
  intros H. revert i. induction H; intros [|i]; simpl; intros; try lia; auto. apply IHForall2; lia.
Qed.

Lemma Forall2_map_same {S T} (P Q : S -> T -> Prop) f g l l' :
  (forall a b, P a b -> Q (f a) (g b)) -> Forall2 P l l' -> Forall2 Q (map f l) (map g l').
Proof. intros H HF. induction HF; simpl; auto. Qed.

Lemma rt_refines {A O S} (f : rtf A O S) (F : list A -> O) (Inv : S -> list A -> Prop) :
  Inv (rt_fresh f) [] ->
  (forall s h, Inv s h -> Inv (rt_reset f s) []) ->
  (forall s h x, Inv s h -> exists s', rt_proc f s x = Ok (F (h ++ [x]), s') /\ Inv s' (h ++ [x])) ->
  forall ops, rt_run f ops = ref_run (rt_okn f) F ops.
Proof.
  intros Hf Hr Hp ops. unfold rt_run, ref_run.
  assert (H : Forall2 Inv [rt_fresh f] [[]]) by (constructor; auto).
  revert H. generalize [rt_fresh f] as st. generalize [@nil A] as h.
  induction ops as [|o ops IH]; intros h st H; simpl; auto.
  pose proof (Forall2_len _ _ _ H) as HL.
  destruct o as [n| |x ch]; simpl.
  - destruct (rt_okn f n); simpl; f_equal; apply IH; auto using Forall2_repeat.
  - f_equal. apply IH. eapply Forall2_map_same; eauto.
  - rewrite HL. destruct (py_index (length h) ch) as [c|] eqn:E.
    + apply py_index_lt in E. rewrite <- HL in E.
      pose proof (Forall2_nth Inv st h c (rt_fresh f) [] H E) as Hc.
      destruct (Hp _ _ x Hc) as (s' & E1 & E2). rewrite E1. f_equal. apply IH.
      now apply Forall2_upd.
    + f_equal. apply IH. auto.
Qed.

(** For filters whose reset restores the fresh column, the behaviour is the iterated column function. *)
Fixpoint col_final {A O S} (p : S -> A -> O * S) (s : S) (h : list A) : S :=
  match h with [] => s | x :: t => col_final p (snd (p s x)) t end.

Definition col_F {A O S} (p : S -> A -> O * S) (s : S) (d : A) (h : list A) : O :=
  fst (p (col_final p s (removelast h)) (last h d)).

Lemma col_final_app {A O S} (p : S -> A -> O * S) s h x :
  col_final p s (h ++ [x]) = snd (p (col_final p s h) x).
Proof. revert s; induction h; simpl; auto. Qed.

Lemma col_F_snoc {A O S} (p : S -> A -> O * S) s d h x :
  col_F p s d (h ++ [x]) = fst (p (col_final p s h) x).
Proof. unfold col_F. rewrite removelast_last, last_last. reflexivity. Qed.

Lemma rt_refines_col {A O S} (f : rtf A O S) (p : S -> A -> O * S) (d : A) (W : S -> Prop) :
  W (rt_fresh f) ->
  (forall s, W s -> rt_reset f s = rt_fresh f) ->
  (forall s x, W s -> rt_proc f s x = Ok (p s x) /\ W (snd (p s x))) ->
  forall ops, rt_run f ops = ref_run (rt_okn f) (col_F p (rt_fresh f) d) ops.
Proof.
  intros Hf Hr Hp. apply (rt_refines f _ (fun s h => W s /\ s = col_final p (rt_fresh f) h)).
  - auto.
  - intros s h [H _]. split. rewrite Hr; auto. simpl. auto.
  - intros s h x [HW ->]. destruct (Hp _ x HW) as [E E'].
    exists (snd (p (col_final p (rt_fresh f) h) x)). rewrite col_F_snoc, E, col_final_app. split; auto.
    destruct (p _ x); reflexivity.
Qed.

Section Ring.
Context {A : Type} {HA : CRing A}.
Add Ring alg_ring : (@rth A HA).

Lemma fold_left_sum f (y : A) n :
  fold_left (fun y i => y +! f i) (seq 0 n) y = y +! sum n f.
Proof.
  induction n. simpl. ring.
  rewrite seq_S, fold_left_app, IHn. simpl. ring.
Qed.

(** Convolution at the last sample in terms of the reversed history. *)
Lemma conv_rev (b h : list A) x :
  conv b (h ++ [x]) (length h) = get b 0 *! x +! sum (length h) (fun i => get b (S i) *! get (rev h) i).
Proof.
  unfold conv. rewrite sum_S_front. rewrite Nat.sub_0_r, get_snoc. f_equal.
  apply sum_ext. intros i Hi. f_equal.
  rewrite get_app_l by lia. unfold get. rewrite rev_nth by lia. reflexivity.
Qed.

Lemma sum_rev_hist (f : nat -> A) (h : list A) n :
  (forall i, n <= i -> f i = r0) ->
  sum (length h) (fun i => f i *! get (rev h) i) = sum n (fun i => f i *! get (rev h) i).
Proof.
  intros Hf. destruct (le_lt_dec n (length h)).
  - apply sum_trunc; auto. intros i Hi. rewrite Hf by lia. ring.
  - symmetry. apply sum_trunc. lia. intros i Hi.
    rewrite get_out by (rewrite rev_length; lia). ring.
Qed.

Lemma conv_rev_trunc (b h : list A) x :
  conv b (h ++ [x]) (length h)
  = get b 0 *! x +! sum (length b - 1) (fun i => get b (S i) *! get (rev h) i).
Proof.
  rewrite conv_rev. f_equal. apply (sum_rev_hist (fun i => get b (S i))).
  intros. apply get_out. lia.
Qed.

(** *** FIR *)

Lemma fir_read_lt o w i : 0 < o -> fir_read_index o w i < o.
Proof.
  intros. unfold fir_read_index.
  pose proof (Z.mod_pos_bound (Z.of_nat w - Z.of_nat i) (Z.of_nat o)). lia.
Qed.

Lemma fir_read_0 o w : w < o -> fir_read_index o w 0 = w.
Proof. intros. unfold fir_read_index. rewrite Z.mod_small; lia. Qed.

Lemma fir_read_S o w i : 0 < o -> w < o -> fir_read_index o ((w + 1) mod o) (S i) = fir_read_index o w i.
Proof.
  intros. unfold fir_read_index. f_equal.
  rewrite Nat2Z.inj_mod. rewrite Zminus_mod_idemp_l. f_equal. lia.
Qed.

Lemma fir_read_inj o w i j : 0 < o -> i < o -> j < o ->
  fir_read_index o w i = fir_read_index o w j -> i = j.
Proof.
  intros Ho Hi Hj E. unfold fir_read_index in E.
  pose proof (Z.mod_pos_bound (Z.of_nat w - Z.of_nat i) (Z.of_nat o)).
  pose proof (Z.mod_pos_bound (Z.of_nat w - Z.of_nat j) (Z.of_nat o)).
  apply Z2Nat.inj in E; try lia.
  assert (D : (((Z.of_nat w - Z.of_nat i) - (Z.of_nat w - Z.of_nat j)) mod Z.of_nat o = 0)%Z).
  { rewrite Zminus_mod, E, Z.sub_diag. apply Z.mod_0_l. lia. }
  replace (Z.of_nat w - Z.of_nat i - (Z.of_nat w - Z.of_nat j))%Z with (Z.of_nat j - Z.of_nat i)%Z in D by lia.
  apply Z.mod_divide in D; [|lia]. destruct D as [q D].
  assert (q = 0)%Z by nia. lia.
Qed.

Definition fir_inv (o : nat) (s : list A * nat) (h : list A) : Prop :=
  length (fst s) = o /\ snd s < o /\
  forall i, i < o -> get (fst s) (fir_read_index o (snd s) i) = get (rev h) i.

Lemma fir_refines (b : list A) ops : 2 <= length b ->
  rt_run (fir_filter b) ops = ref_run (fun _ => true) (fun h => conv b h (length h - 1)) ops.
Proof.
  intros Hb. set (o := length b - 1). assert (Ho : 0 < o) by (unfold o; lia).
  apply (rt_refines (fir_filter b) _ (fir_inv o)).
  - unfold fir_inv; simpl. fold o. rewrite repeat_length. repeat split; auto.
    intros. rewrite get_repeat0. symmetry. unfold get. destruct i; auto.
  - intros [buf w] h (H1 & H2 & H3). unfold fir_inv; simpl in *. rewrite map_length. repeat split; auto.
    intros i Hi. transitivity (@r0 A HA).
    + unfold get. destruct (le_lt_dec (length buf) (fir_read_index o w i)).
      * apply nth_overflow. now rewrite map_length.
      * rewrite nth_map' with (d := r0); auto.
    + unfold get. destruct i; auto.
  - intros [buf w] h x (H1 & H2 & H3). simpl in H1, H2, H3. simpl. unfold fir_proc. fold o.
    destruct (Nat.eqb_spec o 0); try lia. eexists. split. f_equal. f_equal.
    + rewrite (fold_left_sum (fun i => get buf (fir_read_index o w i) *! get b (i + 1))).
      replace (length (h ++ [x]) - 1) with (length h) by (rewrite app_length; simpl; lia).
      rewrite conv_rev_trunc. fold o. f_equal. apply sum_ext. intros i Hi.
      rewrite H3 by auto. replace (i + 1) with (S i) by lia. ring.
    + unfold fir_inv; simpl. assert (Hw : (w + 1) mod o < o) by (apply Nat.mod_upper_bound; lia).
      rewrite upd_length. repeat split; auto.
      intros i Hi. rewrite get_upd by lia. rewrite rev_app_distr. simpl rev.
      destruct i as [|i].
      * rewrite fir_read_0 by auto. rewrite Nat.eqb_refl. reflexivity.
      * rewrite <- (fir_read_0 o ((w + 1) mod o)) at 2 by auto.
        destruct (Nat.eqb_spec (fir_read_index o ((w + 1) mod o) (S i)) (fir_read_index o ((w + 1) mod o) 0)) as [E|_].
        { apply fir_read_inj in E; lia. }
        rewrite fir_read_S by auto. rewrite H3 by lia. reflexivity.
Qed.

(** With a single coefficient no sample can be processed. *)
Lemma fir_single_raises (b0 x : A) st ch : exists e, snd (rt_step (fir_filter [b0]) st (Proc x ch)) = Raise e.
Proof.
  simpl. destruct (py_index (length st) ch) as [c|]; [|eexists; reflexivity].
  destruct (nth c st ([], 0)) as [buf w]. simpl. eexists. reflexivity.
Qed.

(** *** IIR *)

(** The loop of process_sample as a pure shift. *)
Definition iir_next (b a : list A) (s : list A) (x y : A) : list A :=
  mk (length s) (fun i => x *! get b (S i) -! y *! get a (S i) +! get s (S i)).

Lemma iir_loop (b a s : list A) x y n : n <= length s ->
  fold_left (fun s i => upd s i (x *! get b (i + 1) -! y *! get a (i + 1) +! get s (i + 1))) (seq 0 n) s
  = mk (length s) (fun i => if i <? n then x *! get b (S i) -! y *! get a (S i) +! get s (S i) else get s i).
Proof.
  induction n; intros Hn.
  - simpl. symmetry. apply (mk_nth s r0).
  - rewrite seq_S, fold_left_app, IHn by lia. simpl.
    rewrite upd_mk by lia. apply mk_ext. intros i Hi.
    destruct (Nat.eqb_spec i n).
    + subst. destruct (Nat.ltb_spec n (S n)); try lia.
      replace (n + 1) with (S n) by lia. f_equal.
      destruct (le_lt_dec (length s) (S n)).
      * rewrite get_out by (rewrite mk_length; lia). now rewrite get_out.
      * rewrite get_mk by lia. destruct (Nat.ltb_spec (S n) n); try lia. reflexivity.
    + destruct (Nat.ltb_spec i n), (Nat.ltb_spec i (S n)); try lia; reflexivity.
Qed.

Lemma iir_proc_eq (b a s : list A) x : 2 <= length b -> length s = length b - 1 ->
  iir_proc b a s x
  = Ok (get b 0 *! x +! get s 0, iir_next b a s x (get b 0 *! x +! get s 0)).
Proof.
  intros Hb Hs. unfold iir_proc. set (o := length b - 1) in *.
  destruct (Nat.eqb_spec o 0); try lia. f_equal. f_equal.
  rewrite iir_loop by lia. rewrite upd_mk by lia. apply mk_ext. intros i Hi.
  destruct (Nat.eqb_spec i (o - 1)).
  - subst i. replace (S (o - 1)) with o by lia. rewrite (get_out s o) by lia. ring.
  - destruct (Nat.ltb_spec i (o - 1)); try lia. reflexivity.
Qed.

Definition iir_p (b a : list A) (s : list A) (x : A) : A * list A :=
  let y := get b 0 *! x +! get s 0 in (y, iir_next b a s x y).

Lemma map_const_repeat {T} (c : A) (l : list T) : map (fun _ => c) l = repeat c (length l).
Proof. induction l; simpl; congruence. Qed.

Lemma iir_norm_refines (b a : list A) ops : 2 <= length b ->
  rt_run (iir_filter_norm b a) ops
  = ref_run (fun _ => true) (col_F (iir_p b a) (repeat r0 (length b - 1)) r0) ops.
Proof.
  intros Hb. apply (rt_refines_col (iir_filter_norm b a) (iir_p b a) r0 (fun s => length s = length b - 1)).
  - simpl. apply repeat_length.
  - simpl. intros s Hs. rewrite map_const_repeat. now rewrite Hs.
  - simpl. intros s x Hs. rewrite iir_proc_eq by auto. split. reflexivity.
    simpl. unfold iir_next. now rewrite mk_length.
Qed.

(** Outputs of [col_F]. *)
Lemma outputs_snoc {O} (F : list A -> O) h x : outputs F (h ++ [x]) = outputs F h ++ [F (h ++ [x])].
Proof.
  unfold outputs. rewrite app_length. change (length [x]) with 1. replace (length h + 1) with (S (length h)) by lia.
  rewrite mk_S. f_equal.
  - apply mk_ext. intros i Hi. apply f_equal. rewrite firstn_app.
    replace (S i - length h) with 0 by lia. simpl. now rewrite app_nil_r.
  - f_equal. apply f_equal. replace (S (length h)) with (length (h ++ [x])) by (rewrite app_length; simpl; lia).
    apply firstn_all.
Qed.

Lemma outputs_length {O} (F : list A -> O) h : length (outputs F h) = length h.
Proof. apply mk_length. Qed.

(** Transposed direct form II invariant. *)
Lemma iir_state_inv (b a : list A) h :
  let s0 := repeat (@r0 A HA) (length b - 1) in
  let yh := outputs (col_F (iir_p b a) s0 r0) h in
  let s := col_final (iir_p b a) s0 h in
  length s = length b - 1 /\
  forall i, i < length b - 1 ->
    get s i = sum (length b - 1 - i) (fun j => get b (S (i + j)) *! get (rev h) j -! get a (S (i + j)) *! get (rev yh) j).
Proof.
  intros s0. induction h as [|x h IH] using rev_ind.
  - simpl. split. apply repeat_length. intros i Hi. unfold s0. rewrite get_repeat0.
    symmetry. apply sum_zero'. intros j Hj. unfold get at 2 4. destruct j; simpl; ring.
  - cbv zeta in *. destruct IH as [IH1 IH2]. rewrite col_final_app. simpl. unfold iir_next at 1.
    rewrite mk_length. split; auto. intros i Hi. unfold iir_next. rewrite get_mk by lia.
    rewrite outputs_snoc, !rev_app_distr. simpl rev. rewrite col_F_snoc. 
    change (fst (iir_p b a (col_final (iir_p b a) s0 h) x)) with (get b 0 *! x +! get (col_final (iir_p b a) s0 h) 0).
    set (y := get b 0 *! x +! get (col_final (iir_p b a) s0 h) 0).
    replace (length b - 1 - i) with (S (length b - 1 - S i)) by lia.
    rewrite sum_S_front. rewrite Nat.add_0_r. simpl app.
    change (get (x :: rev h) 0) with x.
    destruct (le_lt_dec (length b - 1) (S i)) as [Hl|Hl].
    + replace (length b - 1 - S i) with 0 by lia. simpl sum. rewrite (get_out (col_final (iir_p b a) s0 h) (S i)) by lia.
      change (get (y :: rev (outputs (col_F (iir_p b a) s0 r0) h)) 0) with y. ring.
    + rewrite IH2 by lia.
      change (get (y :: rev (outputs (col_F (iir_p b a) s0 r0) h)) 0) with y.
      rewrite (sum_ext (length b - 1 - S i)
        (fun i0 : nat => get b (S (i + S i0)) *! get (x :: rev h) (S i0) -!
                   get a (S (i + S i0)) *! get (y :: rev (outputs (col_F (iir_p b a) s0 r0) h)) (S i0))
        (fun j => get b (S (S i + j)) *! get (rev h) j -! get a (S (S i + j)) *! get (rev (outputs (col_F (iir_p b a) s0 r0) h)) j)).
      ring.
      intros j Hj. replace (i + S j) with (S i + j) by lia. reflexivity.
Qed.

Lemma conv_app_last (a y : list A) v n : n < length y -> conv a (y ++ [v]) n = conv a y n.
Proof. intros. unfold conv. apply sum_ext. intros i Hi. rewrite get_app_l by lia. reflexivity. Qed.

Lemma iir_norm_diff_eq (b a : list A) x : 2 <= length b -> length a = length b -> get a 0 = r1 ->
  diff_eq b a x (outputs (col_F (iir_p b a) (repeat r0 (length b - 1)) r0) x).
Proof.
  intros Hb Ha Ha0. split. apply outputs_length.
  induction x as [|v x IH] using rev_ind; simpl; intros n Hn. lia.
  rewrite app_length in Hn. simpl in Hn.
  rewrite outputs_snoc. destruct (Nat.eq_dec n (length x)) as [->|Hne].
  - set (F := col_F (iir_p b a) (repeat r0 (length b - 1)) r0).
    rewrite <- (outputs_length F x) at 1. rewrite !conv_rev_trunc.
    destruct (iir_state_inv b a x) as [_ Hs]. cbv zeta in Hs. fold F in Hs.
    rewrite Ha0, Ha. unfold F at 1. rewrite col_F_snoc. simpl fst.
    rewrite (Hs 0) by lia. rewrite Nat.sub_0_r. simpl Nat.add.
    rewrite sum_sub. ring.
  - rewrite !conv_app_last by (try rewrite outputs_length; lia). apply IH. lia.
Qed.
End Ring.

Section Field.
Context {A : Type} {HF : CField A}.
Add Ring alg_ring_f : (@rth A fring).

Lemma get_pad_to (v : list A) n i : get (pad_to n v) i = get v i.
Proof.
  unfold pad_to. destruct (le_lt_dec (length v) i).
  - rewrite get_app_r by auto. rewrite get_repeat0. now rewrite get_out.
  - now rewrite get_app_l.
Qed.

Lemma get_map_div (v : list A) c i : get (map (fun t => t /! c) v) i = get v i /! c.
Proof.
  destruct (le_lt_dec (length v) i).
  - rewrite !get_out; auto. unfold rdiv. ring. now rewrite map_length.
  - unfold get. rewrite nth_map' with (d := r0); auto.
Qed.

Lemma conv_div_pad (v x : list A) c m n :
  conv (pad_to m (map (fun t => t /! c) v)) x n = conv v x n /! c.
Proof.
  transitivity (sum (S n) (fun k => (get v k /! c) *! get x (n - k))).
  - unfold conv. apply sum_ext. intros i Hi. now rewrite get_pad_to, get_map_div.
  - unfold conv, rdiv. rewrite <- sum_scal_r. apply sum_ext. intros i Hi. ring.
Qed.

Definition iir_F (b a : list A) : list A -> A :=
  let bn := map (fun c => c /! get a 0) b in
  let an := map (fun c => c /! get a 0) a in
  let n := max (length b) (length a) in
  col_F (iir_p (pad_to n bn) (pad_to n an)) (repeat r0 (n - 1)) r0.

Lemma pad_to_length (v : list A) n : length v <= n -> length (pad_to n v) = n.
Proof. intros. unfold pad_to. rewrite app_length, repeat_length. lia. Qed.

Lemma iir_refines (b a : list A) ops : 2 <= max (length b) (length a) ->
  rt_run (iir_filter b a) ops = ref_run (fun _ => true) (iir_F b a) ops.
Proof.
  intros H. unfold iir_filter, iir_F. set (n := max (length b) (length a)) in *. cbv zeta.
  assert (E : length (pad_to n (map (fun c => c /! get a 0) b)) = n)
    by (apply pad_to_length; rewrite map_length; lia).
  rewrite iir_norm_refines by lia. rewrite E. reflexivity.
Qed.

Lemma iir_diff_eq (b a x : list A) : 2 <= max (length b) (length a) -> get a 0 <> r0 ->
  diff_eq b a x (outputs (iir_F b a) x).
Proof.
  intros H Ha. unfold iir_F. set (n := max (length b) (length a)) in *. cbv zeta.
  set (bn := pad_to n (map (fun c => c /! get a 0) b)).
  set (an := pad_to n (map (fun c => c /! get a 0) a)).
  assert (Eb : length bn = n) by (apply pad_to_length; rewrite map_length; lia).
  assert (Ea : length an = n) by (apply pad_to_length; rewrite map_length; lia).
  destruct (iir_norm_diff_eq bn an x) as [H1 H2]; try lia.
  { unfold an. rewrite get_pad_to, get_map_div. unfold rdiv.
    transitivity (rinv (get a 0) *! get a 0). ring. now apply rinv_l. }
  rewrite Eb in *. split; auto. intros k Hk. specialize (H2 k Hk).
  unfold an at 1, bn at 2 in H2. rewrite !conv_div_pad in H2.
  apply (f_equal (fun t => t *! get a 0)) in H2. rewrite !rdiv_mul in H2 by auto. exact H2.
Qed.

Lemma iir_order0_raises (b0 a0 x : A) st ch : exists e, snd (rt_step (iir_filter [b0] [a0]) st (Proc x ch)) = Raise e.
Proof.
  simpl. destruct (py_index (length st) ch); eexists; reflexivity.
Qed.

(** *** State-variable filter *)
Lemma sv_identities (g R : A) s x : (r1 +! R *! g +! g *! g) <> r0 ->
  exists yl yh yb s0 s1,
    sv_proc g R s x = Ok ((yl, yh, yb, yl -! R *! yb +! yh), (s0, s1)) /\
    yl +! R *! yb +! yh = x /\
    yl -! R *! yb +! yh = x -! (r1 +! r1) *! R *! yb /\
    s0 -! fst s = (r1 +! r1) *! g *! yh /\ s0 +! fst s = (r1 +! r1) *! yb /\
    s1 -! snd s = (r1 +! r1) *! g *! yb /\ s1 +! snd s = (r1 +! r1) *! yl.
Proof.
  intros Hd. unfold sv_proc. cbv zeta.
  set (k := rinv (r1 +! R *! g +! g *! g)).
  set (yh := (x -! (R +! g) *! fst s -! snd s) *! k).
  assert (Hk : k *! (r1 +! R *! g +! g *! g) = r1) by (unfold k; now apply rinv_l).
  assert (Hy : yh *! (r1 +! R *! g +! g *! g) = x -! (R +! g) *! fst s -! snd s).
  { unfold yh. transitivity ((x -! (R +! g) *! fst s -! snd s) *! (k *! (r1 +! R *! g +! g *! g))).
    ring. rewrite Hk. ring. }
  assert (H1 : g *! (g *! yh +! fst s) +! snd s +! R *! (g *! yh +! fst s) +! yh = x).
  { transitivity (yh *! (r1 +! R *! g +! g *! g) +! (R +! g) *! fst s +! snd s). ring. rewrite Hy. ring. }
  do 5 eexists. split. reflexivity. split; [exact H1|].
  split; [rewrite <- H1; ring|]. repeat split; ring.
Qed.
End Field.

(** *** State-space filter *)
Section SS.
Context {A : Type} {HA : CRing A}.
Add Ring alg_ring_s : (@rth A HA).

Lemma matvec_length (M : list (list A)) v : length (matvec M v) = length M.
Proof. apply map_length. Qed.

Lemma get_matvec (M : list (list A)) v i : i < length M -> get (matvec M v) i = dot (nth i M []) v.
Proof. intros. unfold matvec, get. rewrite nth_map' with (d := []); auto. Qed.

(** Markov sequence: A^k B *)
Fixpoint apow (MA : list (list A)) (B : list A) (k : nat) : list A :=
  match k with O => B | S j => matvec MA (apow MA B j) end.

Definition ss_spec (MA : list (list A)) (B C : list A) (D : A) (u : list A) : A :=
  let n := length u - 1 in
  D *! get u n +! sum n (fun k => dot C (apow MA B (n - 1 - k)) *! get u k).

Definition ss_p MA B C D s u : A * list A :=
  (dot C s +! D *! u, mk (length (matvec MA s)) (fun i => get (matvec MA s) i +! get B i *! u)).

Lemma ss_state (MA : list (list A)) (B C : list A) (D : A) h :
  length B = length MA -> Forall (fun row => length row = length MA) MA ->
  let s := col_final (ss_p MA B C D) (repeat r0 (length MA)) h in
  length s = length MA /\
  forall i, i < length MA ->
    get s i = sum (length h) (fun k => get (apow MA B (length h - 1 - k)) i *! get h k).
Proof.
  intros HB HR. induction h as [|u h IH] using rev_ind.
  - simpl. split. apply repeat_length. intros. apply get_repeat0.
  - cbv zeta in *. destruct IH as [IH1 IH2]. rewrite col_final_app.
    set (s := col_final (ss_p MA B C D) (repeat r0 (length MA)) h) in *.
    simpl snd. rewrite mk_length, matvec_length. split; auto. intros i Hi.
    rewrite get_mk by (rewrite ?matvec_length; auto). rewrite get_matvec by auto.
    rewrite app_length. simpl length. replace (length h + 1) with (S (length h)) by lia.
    change (sum (S (length h))) with (fun f => sum (length h) f +! f (length h)). cbv beta.
    rewrite get_snoc. replace (S (length h) - 1 - length h) with 0 by lia. simpl apow. f_equal.
    set (row := nth i MA []).
    assert (Hrow : length row = length MA).
    { rewrite Forall_forall in HR. apply HR. apply nth_In. auto. }
    unfold dot. rewrite Hrow.
    rewrite (sum_ext (length MA) _ (fun j => sum (length h) (fun k => get row j *! (get (apow MA B (length h - 1 - k)) j *! get h k)))).
    2: { intros j Hj. rewrite IH2 by auto. now rewrite sum_scal_l. }
    rewrite sum_exchange. apply sum_ext. intros k Hk. rewrite get_app_l by auto.
    replace (length h - 0 - k) with (S (length h - 1 - k)) by lia. simpl apow.
    rewrite get_matvec by auto. unfold dot. fold row. rewrite Hrow. rewrite <- sum_scal_r.
    apply sum_ext. intros. ring.
Qed.

Lemma ss_refines (MA : list (list A)) (B C : list A) (D : A) ops :
  length B = length MA -> length C = length MA -> Forall (fun row => length row = length MA) MA ->
  rt_run (ss_filter MA B C D) ops = ref_run (fun _ => true) (ss_spec MA B C D) ops.
Proof.
  intros HB HC HR.
  apply (rt_refines (ss_filter MA B C D) _
           (fun s h => s = col_final (ss_p MA B C D) (repeat r0 (length MA)) h)).
  - reflexivity.
  - intros s h ->. simpl. rewrite map_const_repeat. f_equal.
    apply (ss_state MA B C D h HB HR).
  - intros s h x ->. eexists. split.
    + simpl. unfold ss_proc. f_equal. f_equal.
      unfold ss_spec. rewrite app_length. simpl length. replace (length h + 1 - 1) with (length h) by lia.
      rewrite get_snoc.
      destruct (ss_state MA B C D h HB HR) as [H1 H2].
      rewrite (sum_ext (length h) _ (fun k => dot C (apow MA B (length h - 1 - k)) *! get h k)).
      2: { intros k Hk. now rewrite get_app_l. }
      unfold dot at 1. rewrite HC.
      rewrite (sum_ext (length MA) _ (fun j => sum (length h) (fun k => get C j *! (get (apow MA B (length h - 1 - k)) j *! get h k)))).
      2: { intros j Hj. rewrite H2 by auto. now rewrite sum_scal_l. }
      rewrite sum_exchange.
      rewrite (sum_ext (length h) _ (fun k => dot C (apow MA B (length h - 1 - k)) *! get h k)).
      ring.
      intros k Hk. unfold dot. rewrite HC, <- sum_scal_r. apply sum_ext. intros. ring.
    + rewrite col_final_app. reflexivity.
Qed.

Lemma apow_entry_eq (MA : list (list A)) (B : list A) k i :
  length B = length MA -> Forall (fun row => length row = length MA) MA -> i < length MA ->
  apow_entry (length MA) (fun i j => get (nth i MA []) j) (get B) k i = get (apow MA B k) i.
Proof.
  intros HB HR. revert i. induction k; intros i Hi; simpl; auto.
  rewrite get_matvec by auto. unfold dot.
  replace (length (nth i MA [])) with (length MA).
  - apply sum_ext. intros j Hj. now rewrite IHk.
  - rewrite Forall_forall in HR. symmetry. apply HR. apply nth_In. auto.
Qed.

Lemma ss_spec_eq (MA : list (list A)) (B C : list A) (D : A) u :
  length B = length MA -> length C = length MA -> Forall (fun row => length row = length MA) MA ->
  ss_output MA B C D u = ss_spec MA B C D u.
Proof.
  intros HB HC HR. unfold ss_output, ss_spec. f_equal. apply sum_ext. intros k Hk. f_equal.
  unfold dot. rewrite HC. apply sum_ext. intros i Hi. now rewrite apow_entry_eq.
Qed.

Lemma ref_run_ext {O} okn (F G : list A -> O) ops : (forall h, F h = G h) -> ref_run okn F ops = ref_run okn G ops.
Proof.
  intros E. unfold ref_run. generalize [@nil A]. induction ops as [|o ops IH]; intros h; simpl; auto.
  destruct o as [n| |x ch]; simpl.
  - destruct (okn n); f_equal; auto.
  - f_equal; auto.
  - destruct (py_index (length h) ch); simpl; rewrite ?E; f_equal; auto.
Qed.
End SS.
