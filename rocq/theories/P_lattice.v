(** Lemmas about lattice filters. *)
From Coq Require Import List Arith Lia ZArith Setoid Bool.
From Verif Require Import Alg Spec M_realtime P_realtime P_conv P_kautz Spec_lattice M_lattice.
Import ListNotations.
Local Open Scope nat_scope.

(** ** Refinement including filter_signal *)
Section Refine.
Context {A : Type} {HA : CRing A} {S : Type}.
Variable f : rtf A A S.
Variable F : list A -> A.
Variable Inv : S -> list A -> Prop.
Hypothesis Hf : Inv (rt_fresh f) [].
Hypothesis Hr : forall s h, Inv s h -> Inv (rt_reset f s) [].
Hypothesis Hp : forall s h x, Inv s h -> exists s', rt_proc f s x = Ok (F (h ++ [x]), s') /\ Inv s' (h ++ [x]).

Lemma lat_column_ok x : forall s h, Inv s h ->
  exists s', lat_column (rt_proc f) s x = Ok (mk (length x) (fun n => F (h ++ firstn (Datatypes.S n) x)), s') /\ Inv s' (h ++ x).
Proof.
  induction x as [|v t IH]; intros s h H.
  - exists s. rewrite app_nil_r. auto.
  - destruct (Hp s h v H) as [s1 [E1 I1]]. destruct (IH s1 (h ++ [v]) I1) as [s2 [E2 I2]].
    exists s2. cbn [lat_column length]. rewrite E1. cbn [bind fst snd]. rewrite E2. cbn [bind fst snd]. rewrite mk_S_front. cbn [firstn].
    rewrite <- app_assoc in I2. cbn [app] in I2. split; auto. do 3 f_equal. apply mk_ext. intros i Hi. cbn [firstn]. now rewrite <- app_assoc.
Qed.
Lemma lat_columns_ok td : forall st h, Forall2 Inv st h -> length td = length st ->
  exists st', lat_columns (rt_proc f) st td =
     Ok (map (fun p => mk (length (snd p)) (fun n => F (fst p ++ firstn (Datatypes.S n) (snd p)))) (combine h td), st') /\
     Forall2 Inv st' (map (fun p => fst p ++ snd p) (combine h td)).
Proof.
  induction td as [|x td IH]; intros st h H L; inversion H as [|s h0 st' h' H1 H2]; subst; try discriminate.
  - exists []. split; auto.
  - destruct (lat_column_ok x s h0 H1) as [s1 [E1 I1]]. destruct (IH st' h' H2 ltac:(simpl in L; lia)) as [st2 [E2 I2]].
    exists (s1 :: st2). cbn [lat_columns]. rewrite E1. cbn [bind fst snd]. rewrite E2. cbn [bind fst snd combine map]. split; auto.
Qed.
Lemma lat_refines ops : lat_run f ops = refx_run (rt_okn f) F ops.
Proof.
  unfold lat_run, refx_run.
  assert (H : Forall2 Inv [rt_fresh f] [[]]) by (constructor; auto).
  revert H. generalize [rt_fresh f] as st. generalize [@nil A] as h.
  induction ops as [|o ops IH]; intros h st H; simpl; auto.
  pose proof (Forall2_len _ _ _ H) as HL.
  destruct o as [[n| |x ch]|td]; simpl.
  - destruct (rt_okn f n); simpl; f_equal; apply IH; auto using Forall2_repeat.
  - f_equal. apply IH. eapply Forall2_map_same; eauto.
  - rewrite HL. destruct (py_index (length h) ch) as [c|] eqn:E.
    + apply py_index_lt in E. rewrite <- HL in E.
      pose proof (Forall2_nth Inv st h c (rt_fresh f) [] H E) as Hc.
      destruct (Hp _ _ x Hc) as (s' & E1 & E2). rewrite E1. f_equal. apply IH. now apply Forall2_upd.
    + f_equal. apply IH. auto.
  - unfold lat_filter_signal. rewrite HL. destruct (negb (length td =? length h) && negb (rt_okn f (length td))).
    + f_equal. apply IH. auto.
    + set (st0 := if length td =? length h then st else repeat (rt_fresh f) (length td)).
      set (h0 := if length td =? length h then h else repeat [] (length td)).
      assert (H0 : Forall2 Inv st0 h0 /\ length td = length st0).
      { unfold st0, h0. destruct (Nat.eqb_spec (length td) (length h)). split; auto. lia.
        split. now apply Forall2_repeat. now rewrite repeat_length. }
      destruct H0 as [H0 L0]. destruct (lat_columns_ok td st0 h0 H0 L0) as [st' [E I]]. rewrite E. f_equal. apply IH. auto.
Qed.
End Refine.

Lemma mrun_inv {A O S} (p : S -> A -> O * S) (F : list A -> O) (Inv : S -> list A -> Prop) :
  (forall s h x, Inv s h -> fst (p s x) = F (h ++ [x]) /\ Inv (snd (p s x)) (h ++ [x])) ->
  forall x s, Inv s [] -> mrun p s x = outputs F x.
Proof.
  intros Hp x s Hs.
  assert (G : Inv (col_final p s x) x /\ mrun p s x = outputs F x).
  { induction x as [|v x IH] using rev_ind. auto. destruct IH as [I E]. destruct (Hp _ _ v I) as [E1 I1].
    rewrite col_final_app, mrun_snoc, outputs_snoc, E, E1. auto. }
  apply G.
Qed.

(** ** Step-up polynomials *)
Section Poly.
Context {A : Type} {HA : CRing A}.
Add Ring Aring_pl : (rth (A := A)).

Definition stepup (k : A) (P : list A) : list A := mk (S (length P)) (fun m => get P m -! k *! get P (length P - m)).
Fixpoint lpoly (ks : list A) (i : nat) : list A := match i with O => [r1] | S j => stepup (get ks j) (lpoly ks j) end.
Definition pv (b w : list A) : A := match length w with O => r0 | S m => conv b w m end.

Lemma lpoly_length ks i : length (lpoly ks i) = S i.
Proof. induction i; auto. cbn [lpoly]. unfold stepup. now rewrite mk_length, IHi. Qed.
Lemma get_cons0 (b : list A) m : get (r0 :: b) m = match m with O => r0 | S j => get b j end.
Proof. destruct m; reflexivity. Qed.
Lemma get_rev_any (P : list A) m : m < length P -> get (rev P) m = get P (length P - 1 - m).
Proof. intros. unfold get. now rewrite nth_rev'. Qed.
Lemma get_rev_out (P : list A) m : length P <= m -> get (rev P) m = r0.
Proof. intros. apply get_out. now rewrite rev_length. Qed.
Lemma get_0rev (P : list A) m : m <= length P -> get (r0 :: rev P) m = get P (length P - m).
Proof.
  intros Hm. rewrite get_cons0. destruct m. now rewrite get_out by lia. rewrite get_rev_any by lia. f_equal. lia.
Qed.
Lemma stepup_get k P m : get (stepup k P) m = get P m -! k *! get (r0 :: rev P) m.
Proof.
  unfold stepup. destruct (Nat.le_gt_cases m (length P)).
  - rewrite get_mk by lia. now rewrite get_0rev.
  - rewrite (get_out (mk _ _)) by (rewrite mk_length; lia). rewrite (get_out P), (get_out (_ :: _)) by (simpl; rewrite ?rev_length; lia). ring.
Qed.
Lemma stepup_rev k P m : get (rev (stepup k P)) m = get (r0 :: rev P) m -! k *! get P m.
Proof.
  assert (L : length (stepup k P) = S (length P)) by (unfold stepup; apply mk_length).
  destruct (Nat.le_gt_cases m (length P)).
  - rewrite get_rev_any by lia. rewrite stepup_get. rewrite L. replace (S (length P) - 1 - m) with (length P - m) by lia.
    rewrite (get_0rev P (length P - m)) by lia. rewrite (get_0rev P m) by lia. replace (length P - (length P - m)) with m by lia. reflexivity.
  - rewrite get_rev_out by lia. rewrite (get_out P), (get_out (_ :: _)) by (simpl; rewrite ?rev_length; lia). ring.
Qed.
Lemma conv_lin (b c d x : list A) (k : A) n : (forall m, get b m = get c m -! k *! get d m) -> conv b x n = conv c x n -! k *! conv d x n.
Proof. intros H. unfold conv. rewrite <- sum_scal_l, <- sum_sub. apply sum_ext. intros i Hi. rewrite H. ring. Qed.
Lemma conv_app_lt (a y z : list A) n : n < length y -> conv a (y ++ z) n = conv a y n.
Proof. intros. apply conv_ext_r. intros. apply get_app_l. lia. Qed.
Lemma conv_shift (b w : list A) v : conv (r0 :: b) (w ++ [v]) (length w) = pv b w.
Proof.
  unfold pv. destruct (length w) as [|n] eqn:E.
  - unfold conv. cbn [sum]. change (get (r0 :: b) 0) with (r0 : A). ring.
  - rewrite <- (conv_app_lt b w [v]) by lia. unfold conv. rewrite sum_S_front. change (get (r0 :: b) 0) with (r0 : A).
    transitivity (r0 *! get (w ++ [v]) (S n - 0) +! sum (S n) (fun i => get b i *! get (w ++ [v]) (n - i))); [reflexivity|ring].
Qed.
Lemma key_f k P w v : conv (stepup k P) (w ++ [v]) (length w) = conv P (w ++ [v]) (length w) -! k *! pv (rev P) w.
Proof. rewrite <- (conv_shift (rev P) w v). apply conv_lin. apply stepup_get. Qed.
Lemma key_b k P w v : conv (rev (stepup k P)) (w ++ [v]) (length w) = pv (rev P) w -! k *! conv P (w ++ [v]) (length w).
Proof. rewrite <- (conv_shift (rev P) w v). apply conv_lin. apply stepup_rev. Qed.
Lemma pv_snoc b w v : pv b (w ++ [v]) = conv b (w ++ [v]) (length w).
Proof. unfold pv. rewrite app_length. simpl. now rewrite Nat.add_1_r. Qed.
Lemma pv_nil b : pv b [] = r0. Proof. reflexivity. Qed.
Lemma lpoly_0 ks i : get (lpoly ks i) 0 = r1.
Proof. induction i; cbn [lpoly]. reflexivity. rewrite stepup_get, IHi. change (get (r0 :: _) 0) with (r0 : A). ring. Qed.
Lemma lpoly_ext ks ks' i : (forall j, j < i -> get ks j = get ks' j) -> lpoly ks i = lpoly ks' i.
Proof. induction i; intros H; cbn [lpoly]; auto. rewrite H, IHi by (intros; try apply H; lia). reflexivity. Qed.

Definition stage (ks : list A) (N : nat) (w : list A) : list A := mk N (fun j => pv (rev (lpoly ks j)) w).
Lemma stage_nil ks N : stage ks N [] = repeat r0 N.
Proof. apply get_ext. unfold stage. now rewrite mk_length, repeat_length. intros i Hi. unfold stage in *. rewrite mk_length in Hi. rewrite get_mk, get_repeat0 by auto. apply pv_nil. Qed.
Lemma map_zero_stage ks N w : map (fun _ => r0) (stage ks N w) = repeat r0 N.
Proof. rewrite map_const_repeat. f_equal. apply mk_length. Qed.

(** FIR *)
Lemma fir_loop k w v i : i <= length k ->
  fold_left (lat_fir_step k) (seq 0 i) (stage k (length k) w, v, v) =
  (mk (length k) (fun j => if j <? i then conv (rev (lpoly k j)) (w ++ [v]) (length w) else pv (rev (lpoly k j)) w),
   conv (lpoly k i) (w ++ [v]) (length w), conv (rev (lpoly k i)) (w ++ [v]) (length w)).
Proof.
  assert (C1 : conv [r1] (w ++ [v]) (length w) = v).
  { unfold conv. rewrite sum_S_front, sum_zero' by (intros; rewrite (get_out [r1]) by (simpl; lia); ring).
    rewrite Nat.sub_0_r, get_snoc. change (get [r1] 0) with (r1 : A). ring. }
  induction i; intros Hi.
  - cbn [seq fold_left lpoly rev app]. now rewrite C1.
  - rewrite seq_S, fold_left_app, IHi by lia. cbn [fold_left lat_fir_step Nat.add lpoly]. rewrite key_f, key_b.
    rewrite get_mk by lia. rewrite Nat.ltb_irrefl. rewrite upd_mk by lia. f_equal; [f_equal|].
    + apply mk_ext. intros j Hj. destruct (Nat.eqb_spec j i).
      * subst. now rewrite (proj2 (Nat.ltb_lt i (S i))) by lia.
      * destruct (Nat.ltb_spec j i), (Nat.ltb_spec j (S i)); auto; lia.
    + ring.
    + ring.
Qed.
Lemma fir_lat_step k w v : lat_fir_proc k (stage k (length k) w) v = Ok (conv (lpoly k (length k)) (w ++ [v]) (length w), stage k (length k) (w ++ [v])).
Proof.
  unfold lat_fir_proc. rewrite fir_loop by lia. do 2 f_equal. apply mk_ext. intros j Hj.
  rewrite (proj2 (Nat.ltb_lt j _)) by auto. now rewrite pv_snoc.
Qed.
Definition lfir_F (k : list A) (h : list A) : A := conv (lpoly k (length k)) h (length h - 1).
Lemma lfir_refines k ops : lat_run (lat_fir k) ops = refx_run (fun n => 1 <=? n) (lfir_F k) ops.
Proof.
  apply (lat_refines (lat_fir k) (lfir_F k) (fun s h => s = stage k (length k) h)).
  - cbn [rt_fresh lat_fir]. now rewrite stage_nil.
  - intros s h ->. cbn [rt_reset lat_fir]. now rewrite map_zero_stage, stage_nil.
  - intros s h x ->. exists (stage k (length k) (h ++ [x])). split; auto. cbn [rt_proc lat_fir]. rewrite fir_lat_step.
    unfold lfir_F. rewrite app_length. simpl. now replace (length h + 1 - 1) with (length h) by lia.
Qed.
Lemma lfir_outputs k x : outputs (lfir_F k) x = mk (length x) (conv (lpoly k (length k)) x).
Proof.
  apply mk_ext. intros n Hn. unfold lfir_F. rewrite firstn_length, Nat.min_l by lia. replace (S n - 1) with n by lia.
  apply conv_ext_r. intros i Hi. unfold get. apply nth_firstn. lia.
Qed.

(** IIR *)
Definition iirp (k c s : list A) (x : A) : A * list A :=
  let '(st, x', x_low) := fold_left (lat_iir_step k c) (rev (seq 0 (length k))) (s, x, r0) in
  (x' *! get c 0 +! x_low, upd st 0 x').
Definition fb (k w : list A) : A := sum (length k) (fun j => get k j *! pv (rev (lpoly k j)) w).
Lemma conv_r1 w v : conv [r1] (w ++ [v]) (length w) = v.
Proof.
  unfold conv. rewrite sum_S_front, sum_zero' by (intros; rewrite (get_out [r1]) by (simpl; lia); ring).
  rewrite Nat.sub_0_r, get_snoc. change (get [r1] 0) with (r1 : A). ring.
Qed.
Lemma conv_lpoly k w v i : conv (lpoly k i) (w ++ [v]) (length w) = v -! sum i (fun j => get k j *! pv (rev (lpoly k j)) w).
Proof.
  induction i. cbn [lpoly sum]. rewrite conv_r1. ring. cbn [lpoly sum]. rewrite key_f, IHi. ring.
Qed.
Lemma iir_lat_loop k c w v m low : m <= length k ->
  fold_left (lat_iir_step k c) (rev (seq 0 m))
    (mk (length k) (fun j => if m <? j then conv (rev (lpoly k j)) (w ++ [v]) (length w) else pv (rev (lpoly k j)) w),
     conv (lpoly k m) (w ++ [v]) (length w), low) =
  (mk (length k) (fun j => if 0 <? j then conv (rev (lpoly k j)) (w ++ [v]) (length w) else pv (rev (lpoly k j)) w),
   conv (lpoly k 0) (w ++ [v]) (length w), low +! sum m (fun i => conv (rev (lpoly k (S i))) (w ++ [v]) (length w) *! get c (S i))).
Proof.
  revert low. induction m; intros low Hm.
  - cbn [seq rev fold_left sum]. f_equal. ring.
  - rewrite seq_S, rev_app_distr. cbn [rev app fold_left Nat.add]. unfold lat_iir_step at 2.
    rewrite !get_mk by lia. rewrite (proj2 (Nat.ltb_ge (S m) m)) by lia. rewrite Nat.add_1_r.
    set (s := (conv (lpoly k (S m)) (w ++ [v]) (length w) +! pv (rev (lpoly k m)) w *! get k m)).
    assert (Es : s = conv (lpoly k m) (w ++ [v]) (length w)) by (unfold s; cbn [lpoly]; rewrite key_f; ring).
    rewrite Es.
    assert (Eb : conv (lpoly k m) (w ++ [v]) (length w) *! -! get k m +! pv (rev (lpoly k m)) w = conv (rev (lpoly k (S m))) (w ++ [v]) (length w))
      by (cbn [lpoly]; rewrite key_b; ring).
    rewrite Eb.
    match goal with |- fold_left _ _ (?st, _, _) = _ => replace st with
      (mk (length k) (fun j => if m <? j then conv (rev (lpoly k j)) (w ++ [v]) (length w) else pv (rev (lpoly k j)) w)) end.
    + rewrite IHm by lia. f_equal. cbn [sum]. ring.
    + destruct (Nat.eqb_spec m (length k - 1)).
      * apply mk_ext. intros j Hj. destruct (Nat.ltb_spec m j), (Nat.ltb_spec (S m) j); auto; lia.
      * rewrite upd_mk by lia. apply mk_ext. intros j Hj. destruct (Nat.eqb_spec j (S m)).
        -- subst. now rewrite (proj2 (Nat.ltb_lt m (S m))) by lia.
        -- destruct (Nat.ltb_spec m j), (Nat.ltb_spec (S m) j); auto; lia.
Qed.
Lemma iirp_step k c w x : 0 < length k ->
  let W := w ++ [x +! fb k w] in
  iirp k c (stage k (length k) w) x =
  (sum (S (length k)) (fun i => conv (rev (lpoly k i)) W (length w) *! get c i), stage k (length k) W).
Proof.
  intros Hk.
  assert (G : forall v x', x' = conv (lpoly k (length k)) (w ++ [v]) (length w) ->
    iirp k c (stage k (length k) w) x' =
    (sum (S (length k)) (fun i => conv (rev (lpoly k i)) (w ++ [v]) (length w) *! get c i), stage k (length k) (w ++ [v]))).
  { intros v x' ->. unfold iirp.
    replace (stage k (length k) w) with
      (mk (length k) (fun j => if length k <? j then conv (rev (lpoly k j)) (w ++ [v]) (length w) else pv (rev (lpoly k j)) w)).
    2: { apply mk_ext. intros j Hj. rewrite (proj2 (Nat.ltb_ge _ j)) by lia. reflexivity. }
    rewrite iir_lat_loop by lia. f_equal.
    - rewrite sum_S_front. cbn [lpoly rev app]. ring.
    - rewrite upd_mk by lia. apply mk_ext. intros j Hj. rewrite pv_snoc. destruct (Nat.eqb_spec j 0).
      + subst. reflexivity.
      + rewrite (proj2 (Nat.ltb_lt 0 j)) by lia. reflexivity. }
  apply G. rewrite conv_lpoly. fold (fb k w). ring.
Qed.
Definition wh (k : list A) (h : list A) : list A := fold_left (fun w x => w ++ [x +! fb k w]) h [].
Lemma wh_snoc k h x : wh k (h ++ [x]) = wh k h ++ [x +! fb k (wh k h)].
Proof. unfold wh. now rewrite fold_left_app. Qed.
Lemma wh_length k h : length (wh k h) = length h.
Proof. induction h using rev_ind; auto. rewrite wh_snoc, !app_length, IHh. reflexivity. Qed.
Lemma wh_app k h g : exists t, wh k (h ++ g) = wh k h ++ t.
Proof.
  induction g as [|v g IH] using rev_ind. exists []. now rewrite !app_nil_r. destruct IH as [t Ht].
  rewrite app_assoc, wh_snoc, Ht. eexists. now rewrite <- app_assoc.
Qed.
Lemma wh_prefix k x n i : n < length x -> i <= n -> get (wh k (firstn (S n) x)) i = get (wh k x) i.
Proof.
  intros Hn Hi. destruct (wh_app k (firstn (S n) x) (skipn (S n) x)) as [t Ht]. rewrite firstn_skipn in Ht. rewrite Ht.
  rewrite get_app_l; auto. rewrite wh_length, firstn_length. lia.
Qed.
Definition liir_F (k c : list A) (h : list A) : A := sum (S (length k)) (fun i => conv (rev (lpoly k i)) (wh k h) (length h - 1) *! get c i).
Lemma iirp_inv k c s h x : 0 < length k -> s = stage k (length k) (wh k h) ->
  fst (iirp k c s x) = liir_F k c (h ++ [x]) /\ snd (iirp k c s x) = stage k (length k) (wh k (h ++ [x])).
Proof.
  intros Hk ->. rewrite iirp_step by auto. cbn [fst snd]. rewrite wh_snoc. split; auto. unfold liir_F. rewrite wh_snoc, app_length.
  simpl length. replace (length h + 1 - 1) with (length h) by lia. now rewrite wh_length.
Qed.
Lemma liir_refines k c ops : 0 < length k -> lat_run (lat_iir k c) ops = refx_run (fun n => 1 <=? n) (liir_F k c) ops.
Proof.
  intros Hk. apply (lat_refines (lat_iir k c) (liir_F k c) (fun s h => s = stage k (length k) (wh k h))).
  - cbn [rt_fresh lat_iir]. unfold wh. cbn [fold_left]. now rewrite stage_nil.
  - intros s h ->. cbn [rt_reset lat_iir]. rewrite map_zero_stage. unfold wh. cbn [fold_left]. now rewrite stage_nil.
  - intros s h x Hs. destruct (iirp_inv k c s h x Hk Hs) as [E1 E2]. exists (stage k (length k) (wh k (h ++ [x]))). split; auto.
    rewrite <- E1, <- E2. cbn [rt_proc lat_iir]. unfold lat_iir_proc. destruct (Nat.eqb_spec (length k) 0); [lia|].
    unfold iirp. destruct (fold_left _ _ _) as [[st x'] lo]. reflexivity.
Qed.
Lemma liir_diff k c (b a x : list A) : 0 < length k -> (forall n, get a n = get (lpoly k (length k)) n) ->
  (forall n, get b n = sum (S (length k)) (fun i => get (rev (lpoly k i)) n *! get c i)) ->
  diff_eq b a x (outputs (liir_F k c) x).
Proof.
  intros Hk Ha Hb.
  assert (HW : forall n, n < length x -> conv a (wh k x) n = get x n).
  { intros n Hn. destruct (wh_app k (firstn (S n) x) (skipn (S n) x)) as [t Ht]. rewrite firstn_skipn in Ht. rewrite Ht.
    rewrite conv_app_lt by (rewrite wh_length, firstn_length; lia).
    rewrite (firstn_S_nth x n r0) by auto. rewrite wh_snoc.
    rewrite (conv_ext_l _ (lpoly k (length k))) by (intros; apply Ha).
    assert (L : length (wh k (firstn n x)) = n) by (rewrite wh_length, firstn_length; lia).
    pose proof (conv_lpoly k (wh k (firstn n x)) (nth n x r0 +! fb k (wh k (firstn n x))) (length k)) as E.
    rewrite L in E. rewrite E. fold (fb k (wh k (firstn n x))). unfold get. ring. }
  assert (HY : forall n, n < length x -> get (outputs (liir_F k c) x) n = conv b (wh k x) n).
  { intros n Hn. unfold outputs. rewrite get_mk by auto. unfold liir_F. rewrite firstn_length, Nat.min_l by lia. replace (S n - 1) with n by lia.
    unfold conv at 2. transitivity (sum (S n) (fun j => sum (S (length k)) (fun i => get (rev (lpoly k i)) j *! get (wh k x) (n - j) *! get c i))).
    - rewrite sum_exchange. apply sum_ext. intros i Hi. unfold conv. rewrite <- sum_scal_r. apply sum_ext. intros j Hj.
      rewrite wh_prefix by lia. reflexivity.
    - apply sum_ext. intros j Hj. rewrite Hb, <- sum_scal_r. apply sum_ext. intros i Hi. ring. }
  split. apply outputs_length. intros n Hn.
  transitivity (sconv (get a) (sconv (get b) (get (wh k x))) n).
  { apply sconv_ext; auto. intros i Hi. apply HY. lia. }
  rewrite <- sconv_assoc. rewrite (sconv_ext _ (sconv (get b) (get a)) _ (get (wh k x))); auto.
  2: intros; apply sconv_comm. rewrite sconv_assoc. apply sconv_ext; auto. intros i Hi. apply HW. lia.
Qed.

(** Second-order sections *)
Lemma sec_iirp (k0 k1 c0 c1 c2 : A) s x :
  let r := lat_sec ((k0, k1), (c0, c1, c2)) s x in
  iirp [k0; k1] [c0; c1; c2] [fst s; snd s] x = (fst r, [fst (snd r); snd (snd r)]).
Proof.
  destruct s as [s0 s1]. unfold iirp, lat_sec, lat_iir_step. cbn [fst snd]. unfold get.
  cbn [length seq rev app fold_left nth Nat.eqb Nat.sub Nat.add upd]. reflexivity.
Qed.
Lemma sec_run k0 k1 c0 c1 c2 x : mrun (lat_sec ((k0, k1), (c0, c1, c2))) (r0, r0) x = outputs (liir_F [k0; k1] [c0; c1; c2]) x.
Proof.
  apply (mrun_inv _ _ (fun s h => [fst s; snd s] = stage [k0; k1] 2 (wh [k0; k1] h))).
  - intros s h v Hs. destruct (iirp_inv [k0; k1] [c0; c1; c2] _ h v ltac:(simpl; lia) Hs) as [E1 E2].
    rewrite sec_iirp in E1, E2. cbn [fst snd] in E1, E2. auto.
  - unfold wh. cbn [fold_left]. now rewrite stage_nil.
Qed.
Lemma sos_cons_run q qs ss s x : mrun (lat_sos_loop (q :: qs)) (s :: ss) x = mrun (lat_sos_loop qs) ss (mrun (lat_sec q) s x).
Proof.
  revert s ss. induction x as [|v x IH]; intros s ss. reflexivity. cbn [mrun lat_sos_loop hd tl].
  destruct (lat_sec q s v) as [y s'] eqn:E. destruct (lat_sos_loop qs ss y) as [z ss'] eqn:E'. cbn [fst snd]. rewrite E'. cbn [fst snd].
  f_equal. apply IH.
Qed.
Lemma sos_refines qs ops :
  lat_run (lat_sos qs) ops = refx_run (fun n => 1 <=? n) (col_F (lat_sos_loop qs) (repeat (r0, r0) (length qs)) r0) ops.
Proof.
  assert (L : forall qs (ss : list (A * A)) x, length (snd (lat_sos_loop qs ss x)) = length qs).
  { induction qs0 as [|q qs' IH]; intros ss x; simpl; auto. destruct (lat_sec q (hd (r0, r0) ss) x) as [y s'].
    specialize (IH (tl ss) y). destruct (lat_sos_loop qs' (tl ss) y) as [z ss']. simpl in *. lia. }
  apply (lat_refines (lat_sos qs) _ (fun s h => length s = length qs /\ s = col_final (lat_sos_loop qs) (repeat (r0, r0) (length qs)) h)).
  - cbn [rt_fresh lat_sos]. split; auto. apply repeat_length.
  - intros s h [E _]. cbn [rt_reset lat_sos]. rewrite map_length. split; auto. cbn [col_final]. rewrite <- E. clear.
    induction s; simpl; f_equal; auto.
  - intros s h x [E1 E2]. cbn [rt_proc lat_sos]. exists (snd (lat_sos_loop qs s x)). rewrite col_F_snoc, col_final_app, <- E2. split; auto.
    destruct (lat_sos_loop qs s x); reflexivity.
Qed.
End Poly.

Section PolyField.
Context {A : Type} {HF : CField A}.
Add Ring Aring_plf : (rth (A := A)).

Lemma step_down_length (row : list A) : length (step_down row) = length row - 1.
Proof. apply mk_length. Qed.
Lemma rows_length n : forall row : list A, length (lat_rows n row) = n.
Proof. induction n; intros; simpl; auto. rewrite app_length, IHn. simpl. lia. Qed.
Lemma rows_last n (row : list A) : nth n (lat_rows (S n) row) [] = row.
Proof. cbn [lat_rows]. rewrite app_nth2; rewrite rows_length; auto. now rewrite Nat.sub_diag. Qed.
Lemma get_mapopp (l : list A) i : get (map (fun v => -! v) l) i = -! get l i.
Proof.
  unfold get. destruct (Nat.lt_ge_cases i (length l)). now rewrite (nth_map' _ l i r0).
  rewrite !nth_overflow by (rewrite ?map_length; auto). ring.
Qed.
Lemma step_up_down (row : list A) : 2 <= length row ->
  let k := get row (length row - 1) in r1 -! k *! k <> r0 ->
  stepup k (r1 :: map (fun v => -! v) (step_down row)) = r1 :: map (fun v => -! v) row.
Proof.
  intros Hl k Hk. set (n := length row - 1) in *. apply get_ext.
  - unfold stepup. rewrite mk_length. cbn [length]. rewrite !map_length, step_down_length. lia.
  - intros i Hi. unfold stepup in *. rewrite mk_length in Hi. cbn [length] in *. rewrite map_length, step_down_length in *. fold n in Hi |- *.
    rewrite get_mk by lia. destruct i as [|m].
    + cbn [Nat.sub]. rewrite (get_out _ (S n)) by (cbn [length]; rewrite map_length, step_down_length; lia).
      change (get (r1 :: _) 0) with (r1 : A). ring.
    + change (get (r1 :: map (fun v => -! v) row) (S m)) with (get (map (fun v => -! v) row) m).
      change (get (r1 :: map (fun v => -! v) (step_down row)) (S m)) with (get (map (fun v => -! v) (step_down row)) m).
      replace (S n - S m) with (n - m) by lia. rewrite !get_mapopp.
      destruct (Nat.eq_dec m n) as [->|].
      * rewrite Nat.sub_diag. change (get (r1 :: map (fun v => -! v) (step_down row)) 0) with (r1 : A).
        rewrite (get_out (step_down row)) by (rewrite step_down_length; lia). unfold k. ring.
      * replace (n - m) with (S (n - 1 - m)) by lia.
        change (get (r1 :: map (fun v => -! v) (step_down row)) (S (n - 1 - m))) with (get (map (fun v => -! v) (step_down row)) (n - 1 - m)).
        rewrite get_mapopp. unfold step_down. fold n. fold k. rewrite !get_mk by lia. replace (n - 1 - (n - 1 - m)) with m by lia.
        set (p := get row m). set (q := get row (n - 1 - m)). unfold rdiv. set (u := rinv (r1 -! k *! k)).
        assert (E : (r1 -! k *! k) *! u = r1). { pose proof (rdiv_mul r1 _ Hk) as E. unfold rdiv in E. fold u in E. transitivity (r1 *! u *! (r1 -! k *! k)); [ring|exact E]. }
        transitivity (-! (p *! ((r1 -! k *! k) *! u))). ring. rewrite E. ring.
Qed.
Lemma lat_k_app (rows : list (list A)) row : lat_k (rows ++ [row]) = lat_k rows ++ [get row (length rows)].
Proof.
  unfold lat_k. rewrite app_length. simpl. rewrite Nat.add_1_r, mk_S. f_equal.
  - apply mk_ext. intros i Hi. now rewrite app_nth1.
  - rewrite app_nth2 by lia. now rewrite Nat.sub_diag.
Qed.
Lemma lat_k_length (rows : list (list A)) : length (lat_k rows) = length rows.
Proof. apply mk_length. Qed.
Lemma rows_lpoly n : forall row : list A, length row = n ->
  let k := lat_k (lat_rows n row) in
  (forall i, 1 <= i < n -> r1 -! get k i *! get k i <> r0) ->
  forall i, 1 <= i <= n -> lpoly k i = r1 :: map (fun v => -! v) (nth (i - 1) (lat_rows n row) []).
Proof.
  induction n as [|n IH]; intros row L k Hk i Hi. lia.
  assert (Lr : length (lat_rows n (step_down row)) = n) by apply rows_length.
  assert (Ek : k = lat_k (lat_rows n (step_down row)) ++ [get row n]).
  { unfold k. cbn [lat_rows]. rewrite lat_k_app, Lr. reflexivity. }
  assert (Lk : length (lat_k (lat_rows n (step_down row))) = n) by (rewrite lat_k_length; auto).
  assert (Lo : forall j, j < n -> get k j = get (lat_k (lat_rows n (step_down row))) j) by (intros; rewrite Ek; apply get_app_l; lia).
  assert (IHr : forall j, 1 <= j <= n -> lpoly k j = r1 :: map (fun v => -! v) (nth (j - 1) (lat_rows n (step_down row)) [])).
  { intros j Hj. rewrite <- (IH (step_down row)); auto. apply lpoly_ext. intros; apply Lo; lia.
    rewrite step_down_length; lia. intros m Hm. rewrite <- Lo by lia. apply Hk. lia. }
  destruct (Nat.eq_dec i (S n)) as [->|].
  - replace (S n - 1) with n by lia. rewrite rows_last. cbn [lpoly].
    assert (Kn : get k n = get row n). { rewrite Ek. rewrite get_app_r by lia. now rewrite Lk, Nat.sub_diag. }
    rewrite Kn. destruct n as [|n'].
    + destruct row as [|r [|]]; try discriminate. cbn. unfold stepup. cbn. unfold get. cbn. f_equal. ring. f_equal. ring.
    + rewrite IHr by lia. replace (S n' - 1) with n' by lia. rewrite rows_last.
      pose proof (step_up_down row ltac:(lia)) as SD. rewrite L in SD. replace (S (S n') - 1) with (S n') in SD by lia.
      apply SD. rewrite <- Kn. apply Hk. lia.
  - rewrite IHr by lia. cbn [lat_rows]. rewrite app_nth1 by lia. reflexivity.
Qed.

(** The ladder coefficients. *)
Definition lad_eq (b : list A) (rows : list (list A)) (c : list A) (m : nat) : Prop :=
  get c m = get b m +! sum (length b - (m + 1)) (fun j => get c (m + 1 + j) *! get (nth (m + j) rows []) j).
Lemma ladder_sum (b : list A) (rows : list (list A)) (c : list A) m :
  fold_left (fun s i => s +! get c i *! get (nth (i - 1) rows []) (i - 1 - m)) (seq (m + 1) (length b - (m + 1))) r0
  = sum (length b - (m + 1)) (fun j => get c (m + 1 + j) *! get (nth (m + j) rows []) j).
Proof.
  generalize (length b - (m + 1)) as n. induction n. reflexivity. rewrite seq_S, fold_left_app, IHn. cbn [fold_left sum]. f_equal.
  f_equal. f_equal. f_equal. lia. lia.
Qed.
Lemma ladder_loop (b : list A) (rows : list (list A)) m : forall c : list A, m <= length b -> length c = length b ->
  (forall j, m <= j < length b -> lad_eq b rows c j) ->
  let c' := fold_left (ladder_step b rows) (rev (seq 0 m)) c in
  length c' = length b /\ forall j, j < length b -> lad_eq b rows c' j.
Proof.
  induction m; intros c Hm Lc H.
  - split; auto. intros; apply H; lia.
  - rewrite seq_S, rev_app_distr. cbn [rev app fold_left Nat.add]. apply IHm; try lia.
    + unfold ladder_step. now rewrite upd_length.
    + intros j Hj. unfold ladder_step. rewrite ladder_sum. set (val := get b m +! _).
      assert (G : forall i, m < i -> get (upd c m val) i = get c i). { intros i Hi. rewrite get_upd by lia. destruct (Nat.eqb_spec i m); auto; lia. }
      assert (SE : sum (length b - (j + 1)) (fun i => get (upd c m val) (j + 1 + i) *! get (nth (j + i) rows []) i) =
                   sum (length b - (j + 1)) (fun i => get c (j + 1 + i) *! get (nth (j + i) rows []) i)).
      { apply sum_ext. intros i Hi. rewrite G by lia. reflexivity. }
      unfold lad_eq. rewrite SE. destruct (Nat.eq_dec j m) as [->|].
      * rewrite get_upd by lia. rewrite Nat.eqb_refl. reflexivity.
      * rewrite G by lia. apply H. lia.
Qed.
Lemma ladder_poly (b : list A) k rows c N : length b = S N -> length c = S N ->
  (forall i, 1 <= i <= N -> lpoly k i = r1 :: map (fun v => -! v) (nth (i - 1) rows [])) ->
  (forall j, j < length b -> lad_eq b rows c j) ->
  forall n, get b n = sum (S N) (fun i => get (rev (lpoly k i)) n *! get c i).
Proof.
  intros Lb Lc Hr Hc n. destruct (Nat.le_gt_cases n N) as [Hn|Hn].
  - specialize (Hc n ltac:(lia)). unfold lad_eq in Hc. rewrite Lb in Hc.
    rewrite (sum_drop n (S N)) by (try lia; intros i Hi; rewrite get_rev_out by (rewrite lpoly_length; lia); ring).
    replace (S N - n) with (S (S N - (n + 1))) by lia. rewrite sum_S_front. rewrite Nat.add_0_r.
    rewrite get_rev_any by (rewrite lpoly_length; lia). rewrite lpoly_length. replace (S n - 1 - n) with 0 by lia. rewrite lpoly_0.
    transitivity (get c n -! sum (S N - (n + 1)) (fun j => get c (n + 1 + j) *! get (nth (n + j) rows []) j)).
    { rewrite Hc. ring. }
    rewrite (sum_ext (S N - (n + 1)) (fun j => get (rev (lpoly k (n + S j))) n *! get c (n + S j)) (fun j => -! (get c (n + 1 + j) *! get (nth (n + j) rows []) j))).
    + rewrite sum_opp. ring.
    + intros j Hj. rewrite get_rev_any by (rewrite lpoly_length; lia). rewrite lpoly_length.
      replace (S (n + S j) - 1 - n) with (S j) by lia. rewrite Hr by lia. replace (n + S j - 1) with (n + j) by lia.
      match goal with |- get (r1 :: ?l) (S j) *! _ = _ => change (get (r1 :: l) (S j)) with (get l j) end.
      rewrite get_mapopp. replace (n + 1 + j) with (n + S j) by lia. ring.
  - rewrite get_out by lia. symmetry. apply sum_zero'. intros i Hi. rewrite get_rev_out by (rewrite lpoly_length; lia). ring.
Qed.
End PolyField.
