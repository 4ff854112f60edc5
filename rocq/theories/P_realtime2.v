(** Proofs about filter chains, the state-variable filter over R and the exponential averager. *)
From Coq Require Import List Arith Lia ZArith Reals Lra.
From Verif Require Import Alg Spec M_realtime P_realtime.
Import ListNotations.
Local Open Scope nat_scope.

(** ** Chains *)

Definition through_obj {A} (l : list (item A)) (f : rt_obj A) : list (item A) :=
  through (ob_step f) (ob_state f) l.

(** process_sample returns a value or raises, the other two return nothing or raise. *)
Definition well_typed {A} (f : rt_obj A) : Prop :=
  forall s o, match o, snd (ob_step f s o) with
              | Proc _ _, Done => False
              | SetN _, Val _ => False
              | Reset, Val _ => False
              | _, _ => True
              end.

Definition item_step {A} (l : list (rt_obj A)) (i : item A) : list (rt_obj A) * item A :=
  match i with
  | Failed e => (l, Failed e)
  | Call o => let (l', r) := chain_step l o in
              (l', match r, o with
                   | Raise e, _ => Failed e
                   | Val y, Proc _ ch => Call (Proc y ch)
                   | _, _ => Call o end)
  end.

Lemma chain_typed {A} (l : list (rt_obj A)) : Forall well_typed l ->
  forall o l' r, chain_step l o = (l', r) ->
  match o, r with
  | Proc _ _, Done => False | SetN _, Val _ => False | Reset, Val _ => False | _, _ => True end.
Proof.
  intros HF. induction l as [|f t IH]; intros o l' r E.
  - destruct o; simpl in E; inversion E; subst; exact I.
  - inversion HF as [|f0 t0 Hf0 Ht0]; subst. specialize (IH Ht0).
    pose proof (Hf0 (ob_state f) o) as W.
    destruct o as [n| |x ch]; simpl in E; unfold ob_call in E; simpl in E.
    + destruct (snd (ob_step f (ob_state f) (SetN n))) eqn:E1; try tauto.
      * destruct (chain_bcast t (SetN n)) eqn:E2. inversion E; subst. apply (IH (SetN n) _ _ E2).
      * inversion E; subst; auto.
    + destruct (snd (ob_step f (ob_state f) Reset)) eqn:E1; try tauto.
      * destruct (chain_bcast t Reset) eqn:E2. inversion E; subst. apply (IH Reset _ _ E2).
      * inversion E; subst; auto.
    + destruct (snd (ob_step f (ob_state f) (Proc x ch))) eqn:E1; try tauto.
      * destruct (chain_proc t y ch) eqn:E2. inversion E; subst. apply (IH (Proc y ch) _ _ E2).
      * inversion E; subst; auto.
Qed.

Lemma item_step_cons {A} (f : rt_obj A) t i : Forall well_typed (f :: t) ->
  item_step (f :: t) i =
  match i with
  | Failed e => (f :: t, Failed e)
  | Call o =>
      let f' := fst (ob_call f o) in
      let i' := pass o (snd (ob_call f o)) in
      (f' :: fst (item_step t i'), snd (item_step t i'))
  end.
Proof.
  intros W0. inversion W0 as [|f0 t0 W Wt]; subst. destruct i as [o|e]; [|reflexivity].
  specialize (W (ob_state f) o). destruct o as [n| |x ch]; unfold item_step, chain_step.
  - simpl. unfold ob_call in *. simpl. destruct (snd (ob_step f (ob_state f) (SetN n))) eqn:E; simpl; try tauto; try reflexivity.
    destruct (chain_bcast t (SetN n)) as [t' [| |]]; reflexivity.
  - simpl. unfold ob_call in *. simpl. destruct (snd (ob_step f (ob_state f) Reset)) eqn:E; simpl; try tauto; try reflexivity.
    destruct (chain_bcast t Reset) as [t' [| |]]; reflexivity.
  - simpl. unfold ob_call in *. simpl. destruct (snd (ob_step f (ob_state f) (Proc x ch))) eqn:E; simpl; try tauto; try reflexivity.
    destruct (chain_proc t y ch) as [t' [| |]] eqn:E2; simpl; try tauto;
    [destruct (chain_typed t Wt (Proc y ch) _ _ E2)|..]; try reflexivity.
Qed.

Lemma through_all_cons {A} (l : list (rt_obj A)) i items : Forall well_typed l ->
  fold_left through_obj l (i :: items)
  = snd (item_step l i) :: fold_left through_obj (fst (item_step l i)) items.
Proof.
  revert i items. induction l as [|f t IH]; intros i items HF.
  - simpl. destruct i as [[| |]|]; reflexivity.
  - rewrite item_step_cons by auto. inversion HF; subst. simpl.
    destruct i as [o|e]; simpl.
    + unfold through_obj at 2. simpl. unfold ob_call. simpl.
      destruct (ob_step f (ob_state f) o) as [s' r] eqn:E. simpl.
      rewrite IH by auto. reflexivity.
    + unfold through_obj at 2. simpl. rewrite IH by auto. simpl. reflexivity.
Qed.

Lemma well_typed_step {A} (l : list (rt_obj A)) i : Forall well_typed l -> Forall well_typed (fst (item_step l i)).
Proof.
  revert i. induction l as [|f t IH]; intros i HF.
  - destruct i as [[| |]|]; simpl; auto.
  - rewrite item_step_cons by auto. inversion HF; subst. destruct i; simpl; auto.
Qed.

Lemma item_step_chain {A} (l : list (rt_obj A)) o : Forall well_typed l ->
  fst (item_step l (Call o)) = fst (chain_step l o) /\ observe (snd (item_step l (Call o))) = snd (chain_step l o).
Proof.
  intros HF. unfold item_step. destruct (chain_step l o) as [l' r] eqn:E. split; auto. simpl.
  pose proof (chain_typed l HF o _ _ E) as G.
  destruct o, r; simpl in *; try tauto; reflexivity.
Qed.

Lemma chain_composition {A} (l : list (rt_obj A)) ops : Forall well_typed l ->
  run chain_step l ops = map observe (fold_left through_obj l (map Call ops)).
Proof.
  revert l. induction ops as [|o ops IH]; intros l HF.
  - simpl. assert (E : fold_left through_obj l [] = []) by (clear HF; induction l; simpl; auto).
    rewrite E. reflexivity.
  - simpl map. rewrite through_all_cons by auto. rewrite map_cons.
    change (run chain_step l (o :: ops)) with (let (s', r) := chain_step l o in r :: run chain_step s' ops).
    destruct (item_step_chain l o HF) as [E1 E2].
    pose proof (well_typed_step l (Call o) HF) as HF'.
    rewrite E2, E1. rewrite E1 in HF'. destruct (chain_step l o) as [l' r]. simpl in *. f_equal. auto.
Qed.

(** ** State-variable filter over the reals *)
Section SV.
Local Open Scope R_scope.

Lemma sv_g_pos fs f : sv_params_ok fs f -> 0 < sv_g fs f.
Proof.
  intros [H1 H2]. unfold sv_g.
  assert (Hfs : (0 < fs)%Z).
  { assert (0 < IZR (fs / 2)) by lra. apply lt_IZR in H. 
    destruct (Z.lt_ge_cases 0 fs); auto. exfalso.
    assert (fs / 2 <= 0)%Z by (apply Z.div_le_upper_bound; lia). lia. }
  assert (Hh : IZR (fs / 2) <= IZR fs / 2).
  { assert (IZR (2 * (fs / 2)) <= IZR fs) by (apply IZR_le; apply Z.mul_div_le; lia).
    rewrite mult_IZR in H. lra. }
  assert (HF : 0 < IZR fs) by (apply IZR_lt; auto).
  apply tan_gt_0.
  - apply Rdiv_lt_0_compat; auto. apply Rmult_lt_0_compat; auto. apply PI_RGT_0.
  - apply (Rmult_lt_reg_r (IZR fs)); auto. unfold Rdiv.
    replace (PI * f * / IZR fs * IZR fs) with (PI * f) by (field; lra).
    replace (PI * / 2 * IZR fs) with (PI * (IZR fs / 2)) by field.
    apply Rmult_lt_compat_l. apply PI_RGT_0. lra.
Qed.

Definition lp (o : @sv_out R) : R := fst (fst (fst o)).
Definition hp (o : @sv_out R) : R := snd (fst (fst o)).
Definition bp (o : @sv_out R) : R := snd (fst o).
Definition ap (o : @sv_out R) : R := snd o.

Definition sv_p (g res : R) (s : R * R) (x : R) : @sv_out R * (R * R) :=
  match sv_proc g res s x with Ok v => v | Err _ => ((0,0,0,0),s) end.

Lemma sv_refines g res ops :
  rt_run (sv_filter g res) ops = ref_run (fun n => (1 <=? n)%nat) (col_F (sv_p g res) (0, 0) 0) ops.
Proof.
  pose proof (rt_refines_col (sv_filter g res) (sv_p g res) 0 (fun _ => True) I) as H.
  assert (H1 : forall s, True -> rt_reset (sv_filter g res) s = rt_fresh (sv_filter g res)) by (intros; reflexivity).
  assert (H2 : forall s x, True -> rt_proc (sv_filter g res) s x = Ok (sv_p g res s x) /\ True)
    by (intros; split; [reflexivity|exact I]).
  exact (H H1 H2 ops).
Qed.

Lemma sv_step g res s x : 0 < g -> 0 < res ->
  let o := fst (sv_p g res s x) in
  let s' := snd (sv_p g res s x) in
  lp o + res * bp o + hp o = x /\ ap o = x - 2 * res * bp o /\
  fst s' = g * hp o + bp o /\ snd s' = g * bp o + lp o /\
  x * x - ap o * ap o = res / g * ((fst s' * fst s' + snd s' * snd s') - (fst s * fst s + snd s * snd s)).
Proof.
  intros Hg Hr. cbv zeta.
  assert (Hd : 1 + res * g + g * g <> 0).
  { assert (0 < res * g) by (apply Rmult_lt_0_compat; auto). assert (0 < g * g) by (apply Rmult_lt_0_compat; auto). lra. }
  destruct (sv_identities (HF := CField_R) g res s x Hd) as (yl & yh & yb & s0 & s1 & E & H1 & H2 & H3 & H4 & H5 & H6).
  unfold sv_p. rewrite E. simpl in *. unfold lp, hp, bp, ap. simpl.
  split; [exact H1|]. split; [rewrite H2; ring|]. split; [lra|]. split; [lra|].
  assert (E0 : s0 * s0 - fst s * fst s = 4 * g * yh * yb).
  { transitivity ((s0 - fst s) * (s0 + fst s)). ring. rewrite H3, H4. ring. }
  assert (E1 : s1 * s1 - snd s * snd s = 4 * g * yb * yl).
  { transitivity ((s1 - snd s) * (s1 + snd s)). ring. rewrite H5, H6. ring. }
  replace (s0 * s0 + s1 * s1 - (fst s * fst s + snd s * snd s))
    with ((s0 * s0 - fst s * fst s) + (s1 * s1 - snd s * snd s)) by ring.
  rewrite E0, E1, <- H1. field. lra.
Qed.

Lemma sv_energy g res x : 0 < g -> 0 < res ->
  let F := col_F (sv_p g res) (0, 0) 0 in
  let st := col_final (sv_p g res) (0, 0) x in
  sum (length x) (fun n => get x n * get x n)
  = sum (length x) (fun n => let y := ap (F (firstn (S n) x)) in y * y)
    + res / g * (fst st * fst st + snd st * snd st).
Proof.
  intros Hg Hr F. induction x as [|v x IH] using rev_ind; cbv zeta in *.
  - simpl. field. lra.
  - rewrite col_final_app. rewrite app_length. change (length [v]) with 1%nat.
    replace (length x + 1)%nat with (S (length x)) by lia.
    change (sum (S (length x)) (fun n => get (x ++ [v]) n * get (x ++ [v]) n))
      with (sum (length x) (fun n => get (x ++ [v]) n * get (x ++ [v]) n)
            + get (x ++ [v]) (length x) * get (x ++ [v]) (length x)).
    change (sum (S (length x)) (fun n => ap (F (firstn (S n) (x ++ [v]))) * ap (F (firstn (S n) (x ++ [v])))))
      with (sum (length x) (fun n => ap (F (firstn (S n) (x ++ [v]))) * ap (F (firstn (S n) (x ++ [v]))))
            + ap (F (firstn (S (length x)) (x ++ [v]))) * ap (F (firstn (S (length x)) (x ++ [v])))).
    rewrite get_snoc.
    rewrite (sum_ext (length x) (fun n => get (x ++ [v]) n * get (x ++ [v]) n) (fun n => get x n * get x n)).
    2: { intros i Hi. now rewrite get_app_l. }
    rewrite (sum_ext (length x) (fun n => ap (F (firstn (S n) (x ++ [v]))) * ap (F (firstn (S n) (x ++ [v]))))
                                (fun n => ap (F (firstn (S n) x)) * ap (F (firstn (S n) x)))).
    2: { intros i Hi. rewrite firstn_app. replace (S i - length x)%nat with 0%nat by lia.
         rewrite firstn_O, app_nil_r. reflexivity. }
    rewrite IH. replace (S (length x)) with (length (x ++ [v])) by (rewrite app_length; simpl; lia).
    rewrite firstn_all. assert (EF : F (x ++ [v]) = fst (sv_p g res (col_final (sv_p g res) (0, 0) x) v)) by (unfold F; apply col_F_snoc).
    rewrite EF.
    set (s := col_final (sv_p g res) (0, 0) x).
    destruct (sv_step g res s v Hg Hr) as (_ & _ & _ & _ & E). cbv zeta in E. fold s.
    set (o := fst (sv_p g res s v)) in *. set (s' := snd (sv_p g res s v)) in *.
    assert (v * v = ap o * ap o + res / g * (fst s' * fst s' + snd s' * snd s' - (fst s * fst s + snd s * snd s))) by lra.
    rewrite H. ring.
Qed.
End SV.

(** ** Exponential averager *)
Section EMA.
Local Open Scope R_scope.

Lemma smoothing_factor_range t fs acc : 0 < t -> 0 < fs -> 0 < acc < 1 -> 0 < smoothing_factor t fs acc < 1.
Proof.
  intros Ht Hf [Ha1 Ha2]. unfold smoothing_factor.
  assert (L : ln (1 - acc) < 0).
  { rewrite <- ln_1. apply ln_increasing; lra. }
  set (e := ln (1 - acc) / t / fs).
  assert (He : e < 0).
  { unfold e, Rdiv. assert (0 < / t) by (apply Rinv_0_lt_compat; auto).
    assert (0 < / fs) by (apply Rinv_0_lt_compat; auto).
    assert (0 < / t * / fs) by (apply Rmult_lt_0_compat; auto). rewrite Rmult_assoc. nra. }
  pose proof (exp_pos e). assert (exp e < 1) by (rewrite <- exp_0; apply exp_increasing; auto). lra.
Qed.

Lemma convex_between k s x : 0 <= k <= 1 ->
  Rmin s x <= x * k + (1 - k) * s <= Rmax s x.
Proof.
  intros. unfold Rmin, Rmax. destruct (Rle_dec s x); split; nra.
Qed.

Lemma ema_bounds inc dec lo hi ops st : 0 <= inc <= 1 -> 0 <= dec <= 1 -> lo <= 0 <= hi ->
  Forall (fun s => lo <= s <= hi) st ->
  (forall x ch, In (Proc x ch) ops -> lo <= x <= hi) ->
  forall y, In (Val y) (run (ema_step inc dec) st ops) -> lo <= y <= hi.
Proof.
  intros Hi Hd Hlh. revert st. induction ops as [|o ops IH]; intros st Hst Hops y Hy; cbn [run] in Hy; [destruct Hy|].
  assert (Hops' : forall x ch, In (Proc x ch) ops -> lo <= x <= hi) by (intros; eapply Hops; right; eauto).
  destruct o as [n| |x ch]; cbn [ema_step] in Hy.
  - destruct Hy as [Hy|Hy]; [discriminate|]. eapply IH; [| |exact Hy]; auto.
    clear - Hlh. induction n; simpl; auto.
  - destruct Hy as [Hy|Hy]; [discriminate|]. eapply IH; [| |exact Hy]; auto.
    clear - Hlh. induction st; simpl; auto.
  - destruct (2 <=? length st)%nat; [simpl in Hy; destruct Hy as [Hy|Hy]; [discriminate|eapply IH; eauto]|].
    destruct (py_index (length st) ch) as [c|] eqn:E; [|simpl in Hy; destruct Hy as [Hy|Hy]; [discriminate|eapply IH; eauto]].
    cbv zeta in Hy. cbn [In] in Hy.
    set (s := nth c st 0) in *. set (k := if Rlt_dec s x then inc else dec) in *.
    assert (Hk : 0 <= k <= 1) by (unfold k; destruct (Rlt_dec s x); auto).
    assert (Hs : lo <= s <= hi).
    { rewrite Forall_forall in Hst. apply Hst. apply nth_In. eapply py_index_lt; eauto. }
    assert (Hx : lo <= x <= hi) by (eapply Hops; left; reflexivity).
    pose proof (convex_between k s x Hk) as C.
    assert (HY : lo <= x * k + (1 - k) * s <= hi).
    { unfold Rmin, Rmax in C. destruct (Rle_dec s x); lra. }
    destruct Hy as [Hy|Hy].
    + inversion Hy; subst. exact HY.
    + eapply IH; [| |exact Hy]; auto.
      revert HY. generalize (x * k + (1 - k) * s). clear - Hst. intros v HY. revert c.
      induction Hst; intros [|c]; simpl; auto.
Qed.

(** Step response of the averager. *)
Lemma ema_step_response inc dec n s : 0 <= inc <= 1 -> s < 1 ->
  forall k, (k < n)%nat ->
  nth k (run (ema_step inc dec) [s] (repeat (Proc 1 0) n)) Done = Val (1 - (1 - s) * (1 - inc) ^ (S k)).
Proof.
  intros Hi. revert s. induction n; intros s Hs k Hk; [lia|]. simpl.
  destruct (Rlt_dec s 1); try lra.
  destruct k as [|k].
  - f_equal. simpl. ring.
  - destruct (Rlt_dec inc 1) as [Hlt|Hge].
    + destruct (Req_dec inc 0) as [->|H0].
      * rewrite IHn by (try lia; lra). f_equal. simpl. ring.
      * rewrite IHn by (try lia; nra). f_equal. simpl. ring.
    + assert (inc = 1) by lra. subst inc. clear IHn.
      replace (1 * 1 + (1 - 1) * s) with 1 by ring.
      assert (G : forall m j, (j < m)%nat -> nth j (run (ema_step 1 dec) [1] (repeat (Proc 1 0) m)) Done = Val 1).
      { induction m; intros j Hj; [lia|]. simpl. destruct (Rlt_dec 1 1); try lra.
        replace (1 * dec + (1 - dec) * 1) with 1 by ring. destruct j; auto. apply IHm. lia. }
      rewrite G by lia. f_equal. simpl. ring.
Qed.
End EMA.
