(** C39, C43: autoregressive models. *)
From Coq Require Import List Arith Lia Reals Lra Bool.
From Verif Require Import Alg Spec Dft P_realtime Spec_ar M_ar P_ar P_ar2.
Import ListNotations.
Local Open Scope R_scope.

(** Levinson-Durbin: a returned model solves the Yule-Walker equations and its error is the positive prediction-error power. *)
Theorem C39_levinson_solves :
  forall r a e, (2 <= length r)%nat -> get r 0 <> 0 -> levinson r = Ok (a, e) -> yule_walker r a e /\ 0 < e.
Proof.
  intros r a e HL H0 E. unfold levinson in E. destruct (lev_loop _ _ _) as [[p e']|] eqn:El; [|discriminate]. cbn in E. injection E as <- <-.
  assert (Hr : r <> []) by (intros ->; simpl in HL; lia).
  destruct (lev_loop_inv r (YW r)) with (n := (length r - 1)%nat) (m := O) (p := repeat 0 (length r - 1)) (e := get r 0) (p' := p) (e' := e')
    as [HY [_ [He _]]]; auto; try lia.
  - intros m p0 e0 Hm Lp He HY k Hk. now apply YW_next.
  - now rewrite repeat_length.
  - now apply YW_0.
  - split. now apply YW_spec. apply He. lia.
Qed.
Print Assumptions C39_levinson_solves.

Lemma firstn_get (r : list R) n i : (i < n)%nat -> get (firstn n r) i = get r i.
Proof. intros. unfold get. now apply nth_firstn. Qed.
Lemma YW_prefix r m p e : (m + 1 < length r)%nat -> YW r (m + 1) p e -> yule_walker (firstn (m + 2) r) (1 :: firstn (m + 1) p) e.
Proof.
  intros Hm [Lp [H1 H2]]. assert (L : length (firstn (m + 2) r) = (m + 2)%nat) by (rewrite firstn_length; lia).
  assert (E : forall i, (i <= m + 1)%nat -> rsum (m + 2) (fun j => get (1 :: firstn (m + 1) p) j * get (firstn (m + 2) r) (dist i j)) = Dm r (pl (m + 1) p) (m + 1) i).
  { intros i Hi. unfold Dm. replace (m + 1 + 1)%nat with (m + 2)%nat by lia. apply rsum_ext. intros j Hj. unfold pl. rewrite (proj2 (Nat.leb_le j (m + 1))) by lia.
    rewrite firstn_get by (unfold dist; lia). f_equal. destruct j; [reflexivity|]. apply (firstn_get p (m + 1) j). lia. }
  split; [rewrite L; cbn [length]; rewrite firstn_length; lia|]. split; [reflexivity|]. rewrite L. split.
  - intros i Hi. rewrite E by lia. apply H1. lia.
  - rewrite <- H2, <- E by lia. apply rsum_ext. intros j Hj. do 2 f_equal. unfold dist. lia.
Qed.
(** It raises only ValueError, and only if the model of some lower or equal order would have a non-positive error power. *)
Theorem C39_levinson_raises :
  forall r x, get r 0 <> 0 -> levinson r = Err x ->
  x = ValueError /\ exists n a e, (2 <= n <= length r)%nat /\ yule_walker (firstn n r) a e /\ e <= 0.
Proof.
  intros r x H0 E. unfold levinson in E.
  destruct (lev_loop _ _ _) as [q|x'] eqn:El; [discriminate|]. cbn in E. injection E as <-.
  assert (Hr : r <> []) by (intros ->; unfold get in H0; cbn in H0; lra).
  assert (G : forall n m p e, (m + n + 1 = length r)%nat -> e <> 0 -> YW r m p e -> lev_loop (tl r) (seq m n) (p, e) = Err x' ->
     x' = ValueError /\ exists n a e, (2 <= n <= length r)%nat /\ yule_walker (firstn n r) a e /\ e <= 0).
  { induction n; intros m p e HL He HY E. discriminate. cbn [seq lev_loop] in E. pose proof HY as [Lp _]. rewrite lev_step_eq in E by (auto; lia).
    pose proof (YW_next r m p e ltac:(lia) He HY) as HY'. cbv zeta in HY'. set (k := - Dm r (pl m p) m (m + 1) / e) in *.
    destruct (Rle_dec (e * (1 - k * k)) 0) as [N|N].
    - injection E as <-. split; auto. exists (m + 2)%nat. eexists _, _. split; [lia|]. split; [apply YW_prefix; eauto; lia|exact N].
    - cbn [bind] in E. apply (IHn (S m) (lev_next k m p) (e * (1 - k * k))); auto. lia. lra. now rewrite Nat.add_1_r in HY'. }
  apply (G (length r - 1)%nat O (repeat 0 (length r - 1)) (get r 0)); auto. destruct r; [congruence|simpl; lia]. now apply YW_0.
Qed.
Print Assumptions C39_levinson_raises.
Example C39_levinson_example :
  exists a e, levinson [2; 1; 0] = Ok (a, e) /\ a = [1; -2/3; 1/3] /\ e = 4/3.
Proof.
  unfold levinson, lev_loop, lev_step. cbn [length Nat.sub seq repeat tl fold_left Nat.eqb Nat.add Nat.div Nat.divmod fst snd]. unfold get. cbn [nth].
  destruct (Rle_dec _ 0) as [C|_]; [exfalso; lra|]. cbn [bind nth upd]. cbn [nth].
  destruct (Rle_dec _ 0) as [C|_]; [exfalso; match type of C with ?e <= 0 => replace e with (4/3) in C by field end; lra|]. cbn [bind fst snd]. eexists _, _. split; [reflexivity|]. cbn. split; [|field].
  unfold lev_inner, get. cbn. repeat (f_equal; try field).
Qed.
Example C39_raises_example : levinson [1; 1] = Err ValueError.
Proof.
  unfold levinson, lev_loop, lev_step. cbn [length Nat.sub seq repeat tl fold_left]. unfold get. cbn [nth].
  destruct (Rle_dec _ 0) as [_|C]; [reflexivity|exfalso; lra].
Qed.

(** On any signal that is not all zero the Yule-Walker method succeeds, and the model it returns is the predictor of that
    order with the smallest residual energy, which the returned variance reports. *)
Theorem C39_yule_walker_optimal :
  forall order x, (order < length x)%nat -> (exists i, get x i <> 0) ->
  exists a e, yw order x = Ok (a, e) /\ yule_walker (mk (order + 1) (acorr x)) a e /\ 0 < e /\
    residual a x = INR (length x) * e /\
    (forall c, length c = (order + 1)%nat -> get c 0 = 1 -> residual a x <= residual c x).
Proof.
  intros order x Ho [i Hi]. destruct (yw_total order x i Ho Hi) as [p [e [E El]]]. pose proof (autocorr_length order x Ho) as Lr. pose proof (L_pos x i Hi) as HL.
  pose proof (acorr0_pos order x i Ho Hi) as H0. assert (Hr : autocorr order x <> []) by (intros C; rewrite C in Lr; simpl in Lr; lia).
  destruct (lev_loop_inv (autocorr order x) (YW (autocorr order x))) with (n := order) (m := O) (p := repeat 0 order) (e := get (autocorr order x) 0) (p' := p) (e' := e)
    as [HY [_ [_ Lp]]]; auto; try lia; try lra.
  { intros m p0 e0 Hm Lp He HY k Hk. now apply YW_next. }
  { rewrite repeat_length; lia. }
  { pose proof (YW_0 _ Hr) as H. rewrite Lr in H. replace (order + 1 - 1)%nat with order in H by lia. exact H. }
  exists (1 :: p), e. split; auto. cbn [Nat.add] in HY.
  assert (Eg : forall k, (k <= order)%nat -> get (mk (order + 1) (acorr x)) k = get (autocorr order x) k).
  { intros k Hk. rewrite gmk by lia. rewrite autocorr_get by auto. reflexivity. }
  assert (HYW : yule_walker (autocorr order x) (1 :: p) e) by (apply YW_spec; auto; rewrite Lr; now replace (order + 1 - 1)%nat with order by lia).
  assert (Ex : mk (order + 1) (acorr x) = autocorr order x).
  { apply (get_ext (HA := CRing_R)). now rewrite mk_length, Lr. intros k Hk. rewrite mk_length in Hk. apply Eg. lia. }
  rewrite Ex. split; auto.
  destruct HYW as [Ya [Y0 [Y1 Y2]]]. rewrite Lr in *.
  destruct (normal_energy x (1 :: p) (INR (length x) * e)) as [N1 N2]; auto.
  - intros j Hj. rewrite Ya in *. transitivity (INR (length x) * rsum (order + 1) (fun l => get (1 :: p) l * get (autocorr order x) (dist j l))).
    + rewrite <- rsum_scal. apply rsum_ext. intros l Hl. rewrite autocorr_get by (auto; unfold dist; lia). field. lra.
    + rewrite Y1 by lia. lra.
  - rewrite Ya. rewrite <- Y2. rewrite <- rsum_scal. apply rsum_ext. intros l Hl. rewrite autocorr_get by lia. field. lra.
  - rewrite Ya in N2. split.
    + pose proof (residual_pos (1 :: p) x i eq_refl Hi) as P. rewrite N1 in P. apply (Rmult_lt_reg_l (INR (length x))); auto. lra.
    + split; auto. intros c Lc Hc. rewrite N1. now apply N2.
Qed.
Print Assumptions C39_yule_walker_optimal.
(** Several columns: each one is modelled on its own; an order as large as the signal length is refused. *)
Theorem C39_columns :
  forall order td,
  (forall x, In x td -> (order < length x)%nat /\ exists i, get x i <> 0) ->
  exists rs, yw_cols order td = Ok rs /\ Forall2 (fun x r => yw order x = Ok r) td rs.
Proof.
  intros order td. induction td as [|x td IH]; intros H. exists []. split; [reflexivity|constructor].
  destruct (H x (or_introl eq_refl)) as [Ho Hi]. destruct (C39_yule_walker_optimal order x Ho Hi) as [a [e [E _]]].
  destruct IH as [rs [E1 F]]. intros; apply H; right; auto. exists ((a, e) :: rs). cbn [yw_cols]. rewrite (proj2 (Nat.leb_gt _ _)) by lia.
  rewrite E. cbn [bind]. rewrite E1. split; [reflexivity|]. constructor; auto.
Qed.
Print Assumptions C39_columns.
Example C39_signal_example : (2 < length [1; 0; -1; 5]%R)%nat /\ exists i, get [1; 0; -1; 5] i <> 0.
Proof. split. simpl; lia. exists O. unfold get. simpl. lra. Qed.

(** C43: the all-pole filters of both estimators are stable. *)
Theorem C43_levinson_stable :
  forall r a e, (1 <= length r)%nat -> 0 < get r 0 -> levinson r = Ok (a, e) -> stable a.
Proof.
  intros r a e HL H0 E. unfold levinson in E. destruct (lev_loop _ _ _) as [[p e']|] eqn:El; [|discriminate]. cbn in E. injection E as <- <-.
  eapply lev_stable; eauto.
Qed.
Print Assumptions C43_levinson_stable.
Theorem C43_yule_walker_stable :
  forall order x a e, (order < length x)%nat -> (exists i, get x i <> 0) -> yw order x = Ok (a, e) -> stable a.
Proof.
  intros order x a e Ho [i Hi] E. apply (C43_levinson_stable (autocorr order x) a e); auto. rewrite autocorr_length; lia. now apply (acorr0_pos order x i).
Qed.
Print Assumptions C43_yule_walker_stable.
(** A non-positive start is not refused: an error that is negative twice passes, and the model is unstable. *)
Theorem C43_negative_start_refuted :
  ~ (forall r a e, (2 <= length r)%nat -> get r 0 <> 0 -> levinson r = Ok (a, e) -> stable a).
Proof.
  intros H. assert (E : levinson [-1; 2] = Ok ([1; 2], 3)).
  { unfold levinson, lev_loop, lev_step. cbn [length Nat.sub seq repeat tl fold_left]. unfold get. cbn [nth].
    destruct (Rle_dec _ 0) as [C|_]; [exfalso; lra|]. cbn. f_equal. f_equal. f_equal. f_equal. field. field. }
  specialize (H [-1; 2] _ _ ltac:(simpl; lia) ltac:(unfold get; simpl; lra) E (rc (-1/2))). apply H.
  unfold cabs2. cbn. lra. unfold get. cbn. apply c_ext; cbn; field.
Qed.
Print Assumptions C43_negative_start_refuted.

(** Burg's method succeeds for every signal longer than the order, with a stable monic model and a non-negative error. *)
Theorem C43_burg_stable :
  forall order x, (order < length x)%nat ->
  exists a e, burg order x = Ok (a, e) /\ length a = (order + 1)%nat /\ get a 0 = 1 /\ stable a /\ 0 <= e.
Proof.
  intros order x Ho. pose proof (burg_init_inv (order + 1) x ltac:(lia)) as HI.
  destruct (burg_loop_total (order + 1) order 0 (burg_init (order + 1) x)) as [s E]; auto; try lia. { cbn [burg_init bg_f]. rewrite tl_length. lia. }
  pose proof (burg_loop_inv (order + 1) order 0 _ _ ltac:(lia) HI E) as (L1 & _ & A0 & _ & _ & _ & _ & HE & HS).
  exists (bg_ar s), (bg_den s). unfold burg. rewrite E. split; [reflexivity|]. split; auto. split; auto. split.
  - apply (Stab_stable _ order (get (bg_ar s))); auto.
  - pose proof (bE_nonneg (bg_f s) (bg_b s)). lra.
Qed.
Print Assumptions C43_burg_stable.
Theorem C43_burg_too_short :
  forall order x, (length x <= order)%nat -> (1 <= order)%nat -> burg order x = Err IndexError.
Proof.
  intros order x Ho H1. unfold burg.
  assert (G : forall n i s, burg_inv (order + 1) i s -> (i + n = order)%nat -> (length (bg_f s) < n)%nat -> burg_loop (seq i n) s = Err IndexError).
  { induction n; intros i s HI Hn HF. lia. cbn [seq burg_loop]. destruct (burg_step s i) as [s1|x1] eqn:E1.
    - cbn [bind]. destruct (burg_step_inv (order + 1) i s s1 ltac:(lia) HI E1) as [I1 [L1 _]]. replace (i + 1)%nat with (S i) in I1 by lia. apply IHn; auto; lia.
    - unfold burg_step in E1. destruct (Nat.eqb (length (bg_f s)) 0); [|discriminate]. now injection E1 as <-. }
  rewrite (G order O); auto. apply burg_init_inv; lia. cbn [burg_init bg_f]. rewrite tl_length. lia.
Qed.
Print Assumptions C43_burg_too_short.
(** For arrays with columns the coefficients are the same but come in length + 1 rows instead of order + 1: zeros follow. *)
Theorem C43_burg_columns_padded :
  forall order x a e, (order < length x)%nat -> burg order x = Ok (a, e) -> burg_col order x = Ok (a ++ repeat 0 (length x - order), e).
Proof.
  intros order x a e Ho E. unfold burg in E. destruct (burg_loop _ _) as [s|] eqn:El; [|discriminate]. cbn in E. injection E as <- <-.
  pose proof (burg_init_inv (order + 1) x ltac:(lia)) as HI. pose proof (burg_init_inv (length x + 1) x ltac:(lia)) as HI'.
  destruct (burg_sim_loop (order + 1) (length x + 1) order 0 (burg_init (order + 1) x) (burg_init (length x + 1) x) s) as [s' [E' (S1 & _ & _ & _ & S5)]]; auto; try lia.
  { assert (Z : forall j, get (1 :: repeat 0 (order + 1 - 1)) j = get (1 :: repeat 0 (length x + 1 - 1)) j).
    { intros [|j]; [reflexivity|]. transitivity 0; [|symmetry]; apply (get_repeat0 (HA := CRing_R)). }
    repeat split; auto. }
  pose proof (burg_loop_inv (order + 1) order 0 _ _ ltac:(lia) HI El) as (L1 & _ & _).
  pose proof (burg_loop_inv (length x + 1) order 0 _ _ ltac:(lia) HI' E') as (L1' & _ & _ & _ & AZ & _).
  unfold burg_col. rewrite E'. cbn [bind]. f_equal. f_equal; auto. apply (get_ext (HA := CRing_R)).
  - rewrite app_length, repeat_length. lia.
  - intros j Hj. rewrite <- S1. destruct (Nat.lt_ge_cases j (order + 1)).
    + now rewrite (get_app_l (HA := CRing_R)) by lia.
    + rewrite (get_app_r (HA := CRing_R)) by lia. rewrite gout by lia. symmetry. apply (get_repeat0 (HA := CRing_R)).
Qed.
Print Assumptions C43_burg_columns_padded.
Example C43_burg_example : exists a e, burg 1 [1; 0] = Ok (a, e) /\ a = [1; 0] /\ e = 0.
Proof.
  unfold burg, burg_loop, burg_step. cbn. eexists _, _. split; [reflexivity|]. unfold get, dotp, get. cbn.
  assert (burg_eps <> 0) by (pose proof burg_eps_pos; lra). split. repeat (f_equal; try (field; pose proof burg_eps_pos; lra)). field. pose proof burg_eps_pos; lra.
Qed.
