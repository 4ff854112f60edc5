(** Lemmas about the autoregressive estimators. *)
From Coq Require Import List Arith Lia Reals Lra Bool.
From Verif Require Import Alg Spec Dft P_realtime Spec_ar M_ar.
Import ListNotations.
Local Open Scope R_scope.

Lemma rsum_plus n f g : rsum n (fun i => f i + g i) = rsum n f + rsum n g. Proof. exact (sum_add (HA := CRing_R) n f g). Qed.
Lemma rsum_scal n c f : rsum n (fun i => c * f i) = c * rsum n f. Proof. exact (sum_scal_l (HA := CRing_R) n c f). Qed.
Lemma rsum_swap n m f : rsum n (fun i => rsum m (fun j => f i j)) = rsum m (fun j => rsum n (fun i => f i j)). Proof. exact (sum_exchange (HA := CRing_R) n m f). Qed.
Lemma rsum_S n f : rsum (S n) f = rsum n f + f n. Proof. reflexivity. Qed.
Lemma rsum_front n f : rsum (S n) f = f O + rsum n (fun i => f (S i)). Proof. exact (sum_S_front (HA := CRing_R) n f). Qed.
Lemma rsum_ext n f g : (forall i, (i < n)%nat -> f i = g i) -> rsum n f = rsum n g. Proof. exact (sum_ext (HA := CRing_R) n f g). Qed.
Lemma rsum_0 n f : (forall i, (i < n)%nat -> f i = 0) -> rsum n f = 0. Proof. exact (sum_zero' (HA := CRing_R) n f). Qed.
Lemma rsum_reverse n f : rsum n f = rsum n (fun i => f (n - 1 - i)%nat). Proof. exact (sum_rev (HA := CRing_R) n f). Qed.
Lemma rsum_nonneg n f : (forall i, (i < n)%nat -> 0 <= f i) -> 0 <= rsum n f.
Proof. induction n; intros H. cbn. lra. rewrite rsum_S. pose proof (IHn ltac:(auto)). pose proof (H n ltac:(lia)). lra. Qed.
Lemma rsum_le n f g : (forall i, (i < n)%nat -> f i <= g i) -> rsum n f <= rsum n g.
Proof. induction n; intros H. cbn. lra. rewrite !rsum_S. pose proof (IHn ltac:(auto)). pose proof (H n ltac:(lia)). lra. Qed.
Lemma rsum_term n f i : (i < n)%nat -> (forall j, (j < n)%nat -> 0 <= f j) -> f i <= rsum n f.
Proof.
  induction n; intros Hi H. lia. rewrite rsum_S. destruct (Nat.eq_dec i n) as [->|].
  - pose proof (rsum_nonneg n f ltac:(auto)). lra.
  - pose proof (IHn ltac:(lia) ltac:(auto)). pose proof (H n ltac:(lia)). lra.
Qed.
Lemma gout (l : list R) i : (length l <= i)%nat -> get l i = 0. Proof. apply (get_out (HA := CRing_R)). Qed.
Lemma gmk n f i : (i < n)%nat -> get (mk n f) i = (f i : R). Proof. apply (get_mk (HA := CRing_R)). Qed.
Lemma gupd (l : list R) i j v : (i < length l)%nat -> get (upd l i v) j = if (j =? i)%nat then v else get l j.
Proof. apply (get_upd (HA := CRing_R)). Qed.

(** ** Levinson *)
Lemma inner_fold k order (p : list R) t : (order < length p)%nat -> (2 * t <= order + 1)%nat ->
  fold_left (lev_inner k order) (seq 0 t) p =
  mk (length p) (fun j => if (j <? order)%nat && ((j <? t)%nat || (order - 1 - j <? t)%nat) then get p j + k * get p (order - 1 - j) else get p j).
Proof.
  intros Ho. induction t; intros Ht.
  - cbn [seq fold_left]. apply (get_ext (HA := CRing_R)). now rewrite mk_length. intros j Hj. rewrite gmk by auto.
    rewrite andb_false_r. reflexivity.
  - rewrite seq_S, fold_left_app, IHt by lia. cbn [fold_left Nat.add]. unfold lev_inner.
    set (q := mk (length p) _).
    assert (Lq : length q = length p) by apply mk_length.
    assert (G : forall j, (t <= j)%nat -> (j <= order - 1 - t)%nat -> get q j = get p j).
    { intros j H1 H2. unfold q. rewrite gmk by lia. destruct (Nat.ltb_spec j t); [lia|]. destruct (Nat.ltb_spec (order - 1 - j) t); [lia|].
      rewrite andb_false_r. reflexivity. }
    replace (order - t - 1)%nat with (order - 1 - t)%nat by lia.
    apply (get_ext (HA := CRing_R)). { destruct (t =? _)%nat; rewrite ?upd_length, ?mk_length; auto. }
    intros j Hj. assert (Hj' : (j < length p)%nat) by (destruct (t =? _)%nat; rewrite ?upd_length in Hj; lia).
    rewrite gmk by auto. rewrite (G t), (G (order - 1 - t)%nat) by lia.
    destruct (Nat.eqb_spec t (order - 1 - t)) as [E|E].
    + rewrite gupd by lia. destruct (Nat.eqb_spec j t) as [->|N].
      * rewrite (proj2 (Nat.ltb_lt t order)), (proj2 (Nat.ltb_lt t (S t))) by lia. reflexivity.
      * unfold q. rewrite gmk by auto.
        destruct (Nat.ltb_spec j order); auto. cbn [andb].
        destruct (Nat.ltb_spec j t), (Nat.ltb_spec j (S t)), (Nat.ltb_spec (order - 1 - j) t), (Nat.ltb_spec (order - 1 - j) (S t)); cbn [orb]; auto; lia.
    + rewrite gupd by (rewrite upd_length; lia). rewrite !gupd by lia.
      destruct (Nat.eqb_spec (order - 1 - t) t); [lia|].
      destruct (Nat.eqb_spec j (order - 1 - t)) as [->|N1].
      * rewrite (G (order - 1 - t)%nat) by lia. replace (order - 1 - (order - 1 - t))%nat with t by lia.
        rewrite (proj2 (Nat.ltb_lt (order - 1 - t) order)), (proj2 (Nat.ltb_lt t (S t))) by lia. rewrite orb_true_r. reflexivity.
      * destruct (Nat.eqb_spec j t) as [->|N2].
        -- rewrite (proj2 (Nat.ltb_lt t order)), (proj2 (Nat.ltb_lt t (S t))) by lia. reflexivity.
        -- unfold q. rewrite gmk by auto. destruct (Nat.ltb_spec j order); auto. cbn [andb].
           destruct (Nat.ltb_spec j t), (Nat.ltb_spec j (S t)), (Nat.ltb_spec (order - 1 - j) t), (Nat.ltb_spec (order - 1 - j) (S t)); cbn [orb]; auto; lia.
Qed.

(** Polynomial of order m stored in p. *)
Definition pl (m : nat) (p : list R) (j : nat) : R := if (j <=? m)%nat then get (1 :: p) j else 0.
Definition lev_next (k : R) (m : nat) (p : list R) : list R :=
  let p' := upd p m k in if (m =? 0)%nat then p' else fold_left (lev_inner k m) (seq 0 ((m + 1) / 2)) p'.
Lemma lev_next_length k m p : (m < length p)%nat -> length (lev_next k m p) = length p.
Proof.
  intros H. unfold lev_next. destruct (m =? 0)%nat. apply upd_length.
  rewrite inner_fold. now rewrite mk_length, upd_length. rewrite upd_length; lia.
  pose proof (Nat.div_mod_eq (m + 1) 2). lia.
Qed.
Lemma lev_next_get k m p j : (m < length p)%nat -> (j < m)%nat -> get (lev_next k m p) j = get p j + k * get p (m - 1 - j).
Proof.
  intros H Hj. unfold lev_next. destruct (Nat.eqb_spec m 0); [lia|].
  pose proof (Nat.div_mod_eq (m + 1) 2). pose proof (Nat.mod_upper_bound (m + 1) 2).
  rewrite inner_fold; try (rewrite upd_length; lia); try lia. rewrite gmk by (rewrite upd_length; lia).
  rewrite (proj2 (Nat.ltb_lt j m)) by lia. cbn [andb].
  replace (_ || _) with true. 2: { symmetry. apply orb_true_iff. rewrite !Nat.ltb_lt. lia. }
  rewrite !gupd by lia. destruct (Nat.eqb_spec j m); [lia|]. destruct (Nat.eqb_spec (m - 1 - j) m); [lia|]. reflexivity.
Qed.
Lemma lev_next_last k m p : (m < length p)%nat -> get (lev_next k m p) m = k.
Proof.
  intros H. unfold lev_next. destruct (Nat.eqb_spec m 0).
  - rewrite gupd by lia. now rewrite Nat.eqb_refl.
  - pose proof (Nat.div_mod_eq (m + 1) 2). rewrite inner_fold; try (rewrite upd_length; lia); try lia.
    rewrite gmk by (rewrite upd_length; lia). rewrite Nat.ltb_irrefl. cbn [andb]. rewrite gupd by lia. now rewrite Nat.eqb_refl.
Qed.
Lemma pl_next k m p j : (m < length p)%nat -> (j <= m + 1)%nat -> pl (m + 1) (lev_next k m p) j = pl m p j + k * pl m p (m + 1 - j).
Proof.
  intros H Hj. unfold pl. rewrite (proj2 (Nat.leb_le j (m + 1))) by lia. destruct j as [|j].
  - rewrite (proj2 (Nat.leb_le 0 m)) by lia. rewrite (proj2 (Nat.leb_gt (m + 1 - 0) m)) by lia. cbn. lra.
  - change (get (1 :: ?l) (S j)) with (get l j).
    destruct (Nat.eq_dec j m) as [->|].
    + rewrite lev_next_last by auto. rewrite (proj2 (Nat.leb_gt (S m) m)) by lia. replace (m + 1 - S m)%nat with O by lia.
      cbn. lra.
    + rewrite lev_next_get by lia. rewrite (proj2 (Nat.leb_le (S j) m)) by lia. rewrite (proj2 (Nat.leb_le (m + 1 - S j) m)) by lia.
      replace (m + 1 - S j)%nat with (S (m - 1 - j)) by lia. reflexivity.
Qed.

Definition Dm (r : list R) (P : nat -> R) (m i : nat) : R := rsum (m + 1) (fun j => P j * get r (dist i j)).
Lemma Dm_next r P P' k m i : P (m + 1)%nat = 0 -> (forall j, (j <= m + 1)%nat -> P' j = P j + k * P (m + 1 - j)%nat) -> (i <= m + 1)%nat ->
  Dm r P' (m + 1) i = Dm r P m i + k * Dm r P m (m + 1 - i).
Proof.
  intros H0 H Hi. unfold Dm. rewrite (rsum_ext _ _ (fun j => P j * get r (dist i j) + k * (P (m + 1 - j)%nat * get r (dist i j)))).
  2: { intros j Hj. rewrite H by lia. lra. }
  rewrite rsum_plus, rsum_scal. replace (m + 1 + 1)%nat with (S (m + 1)) by lia. f_equal.
  - rewrite rsum_S, H0. lra.
  - f_equal. rewrite rsum_reverse, rsum_S. replace (S (m + 1) - 1 - (m + 1))%nat with O by lia. rewrite Nat.sub_0_r, H0.
    rewrite Rmult_0_l, Rplus_0_r. apply rsum_ext. intros j Hj. replace (m + 1 - (S (m + 1) - 1 - j))%nat with j by lia. f_equal. f_equal.
    unfold dist. lia.
Qed.
Definition YW (r : list R) (m : nat) (p : list R) (e : R) : Prop :=
  length p = (length r - 1)%nat /\ (forall i, (1 <= i <= m)%nat -> Dm r (pl m p) m i = 0) /\ Dm r (pl m p) m 0 = e.
Lemma lev_v r m p : r <> [] -> (m <= length p)%nat ->
  fold_left (fun v lag => v + get p lag * get (tl r) (m - lag - 1)) (seq 0 m) (get (tl r) m) = Dm r (pl m p) m (m + 1).
Proof.
  intros Hr Hm. rewrite (fold_left_sum (HA := CRing_R) (fun lag => get p lag * get (tl r) (m - lag - 1))).
  assert (T : forall i, get (tl r) i = get r (S i)) by (intros; destruct r; [congruence|reflexivity]).
  unfold Dm. rewrite Nat.add_1_r. rewrite rsum_front. change radd with Rplus. f_equal.
  - rewrite T. unfold pl. cbn. rewrite Rmult_1_l. f_equal. lia.
  - apply rsum_ext. intros j Hj. rewrite T. unfold pl. rewrite (proj2 (Nat.leb_le (S j) m)) by lia. f_equal. f_equal. unfold dist. lia.
Qed.
Lemma YW_next r m p e : (m + 1 < length r)%nat -> e <> 0 -> YW r m p e ->
  let k := - Dm r (pl m p) m (m + 1) / e in YW r (m + 1) (lev_next k m p) (e * (1 - k * k)).
Proof.
  intros Hm He [L [H1 H2]] k.
  assert (Hk : Dm r (pl m p) m (m + 1) = - (k * e)) by (unfold k; field; auto).
  assert (Z : pl m p (m + 1)%nat = 0) by (unfold pl; now rewrite (proj2 (Nat.leb_gt (m + 1) m)) by lia).
  assert (N : forall j, (j <= m + 1)%nat -> pl (m + 1) (lev_next k m p) j = pl m p j + k * pl m p (m + 1 - j)%nat) by (intros; apply pl_next; lia).
  split; [|split].
  - rewrite lev_next_length; lia.
  - intros i Hi. rewrite (Dm_next r (pl m p) _ k) by (auto; lia). destruct (Nat.eq_dec i (m + 1)) as [->|].
    + replace (m + 1 - (m + 1))%nat with O by lia. rewrite Hk, H2. lra.
    + rewrite !H1 by lia. lra.
  - rewrite (Dm_next r (pl m p) _ k) by (auto; lia). rewrite Nat.sub_0_r, Hk, H2. lra.
Qed.
Lemma lev_step_eq r m p e : r <> [] -> (m <= length p)%nat ->
  let k := - Dm r (pl m p) m (m + 1) / e in
  lev_step (tl r) (p, e) m = if Rle_dec (e * (1 - k * k)) 0 then Err ValueError else Ok (lev_next k m p, e * (1 - k * k)).
Proof. intros Hr Hm k. unfold lev_step. rewrite lev_v by auto. reflexivity. Qed.
(** An invariant carried along a successful run. *)
Lemma lev_loop_inv r (Inv : nat -> list R -> R -> Prop) :
  (forall m p e, (m + 1 < length r)%nat -> length p = (length r - 1)%nat -> e <> 0 -> Inv m p e ->
     let k := - Dm r (pl m p) m (m + 1) / e in 0 < e * (1 - k * k) -> Inv (m + 1)%nat (lev_next k m p) (e * (1 - k * k))) ->
  forall n m p e p' e', (m + n + 1 = length r)%nat -> length p = (length r - 1)%nat -> e <> 0 -> Inv m p e ->
  lev_loop (tl r) (seq m n) (p, e) = Ok (p', e') -> Inv (m + n)%nat p' e' /\ e' <> 0 /\ (n <> O -> 0 < e') /\ length p' = (length r - 1)%nat.
Proof.
  intros Hstep. induction n; intros m p e p' e' HL Lp He HI E.
  - injection E as <- <-. rewrite Nat.add_0_r. split; auto. split; auto. split; auto. congruence.
  - cbn [seq lev_loop] in E. assert (Hr : r <> []) by (intros ->; simpl in HL; lia). rewrite lev_step_eq in E by (auto; lia).
    set (k := - Dm r (pl m p) m (m + 1) / e) in *. destruct (Rle_dec (e * (1 - k * k)) 0) as [|N]; [discriminate|]. cbn [bind] in E.
    apply Rnot_le_lt in N. destruct (IHn (S m) (lev_next k m p) (e * (1 - k * k)) p' e') as [I1 [I2 [I3 I4]]]; auto; try lia; try lra.
    + rewrite lev_next_length; lia.
    + replace (S m) with (m + 1)%nat by lia. apply Hstep; auto; lia.
    + replace (m + S n)%nat with (S m + n)%nat by lia. split; auto. split; auto. split; auto. intros _. destruct n; [|auto].
      cbn in E. injection E as <- <-. exact N.
Qed.
Lemma YW_0 r : r <> [] -> YW r 0 (repeat 0 (length r - 1)) (get r 0).
Proof. intros H. split; [now rewrite repeat_length|]. split; [intros; lia|]. unfold Dm, pl. cbn. lra. Qed.
Lemma YW_spec r p e : r <> [] -> YW r (length r - 1) p e -> yule_walker r (1 :: p) e.
Proof.
  intros Hr [L [H1 H2]]. destruct r as [|r0 r]; [congruence|]. cbn [length] in *. replace (S (length r) - 1)%nat with (length r) in * by lia.
  assert (E : forall i, Dm (r0 :: r) (pl (length r) p) (length r) i = rsum (S (length r)) (fun j => get (1 :: p) j * get (r0 :: r) (dist i j))).
  { intros i. unfold Dm. rewrite Nat.add_1_r. apply rsum_ext. intros j Hj. unfold pl. now rewrite (proj2 (Nat.leb_le j _)) by lia. }
  split; [cbn; lia|]. split; [reflexivity|]. split.
  - intros m Hm. cbn [length] in *. rewrite <- E. apply H1. lia.
  - cbn [length]. rewrite <- H2, E. apply rsum_ext. intros j Hj. f_equal. f_equal. unfold dist. lia.
Qed.

(** ** Energies *)
Definition xs (x : list R) (n i : nat) : R := if (i <=? n)%nat then get x (n - i) else 0.
Definition AC (x : list R) (k : nat) : R := rsum (length x) (fun n => get x n * get x (n + k)).
Lemma conv_xs (c x : list R) n M : (length c <= M)%nat -> conv c x n = rsum M (fun i => get c i * xs x n i).
Proof.
  intros HM. assert (E : forall K, (length c <= K \/ n < K)%nat -> forall d, rsum (K + d) (fun i => get c i * xs x n i) = rsum K (fun i => get c i * xs x n i)).
  { intros K HK d. apply (sum_trunc (HA := CRing_R)); [lia|]. intros i Hi. destruct HK. rewrite gout by lia. cbn. lra.
    unfold xs. rewrite (proj2 (Nat.leb_gt i n)) by lia. cbn. lra. }
  transitivity (rsum (S n) (fun i => get c i * xs x n i)).
  - apply rsum_ext. intros i Hi. unfold xs. now rewrite (proj2 (Nat.leb_le i n)) by lia.
  - rewrite <- (E (S n) ltac:(lia) M). rewrite <- (E M ltac:(lia) (S n)). f_equal. lia.
Qed.
Lemma xs_corr x i j M : (i <= j)%nat -> (j < M)%nat -> rsum (length x + M) (fun n => xs x n i * xs x n j) = AC x (j - i).
Proof.
  intros Hij HM. unfold AC.
  transitivity (rsum (length x + M - j) (fun m => get x m * get x (m + (j - i)))).
  - transitivity (rsum (length x + M - j) (fun m => xs x (j + m) i * xs x (j + m) j)).
    + rewrite (sum_drop (HA := CRing_R) j (length x + M)); [reflexivity|lia|]. intros n Hn. unfold xs at 2. rewrite (proj2 (Nat.leb_gt j n)) by lia. cbn. lra.
    + apply rsum_ext. intros m Hm. unfold xs. rewrite !(proj2 (Nat.leb_le _ _)) by lia.
      replace (j + m - i)%nat with (m + (j - i))%nat by lia. replace (j + m - j)%nat with m by lia. lra.
  - replace (length x + M - j)%nat with (length x + (M - j))%nat by lia. apply (sum_trunc (HA := CRing_R)). lia. intros n Hn. rewrite (gout x n) by lia. cbn. lra.
Qed.
Lemma xs_corr_any x i j M : (i < M)%nat -> (j < M)%nat -> rsum (length x + M) (fun n => xs x n i * xs x n j) = AC x (dist i j).
Proof.
  intros Hi Hj. destruct (Nat.le_ge_cases i j).
  - rewrite xs_corr by lia. f_equal. unfold dist. lia.
  - rewrite (rsum_ext _ _ (fun n => xs x n j * xs x n i)) by (intros; lra). rewrite xs_corr by lia. f_equal. unfold dist. lia.
Qed.
Definition QF (x : list R) (M : nat) (c d : nat -> R) : R := rsum M (fun i => c i * rsum M (fun j => d j * AC x (dist i j))).
Lemma residual_QF c x : residual c x = QF x (length c) (get c) (get c).
Proof.
  unfold residual, QF. set (M := length c).
  transitivity (rsum (length x + M) (fun n => rsum M (fun i => rsum M (fun j => get c i * (get c j * (xs x n i * xs x n j)))))).
  - apply rsum_ext. intros n Hn. rewrite (conv_xs c x n M) by (unfold M; lia).
    rewrite <- rsum_scal. apply rsum_ext. intros i Hi. rewrite Rmult_comm, <- rsum_scal. apply rsum_ext. intros j Hj. lra.
  - rewrite rsum_swap. apply rsum_ext. intros i Hi. rewrite <- rsum_scal, rsum_swap. apply rsum_ext. intros j Hj.
    rewrite !rsum_scal. rewrite xs_corr_any by auto. reflexivity.
Qed.
Lemma QF_sym x M c d : QF x M c d = QF x M d c.
Proof.
  unfold QF. transitivity (rsum M (fun i => rsum M (fun j => c i * (d j * AC x (dist i j))))).
  - apply rsum_ext. intros. now rewrite rsum_scal.
  - rewrite rsum_swap. apply rsum_ext. intros i Hi. rewrite <- rsum_scal. apply rsum_ext. intros j Hj. replace (dist i j) with (dist j i) by (unfold dist; lia). lra.
Qed.
Lemma QF_plus x M c d d' : QF x M c (fun j => d j + d' j) = QF x M c d + QF x M c d'.
Proof.
  unfold QF. rewrite <- rsum_plus. apply rsum_ext. intros i Hi. rewrite <- Rmult_plus_distr_l. f_equal. rewrite <- rsum_plus.
  apply rsum_ext. intros; lra.
Qed.
Lemma QF_ext x M c c' d d' : (forall i, (i < M)%nat -> c i = c' i) -> (forall i, (i < M)%nat -> d i = d' i) -> QF x M c d = QF x M c' d'.
Proof. intros H H'. unfold QF. apply rsum_ext. intros i Hi. rewrite H by auto. f_equal. apply rsum_ext. intros j Hj. now rewrite H'. Qed.
Lemma residual_nonneg c x : 0 <= residual c x.
Proof. apply rsum_nonneg. intros. apply Rle_0_sqr. Qed.
Lemma first_nonzero (x : list R) i : get x i <> 0 -> exists i0, get x i0 <> 0 /\ (i0 <= i)%nat /\ forall j, (j < i0)%nat -> get x j = 0.
Proof.
  induction i as [i IH] using lt_wf_ind. intros Hi.
  destruct (Forall_Exists_dec (fun j => get x j = 0) (fun j => Req_EM_T (get x j) 0) (seq 0 i)) as [F|F].
  - exists i. split; auto. split; auto. intros j Hj. rewrite Forall_forall in F. apply F. apply in_seq. lia.
  - apply Exists_exists in F. destruct F as [j [Hj Nj]]. apply in_seq in Hj. destruct (IH j ltac:(lia) Nj) as [i0 [A [B C0]]].
    exists i0. split; auto. split; auto. lia.
Qed.
Lemma residual_pos c x i : get c 0 = 1 -> get x i <> 0 -> 0 < residual c x.
Proof.
  intros Hc Hi. destruct (first_nonzero x i Hi) as [n [Hn [_ Hz]]].
  assert (Ln : (n < length x)%nat). { destruct (Nat.lt_ge_cases n (length x)); auto. exfalso. apply Hn. now apply gout. }
  assert (Hv : conv c x n = get x n).
  { unfold conv. rewrite rsum_front. rewrite Nat.sub_0_r, Hc. rewrite rsum_0. change rmul with Rmult. lra.
    intros j Hj. rewrite Hz by lia. cbn. lra. }
  apply Rlt_le_trans with (conv c x n * conv c x n).
  - rewrite Hv. apply Rsqr_pos_lt. auto.
  - unfold residual. apply (rsum_term _ (fun n => conv c x n * conv c x n)). lia. intros. apply Rle_0_sqr.
Qed.
(** A predictor whose normal equations hold: its energy, and minimality. *)
Lemma normal_energy x (a : list R) E : get a 0 = 1 ->
  (forall i, (1 <= i < length a)%nat -> rsum (length a) (fun j => get a j * AC x (dist i j)) = 0) ->
  rsum (length a) (fun j => get a j * AC x j) = E ->
  residual a x = E /\ forall c, length c = length a -> get c 0 = 1 -> E <= residual c x.
Proof.
  intros H0 H1 HE.
  assert (La : (0 < length a)%nat). { destruct a; [|simpl; lia]. unfold get in H0. cbn in H0. lra. }
  assert (V : forall c, get c 0 = 1 -> length c = length a -> QF x (length a) (get c) (get a) = E).
  { intros c Hc Lc. unfold QF. destruct (length a) as [|M] eqn:EM; [lia|]. rewrite rsum_front.
    rewrite (rsum_ext _ (fun j => get a j * AC x (dist 0 j)) (fun j => get a j * AC x j)) by (intros; do 2 f_equal; unfold dist; lia).
    rewrite Hc, HE. rewrite rsum_0. lra. intros i Hi. rewrite H1 by lia. lra. }
  split. rewrite residual_QF. apply V; auto.
  intros c Lc Hc. rewrite residual_QF. rewrite Lc.
  set (d := mk (length a) (fun i => get c i - get a i)).
  assert (Ed : forall i, (i < length a)%nat -> get c i = get a i + get d i) by (intros; unfold d; rewrite gmk by auto; lra).
  assert (Ld : length d = length a) by apply mk_length.
  rewrite (QF_ext x _ (get c) (get c) (get c) (fun j => get a j + get d j)); auto. rewrite QF_plus, V by auto.
  rewrite QF_sym. rewrite (QF_ext x _ (get d) (get d) (get c) (fun j => get a j + get d j)); auto. rewrite QF_plus.
  assert (Z : QF x (length a) (get d) (get a) = 0).
  { unfold QF. apply rsum_0. intros i Hi. destruct i as [|i].
    - unfold d. rewrite gmk by auto. rewrite Hc, H0. lra.
    - rewrite H1 by lia. lra. }
  rewrite Z. pose proof (residual_nonneg d x) as P. rewrite residual_QF, Ld in P. lra.
Qed.
