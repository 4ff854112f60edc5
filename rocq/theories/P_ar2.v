(** Yule-Walker on a signal, stability of the models, Burg's method. *)
From Coq Require Import List Arith Lia Reals Lra Bool.
From Verif Require Import Alg Spec Dft P_realtime Spec_ar M_ar P_ar.
Import ListNotations.
Local Open Scope R_scope.

(** ** Yule-Walker on a signal *)
Lemma autocorr_length order x : (order < length x)%nat -> length (autocorr order x) = (order + 1)%nat.
Proof. intros. unfold autocorr. rewrite mk_length. lia. Qed.
Lemma autocorr_get order x k : (order < length x)%nat -> (k <= order)%nat -> get (autocorr order x) k = AC x k / INR (length x).
Proof.
  intros H Hk. unfold autocorr. rewrite gmk by lia. f_equal. unfold AC.
  transitivity (rsum (length x - k) (fun n => get x n * get x (n + k))). apply rsum_ext; intros; lra.
  symmetry. apply (sum_trunc (HA := CRing_R)). lia. intros n Hn. rewrite (gout x (n + k)) by lia. cbn. lra.
Qed.
Lemma L_pos (x : list R) i : get x i <> 0 -> 0 < INR (length x).
Proof. intros H. apply lt_0_INR. destruct (Nat.lt_ge_cases i (length x)). lia. exfalso. apply H. now apply gout. Qed.

Lemma YW_energy order x m p e : (order < length x)%nat -> (m <= order)%nat -> 0 < INR (length x) -> YW (autocorr order x) m p e ->
  residual (mk (m + 1) (pl m p)) x = INR (length x) * e.
Proof.
  intros Ho Hm HL [Lp [H1 H2]]. set (a := mk (m + 1) (pl m p)).
  assert (La : length a = (m + 1)%nat) by apply mk_length.
  assert (D : forall i, (i <= m)%nat -> rsum (length a) (fun j => get a j * AC x (dist i j)) = INR (length x) * Dm (autocorr order x) (pl m p) m i).
  { intros i Hi. unfold Dm. rewrite La, <- rsum_scal. apply rsum_ext. intros j Hj. unfold a. rewrite gmk by lia.
    rewrite autocorr_get by (auto; unfold dist; lia). field. lra. }
  destruct (normal_energy x a (INR (length x) * e)) as [N _]; auto.
  - unfold a. rewrite gmk by lia. reflexivity.
  - intros i Hi. rewrite D by lia. rewrite H1 by lia. lra.
  - rewrite <- H2. rewrite <- D by lia. apply rsum_ext. intros j Hj. do 2 f_equal. unfold dist. lia.
Qed.
Lemma yw_loop_total order x i : (order < length x)%nat -> get x i <> 0 ->
  forall n m p e, (m + n = order)%nat -> YW (autocorr order x) m p e -> 0 < e ->
  exists p' e', lev_loop (tl (autocorr order x)) (seq m n) (p, e) = Ok (p', e').
Proof.
  intros Ho Hi. pose proof (autocorr_length order x Ho) as Lr. pose proof (L_pos x i Hi) as HL.
  induction n; intros m p e HL' HY He.
  - eexists _, _. reflexivity.
  - cbn [seq lev_loop]. rewrite lev_step_eq. 2: intros C; rewrite C in Lr; simpl in Lr; lia. 2: destruct HY; lia.
    set (k := - Dm (autocorr order x) (pl m p) m (m + 1) / e).
    pose proof (YW_next (autocorr order x) m p e ltac:(lia) ltac:(lra) HY) as HY'. fold k in HY'. cbv zeta in HY'.
    pose proof (YW_energy order x (m + 1) _ _ Ho ltac:(lia) HL HY') as E.
    assert (P : 0 < residual (mk (m + 1 + 1) (pl (m + 1) (lev_next k m p))) x). { apply (residual_pos _ x i); auto. rewrite gmk by lia. reflexivity. }
    rewrite E in P. assert (P' : 0 < e * (1 - k * k)). { apply (Rmult_lt_reg_l (INR (length x))); auto. lra. }
    destruct (Rle_dec (e * (1 - k * k)) 0); [lra|]. cbn [bind]. replace (m + 1)%nat with (S m) in HY' by lia. apply (IHn (S m)); auto. lia.
Qed.
Lemma acorr0_pos order x i : (order < length x)%nat -> get x i <> 0 -> 0 < get (autocorr order x) 0.
Proof.
  intros Ho Hi. rewrite autocorr_get by lia. pose proof (L_pos x i Hi). apply Rdiv_lt_0_compat; auto.
  pose proof (residual_pos [1] x i eq_refl Hi) as P. rewrite residual_QF in P. unfold QF in P. cbn in P.
  replace (dist 0 0) with O in P by reflexivity. lra.
Qed.
Lemma yw_total order x i : (order < length x)%nat -> get x i <> 0 -> exists p e, yw order x = Ok (1 :: p, e) /\
  lev_loop (tl (autocorr order x)) (seq 0 order) (repeat 0 order, get (autocorr order x) 0) = Ok (p, e).
Proof.
  intros Ho Hi. pose proof (autocorr_length order x Ho) as Lr.
  assert (Hr : autocorr order x <> []) by (intros C; rewrite C in Lr; simpl in Lr; lia).
  destruct (yw_loop_total order x i Ho Hi order 0 (repeat 0 order) (get (autocorr order x) 0)) as [p [e E]]; auto.
  - pose proof (YW_0 _ Hr) as H. rewrite Lr in H. replace (order + 1 - 1)%nat with order in H by lia. exact H.
  - now apply (acorr0_pos order x i).
  - exists p, e. split; auto. unfold yw, levinson. rewrite Lr. replace (order + 1 - 1)%nat with order by lia. rewrite E. reflexivity.
Qed.

(** ** Stability *)
Definition pA (P : nat -> R) (m : nat) (w : C) : C := csum (m + 1) (fun j => cmul (rc (P j)) (rpow w j)).
Definition pB (P : nat -> R) (m : nat) (w : C) : C := csum (m + 1) (fun j => cmul (rc (P (m - j)%nat)) (rpow w j)).
Definition Stab (m : nat) (P : nat -> R) : Prop :=
  forall w, cabs2 w <= 1 -> cabs2 (pB P m w) <= cabs2 (pA P m w) /\ pA P m w <> rc 0.
Lemma csum_ext n f g : (forall i, (i < n)%nat -> f i = g i) -> csum n f = csum n g. Proof. exact (sum_ext (HA := CRing_C) n f g). Qed.
Lemma csum_S n f : csum (S n) f = cadd (csum n f) (f n). Proof. reflexivity. Qed.
Lemma csum_front n f : csum (S n) f = cadd (f O) (csum n (fun i => f (S i))). Proof. exact (sum_S_front (HA := CRing_C) n f). Qed.
Lemma csum_scal n c f : csum n (fun i => cmul c (f i)) = cmul c (csum n f). Proof. exact (sum_scal_l (HA := CRing_C) n c f). Qed.
Lemma csum_plus n f g : csum n (fun i => cadd (f i) (g i)) = cadd (csum n f) (csum n g). Proof. exact (sum_add (HA := CRing_C) n f g). Qed.

Lemma pA_next P P' k m w : P (m + 1)%nat = 0 -> (forall j, (j <= m + 1)%nat -> P' j = P j + k * P (m + 1 - j)%nat) ->
  pA P' (m + 1) w = cadd (pA P m w) (cmul (rc k) (cmul w (pB P m w))) /\
  pB P' (m + 1) w = cadd (cmul w (pB P m w)) (cmul (rc k) (pA P m w)).
Proof.
  intros H0 H. unfold pA, pB.
  assert (E1 : csum (m + 1 + 1) (fun j => cmul (rc (P j)) (rpow w j)) = csum (m + 1) (fun j => cmul (rc (P j)) (rpow w j))).
  { replace (m + 1 + 1)%nat with (S (m + 1)) by lia. rewrite csum_S, H0. apply c_ext; cbn [fst snd cadd cmul rc]; ring. }
  assert (E2 : csum (m + 1 + 1) (fun j => cmul (rc (P (m + 1 - j)%nat)) (rpow w j)) = cmul w (csum (m + 1) (fun j => cmul (rc (P (m - j)%nat)) (rpow w j)))).
  { replace (m + 1 + 1)%nat with (S (m + 1)) by lia. rewrite csum_front, Nat.sub_0_r, H0, <- csum_scal.
    transitivity (csum (m + 1) (fun i => cmul (rc (P (m + 1 - S i)%nat)) (rpow w (S i)))). apply c_ext; cbn [fst snd cadd cmul rc]; ring.
    apply csum_ext. intros j Hj. replace (m + 1 - S j)%nat with (m - j)%nat by lia. cbn [rpow]. change rmul with cmul. apply c_ext; cbn [fst snd cmul rc]; ring. }
  rewrite <- E1, <- E2, <- !csum_scal, <- !csum_plus. split; apply csum_ext; intros j Hj.
  - rewrite H by lia. apply c_ext; cbn [fst snd cadd cmul rc]; ring.
  - rewrite H by lia. replace (m + 1 - (m + 1 - j))%nat with j by lia. apply c_ext; cbn [fst snd cadd cmul rc]; ring.
Qed.
Lemma cabs2_nonneg x : 0 <= cabs2 x.
Proof. unfold cabs2. pose proof (Rle_0_sqr (fst x)). pose proof (Rle_0_sqr (snd x)). unfold Rsqr in *. lra. Qed.
Lemma cabs2_mul x y : cabs2 (cmul x y) = cabs2 x * cabs2 y.
Proof. unfold cabs2, cmul. cbn. ring. Qed.
Lemma Stab_next P P' k m : k * k < 1 -> P (m + 1)%nat = 0 -> (forall j, (j <= m + 1)%nat -> P' j = P j + k * P (m + 1 - j)%nat) ->
  Stab m P -> Stab (m + 1) P'.
Proof.
  intros Hk H0 H HS w Hw. destruct (HS w Hw) as [H1 H2]. destruct (pA_next P P' k m w H0 H) as [E1 E2]. rewrite E1, E2.
  set (X := pA P m w) in *. set (Y := pB P m w) in *. clearbody X Y. clear E1 E2.
  assert (HY : cabs2 (cmul w Y) <= cabs2 X).
  { rewrite cabs2_mul. pose proof (cabs2_nonneg Y). nra. }
  set (Z := cmul w Y) in *. clearbody Z.
  assert (PX : 0 < cabs2 X).
  { destruct (cabs2_nonneg X) as [|E]; auto. exfalso. apply H2. apply c_norm_zero. auto. }
  split.
  - assert (E : cabs2 (cadd X (cmul (rc k) Z)) - cabs2 (cadd Z (cmul (rc k) X)) = (1 - k * k) * (cabs2 X - cabs2 Z)).
    { unfold cabs2, cadd, cmul, rc. cbn. ring. }
    assert (0 <= (1 - k * k) * (cabs2 X - cabs2 Z)) by (apply Rmult_le_pos; lra). lra.
  - intros C. assert (E : cabs2 X = k * k * cabs2 Z).
    { assert (X = cmul (rc (- k)) Z) as ->. { transitivity (cadd (cadd X (cmul (rc k) Z)) (cmul (rc (- k)) Z)). apply c_ext; cbn; ring. rewrite C. apply c_ext; cbn; ring. }
      unfold cabs2, cmul, rc. cbn. ring. }
    pose proof (cabs2_nonneg Z). pose proof (Rle_0_sqr k). unfold Rsqr in *. nra.
Qed.
Lemma Stab_0 P : P O = 1 -> Stab 0 P.
Proof.
  intros H w Hw. unfold pA, pB. cbn [Nat.add]. rewrite !csum_S. cbn [Nat.sub]. rewrite H. split. apply Rle_refl. intros E. apply (f_equal fst) in E. cbn in E. lra.
Qed.
Lemma Stab_stable a m P : length a = (m + 1)%nat -> (forall j, (j <= m)%nat -> get a j = P j) -> Stab m P -> stable a.
Proof.
  intros L H HS w Hw. destruct (HS w Hw) as [_ N]. intros C. apply N. rewrite <- C, L. unfold pA. apply csum_ext. intros j Hj. rewrite H by lia. reflexivity.
Qed.
Lemma lev_stable r p e : (1 <= length r)%nat -> 0 < get r 0 -> lev_loop (tl r) (seq 0 (length r - 1)) (repeat 0 (length r - 1), get r 0) = Ok (p, e) ->
  stable (1 :: p).
Proof.
  intros HL H0 E.
  destruct (lev_loop_inv r (fun m p e => 0 < e /\ Stab m (pl m p))) with (n := (length r - 1)%nat) (m := O) (p := repeat 0 (length r - 1)) (e := get r 0) (p' := p) (e' := e)
    as [[_ HS] [_ [_ Lp]]]; auto; try lia; try lra.
  - intros m p0 e0 Hm Lp He [Hp HS] k Hk. split; auto. apply (Stab_next (pl m p0) _ k); auto.
    + destruct (Rlt_le_dec (k * k) 1); auto. nra.
    + unfold pl. now rewrite (proj2 (Nat.leb_gt (m + 1) m)) by lia.
    + intros j Hj. apply pl_next; lia.
  - now rewrite repeat_length.
  - split; auto. apply Stab_0. reflexivity.
  - apply (Stab_stable _ (length r - 1) (pl (length r - 1) p)); auto. cbn. lia. intros j Hj. unfold pl. now rewrite (proj2 (Nat.leb_le j _)) by lia.
Qed.

(** ** Burg *)
Definition bE (f b : list R) : R := rsum (length f) (fun n => get f n * get f n + get b n * get b n).
Lemma get_tl (l : list R) n : get (tl l) n = get l (S n).
Proof. destruct l; [|reflexivity]. now rewrite !gout by (simpl; lia). Qed.
Lemma get_removelast (l : list R) n : (n < length l - 1)%nat -> get (removelast l) n = get l n.
Proof.
  intros H. destruct l as [|v l]; [simpl in H; lia|]. destruct (exists_last (l := v :: l)) as [u [z E]]; [discriminate|]. rewrite E in *.
  rewrite removelast_last. rewrite app_length in H. simpl in H. now rewrite (get_app_l (HA := CRing_R)) by lia.
Qed.
Lemma removelast_length (l : list R) : length (removelast l) = (length l - 1)%nat.
Proof.
  destruct l as [|v l]; auto. destruct (exists_last (l := v :: l)) as [u [z E]]; [discriminate|]. rewrite E. rewrite removelast_last, app_length. simpl. lia.
Qed.
Lemma tl_length (l : list R) : length (tl l) = (length l - 1)%nat. Proof. destruct l; simpl; lia. Qed.
Lemma bE_trim f b : length f = length b -> f <> [] -> bE (tl f) (removelast b) = bE f b - get f 0 * get f 0 - get b (length b - 1) * get b (length b - 1).
Proof.
  intros L Hf. unfold bE. rewrite tl_length, <- L. destruct (length f) as [|n] eqn:E. destruct f; [congruence|discriminate].
  replace (S n - 1)%nat with n by lia. rewrite !rsum_plus.
  rewrite (rsum_front n (fun i => get f i * get f i)). rewrite (rsum_S n (fun i => get b i * get b i)).
  rewrite (rsum_ext n (fun i => get (tl f) i * get (tl f) i) (fun i => get f (S i) * get f (S i))) by (intros; now rewrite get_tl).
  rewrite (rsum_ext n (fun i => get (removelast b) i * get (removelast b) i) (fun i => get b i * get b i)) by (intros; rewrite get_removelast by lia; auto). lra.
Qed.
Definition bpl (i : nat) (a : list R) (j : nat) : R := if (j <=? i)%nat then get a j else 0.
Definition burg_ar_next (k : R) (i : nat) (prev old : list R) : list R :=
  fold_left (fun ar j => upd ar j (get prev j + k * get prev (i + 1 - j))) (seq 1 (i + 1)) old.
Lemma burg_ar_fold k i prev n : forall old, (n < length old)%nat ->
  let r := fold_left (fun ar j => upd ar j (get prev j + k * get prev (i + 1 - j))) (seq 1 n) old in
  length r = length old /\ forall j, get r j = if (1 <=? j)%nat && (j <=? n)%nat then get prev j + k * get prev (i + 1 - j) else get old j.
Proof.
  induction n; intros old H.
  - split; [reflexivity|]. intros j. cbn [seq fold_left]. destruct (Nat.leb_spec 1 j), (Nat.leb_spec j 0); auto; lia.
  - rewrite seq_S, fold_left_app. cbn [fold_left Nat.add]. destruct (IHn old ltac:(lia)) as [L G]. cbv zeta in *. split. now rewrite upd_length.
    intros j. rewrite gupd by lia. rewrite G. destruct (Nat.eqb_spec j (S n)) as [->|].
    + cbn [andb Nat.leb]. rewrite Nat.leb_refl. reflexivity.
    + destruct (Nat.leb_spec 1 j), (Nat.leb_spec j n), (Nat.leb_spec j (S n)); auto; lia.
Qed.
Definition burg_inv (rows i : nat) (s : burg_state) : Prop :=
  length (bg_ar s) = rows /\ length (bg_prev s) = rows /\ get (bg_ar s) 0 = 1 /\ get (bg_prev s) 0 = 1 /\
  (forall j, (i < j)%nat -> get (bg_ar s) j = 0) /\ (forall j, (i < j)%nat -> get (bg_prev s) j = 0) /\
  length (bg_f s) = length (bg_b s) /\ bE (bg_f s) (bg_b s) <= bg_den s /\ Stab i (get (bg_ar s)).
Lemma burg_eps_pos : 0 < burg_eps. Proof. unfold burg_eps. apply Rinv_0_lt_compat. lra. Qed.
Lemma dot_bound f b : length f = length b -> 2 * dotp b f <= bE f b /\ - bE f b <= 2 * dotp b f.
Proof.
  intros L. unfold dotp, bE. rewrite <- L. rewrite <- !rsum_scal. split.
  - apply rsum_le. intros i Hi. pose proof (Rle_0_sqr (get f i - get b i)). unfold Rsqr in *. lra.
  - replace (- rsum (length f) (fun n => get f n * get f n + get b n * get b n)) with ((-1) * rsum (length f) (fun n => get f n * get f n + get b n * get b n)) by lra.
    rewrite <- rsum_scal. apply rsum_le. intros i Hi. pose proof (Rle_0_sqr (get f i + get b i)). unfold Rsqr in *. lra.
Qed.
Lemma bE_nonneg f b : 0 <= bE f b.
Proof. apply rsum_nonneg. intros. pose proof (Rle_0_sqr (get f i)). pose proof (Rle_0_sqr (get b i)). unfold Rsqr in *. lra. Qed.
Lemma burg_step_inv rows i s s' : (i + 1 < rows)%nat -> burg_inv rows i s -> burg_step s i = Ok s' ->
  burg_inv rows (i + 1) s' /\ length (bg_f s) = S (length (bg_f s')) /\
  exists k, k * k < 1 /\ forall j, get (bg_ar s') j = if (j <=? i + 1)%nat then get (bg_ar s) j + k * get (bg_ar s) (i + 1 - j) else 0.
Proof.
  intros Hr (L1 & L2 & A0 & P0 & AZ & PZ & LF & HE & HS) E. unfold burg_step in E.
  destruct (Nat.eqb_spec (length (bg_f s)) 0) as [|NF]; [discriminate|].
  set (k := (-2 * dotp (bg_b s) (bg_f s)) / (bg_den s + burg_eps)) in *.
  set (f := mk (length (bg_f s)) _) in *. set (b := mk (length (bg_b s)) _) in *.
  pose proof burg_eps_pos as Pe. destruct (dot_bound (bg_f s) (bg_b s) LF) as [D1 D2]. pose proof (bE_nonneg (bg_f s) (bg_b s)) as PE.
  assert (Pd : 0 < bg_den s + burg_eps) by lra.
  assert (Ek : k * (bg_den s + burg_eps) = -2 * dotp (bg_b s) (bg_f s)) by (unfold k; field; lra).
  assert (Hk : -1 < k < 1). { split; apply (Rmult_lt_reg_r (bg_den s + burg_eps)); auto; lra. }
  assert (Hk2 : k * k < 1) by nra.
  assert (Ef : bE f b = (1 + k * k) * bE (bg_f s) (bg_b s) + 4 * k * dotp (bg_b s) (bg_f s)).
  { unfold bE, dotp. unfold f at 1. rewrite mk_length. rewrite <- LF. rewrite <- rsum_scal, <- (rsum_scal _ (4 * k)), <- rsum_plus. apply rsum_ext.
    intros n Hn. unfold f, b. rewrite !gmk by lia. ring. }
  assert (Lf : length f = length b) by (unfold f, b; now rewrite !mk_length).
  assert (Nf : f <> []) by (intros C; apply (f_equal (@length R)) in C; unfold f in C; rewrite mk_length in C; simpl in C; lia).
  destruct (burg_ar_fold k i (bg_ar s) (i + 1) (bg_prev s) ltac:(lia)) as [La Ga]. cbv zeta in La, Ga.
  set (ar := fold_left _ _ _) in *.
  assert (Ga' : forall j, get ar j = if (j <=? i + 1)%nat then get (bg_ar s) j + k * get (bg_ar s) (i + 1 - j) else 0).
  { intros j. rewrite Ga. destruct (Nat.leb_spec 1 j), (Nat.leb_spec j (i + 1)); cbn [andb]; auto; try lia.
    - apply PZ. lia.
    - assert (j = O) as -> by lia. rewrite A0, P0. rewrite (AZ (i + 1 - 0)%nat) by lia. lra. }
  assert (Lf1 : length f = length (bg_f s)) by (unfold f; apply mk_length). clearbody ar f b k.
  injection E as <-. cbn [bg_ar bg_prev bg_f bg_b bg_den].
  assert (AZ1 : get (bg_ar s) (i + 1) = 0) by (apply AZ; lia).
  split; [|split; [rewrite tl_length; lia|eauto]]. unfold burg_inv. cbn [bg_ar bg_prev bg_f bg_b bg_den].
  split; [lia|]. split; [auto|]. split; [rewrite Ga'; cbn [Nat.leb]; rewrite Nat.sub_0_r, A0, AZ1; lra|]. split; [auto|].
  split; [intros j Hj; rewrite Ga', (proj2 (Nat.leb_gt j (i + 1))) by lia; auto|]. split; [intros j Hj; apply AZ; lia|].
  split; [rewrite tl_length, removelast_length; lia|]. split.
  - rewrite bE_trim by auto. rewrite Ef. 
    assert (X : (1 - k * k) * bg_den s - ((1 + k * k) * bE (bg_f s) (bg_b s) + 4 * k * dotp (bg_b s) (bg_f s)) = (1 + k * k) * (bg_den s - bE (bg_f s) (bg_b s)) + 2 * (k * k) * burg_eps).
    { replace (4 * k * dotp (bg_b s) (bg_f s)) with (-2 * k * (k * (bg_den s + burg_eps))) by (rewrite Ek; ring). ring. }
    assert (0 <= (1 + k * k) * (bg_den s - bE (bg_f s) (bg_b s))) by (apply Rmult_le_pos; nra).
    assert (0 <= 2 * (k * k) * burg_eps) by (apply Rmult_le_pos; nra). lra.
  - apply (Stab_next (get (bg_ar s)) _ k); auto. intros j Hj. rewrite Ga', (proj2 (Nat.leb_le j (i + 1))) by lia. reflexivity.
Qed.
Lemma burg_loop_inv rows n : forall i s s', (i + n < rows)%nat -> burg_inv rows i s -> burg_loop (seq i n) s = Ok s' -> burg_inv rows (i + n) s'.
Proof.
  induction n; intros i s s' Hr HI E.
  - injection E as <-. now rewrite Nat.add_0_r.
  - cbn [seq burg_loop] in E. destruct (burg_step s i) as [s1|] eqn:E1; [|discriminate]. cbn [bind] in E.
    destruct (burg_step_inv rows i s s1 ltac:(lia) HI E1) as [I1 _]. replace (i + S n)%nat with (S i + n)%nat by lia.
    apply (IHn (S i) s1); auto. lia. now rewrite Nat.add_1_r in I1.
Qed.
Lemma burg_loop_total rows n : forall i s, (i + n < rows)%nat -> burg_inv rows i s -> (n <= length (bg_f s))%nat -> exists s', burg_loop (seq i n) s = Ok s'.
Proof.
  induction n; intros i s Hr HI HF. eexists; reflexivity.
  cbn [seq burg_loop]. destruct (burg_step s i) as [s1|] eqn:E1.
  - destruct (burg_step_inv rows i s s1 ltac:(lia) HI E1) as [I1 [L1 _]]. cbn [bind]. apply IHn; try lia. now rewrite Nat.add_1_r in I1.
  - unfold burg_step in E1. destruct (Nat.eqb_spec (length (bg_f s)) 0); [lia|discriminate].
Qed.
Lemma burg_init_inv rows x : (1 <= rows)%nat -> burg_inv rows 0 (burg_init rows x).
Proof.
  intros H. unfold burg_init, burg_inv. cbn [bg_ar bg_prev bg_f bg_b bg_den length]. rewrite repeat_length, tl_length, removelast_length.
  assert (Z : forall j, (0 < j)%nat -> get (1 :: repeat 0 (rows - 1)) j = 0).
  { intros [|j] Hj; [lia|]. apply (get_repeat0 (HA := CRing_R)). }
  repeat (split; auto; try lia; try reflexivity). unfold bE. rewrite tl_length. apply Rle_refl.
  - now apply Stab_0.
  - now apply Stab_0.
Qed.
(** Number of rows only pads. *)
Definition burg_sim (s s' : burg_state) : Prop :=
  (forall j, get (bg_ar s) j = get (bg_ar s') j) /\ (forall j, get (bg_prev s) j = get (bg_prev s') j) /\
  bg_f s = bg_f s' /\ bg_b s = bg_b s' /\ bg_den s = bg_den s'.
Lemma burg_sim_loop rows rows' n : forall i s s' t, (i + n < rows)%nat -> (i + n < rows')%nat -> burg_inv rows i s -> burg_inv rows' i s' -> burg_sim s s' ->
  burg_loop (seq i n) s = Ok t -> exists t', burg_loop (seq i n) s' = Ok t' /\ burg_sim t t'.
Proof.
  induction n; intros i s s' t H H' HI HI' HS E.
  - injection E as <-. eexists. split; [reflexivity|auto].
  - cbn [seq burg_loop] in *. destruct (burg_step s i) as [s1|] eqn:E1; [|discriminate]. cbn [bind] in E.
    destruct HS as (S1 & S2 & S3 & S4 & S5).
    destruct (burg_step s' i) as [s1'|] eqn:E1'.
    2: { unfold burg_step in E1, E1'. rewrite <- S3 in E1'. destruct (Nat.eqb (length (bg_f s)) 0); discriminate. }
    cbn [bind]. destruct (burg_step_inv rows i s s1 ltac:(lia) HI E1) as [I1 [_ _]].
    destruct (burg_step_inv rows' i s' s1' ltac:(lia) HI' E1') as [I1' [_ _]].
    rewrite Nat.add_1_r in I1, I1'.
    apply (IHn (S i) s1 s1' t); auto; try lia.
    unfold burg_step in E1, E1'. rewrite <- S3, <- S4, <- S5 in E1'. destruct (Nat.eqb (length (bg_f s)) 0); [discriminate|].
    set (k := (-2 * dotp (bg_b s) (bg_f s)) / (bg_den s + burg_eps)) in *.
    injection E1 as <-. injection E1' as <-. cbn [bg_ar bg_prev bg_f bg_b bg_den].
    destruct HI as (L1 & L2 & _). destruct HI' as (L1' & L2' & _).
    split; [|cbn [bg_ar bg_prev bg_f bg_b bg_den]; auto]. intros j. cbn [bg_ar].
    destruct (burg_ar_fold k i (bg_ar s) (i + 1) (bg_prev s) ltac:(lia)) as [_ G1].
    destruct (burg_ar_fold k i (bg_ar s') (i + 1) (bg_prev s') ltac:(lia)) as [_ G2]. cbv zeta in G1, G2. rewrite G1, G2, !S1, S2. reflexivity.
Qed.
