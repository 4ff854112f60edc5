(** Lemmas on quadratic denominators: poles, bounded responses, and the transfer function of three coefficients. *)
From Coq Require Import List Arith Lia ZArith Bool Reals Lra.
From Verif Require Import Alg Spec Dft M_arrays M_filter M_biquad P_filter P_conv.
Import ListNotations.
Local Open Scope R_scope.

Definition cabs (z : C) : R := sqrt (cabs2 z).
Lemma cabs2_pos z : 0 <= cabs2 z.
Proof. unfold cabs2. nra. Qed.
Lemma cabs2_mul x y : cabs2 (cmul x y) = cabs2 x * cabs2 y.
Proof. unfold cabs2, cmul. simpl. ring. Qed.
Lemma cabs_pos z : 0 <= cabs z.
Proof. apply sqrt_pos. Qed.
Lemma cabs_mul x y : cabs (cmul x y) = cabs x * cabs y.
Proof. unfold cabs. rewrite cabs2_mul. apply sqrt_mult; apply cabs2_pos. Qed.
Lemma cabs_sq z : cabs z * cabs z = cabs2 z.
Proof. apply sqrt_sqrt, cabs2_pos. Qed.
Lemma cabs_le z m : 0 <= m -> cabs2 z <= m * m -> cabs z <= m.
Proof. intros H L. unfold cabs. rewrite <- (sqrt_square m) by auto. now apply sqrt_le_1_alt. Qed.
Lemma cabs_eq z m : 0 <= m -> cabs2 z = m * m -> cabs z = m.
Proof. intros H L. unfold cabs. rewrite L. now apply sqrt_square. Qed.
Lemma cabs_ge z m : 0 <= m -> m * m <= cabs2 z -> m <= cabs z.
Proof. intros H L. unfold cabs. rewrite <- (sqrt_square m) by auto. now apply sqrt_le_1_alt. Qed.
Lemma cabs_add x y : cabs (cadd x y) <= cabs x + cabs y.
Proof.
  pose proof (cabs_pos x) as Px. pose proof (cabs_pos y) as Py.
  apply cabs_le. lra. pose proof (cabs_sq x) as Sx. pose proof (cabs_sq y) as Sy.
  assert (D : fst x * fst y + snd x * snd y <= cabs x * cabs y).
  { apply Rsqr_incr_0_var; [|nra]. unfold Rsqr.
    replace (cabs x * cabs y * (cabs x * cabs y)) with ((cabs x * cabs x) * (cabs y * cabs y)) by ring. rewrite Sx, Sy. unfold cabs2.
    pose proof (Rle_0_sqr (fst x * snd y - snd x * fst y)) as Q. unfold Rsqr in Q. nra. }
  unfold cabs2 in *. unfold cadd. simpl. nra.
Qed.
Lemma cabs_rc x : cabs (rc x) = Rabs x.
Proof. unfold cabs, cabs2, rc. simpl. rewrite <- (sqrt_Rsqr_abs x). f_equal. unfold Rsqr. ring. Qed.

(** a0 z^2 + a1 z + a2 *)
Definition quad (a0 a1 a2 : R) (z : C) : C := cadd (cadd (cmul (rc a0) (cmul z z)) (cmul (rc a1) z)) (rc a2).
(** The stability triangle. *)
Definition jury (a0 a1 a2 : R) : Prop := Rabs a2 < a0 /\ 0 < a0 + a1 + a2 /\ 0 < a0 - a1 + a2.
Lemma jury_a0 a0 a1 a2 : jury a0 a1 a2 -> 0 < a0.
Proof. intros [H _]. pose proof (Rabs_pos a2). lra. Qed.
Lemma jury_poles a0 a1 a2 z : jury a0 a1 a2 -> quad a0 a1 a2 z = rc 0 -> cabs z < 1.
Proof.
  intros J H. pose proof (jury_a0 _ _ _ J) as P0. destruct J as (J0 & J1 & J2). apply Rabs_def2 in J0. destruct J0 as [J0 J0'].
  destruct z as [u v]. unfold quad, cadd, cmul, rc in H. simpl in H. injection H as H1 H2.
  assert (L : cabs2 (u, v) < 1).
  { unfold cabs2. simpl. destruct (Req_dec v 0) as [->|V].
    - assert (E : a0 * (u * u) + a1 * u + a2 = 0) by lra.
      destruct (Rlt_dec (u * u) 1) as [|N]; [lra|]. exfalso. apply Rnot_lt_le in N.
      assert (U : u <> 0) by (intros ->; lra).
      assert (Ea1 : a1 * u = - a0 * (u * u) - a2) by lra.
      (* (a0 + a1 + a2) u = (1 - u)(a0 u - a2), (a0 - a1 + a2) u = (1 + u)(a0 u + a2) *)
      assert (F1 : (a0 + a1 + a2) * u = (1 - u) * (a0 * u - a2)) by nra.
      assert (F2 : (a0 - a1 + a2) * u = (1 + u) * (a0 * u + a2)) by nra.
      destruct (Rlt_dec 0 u).
      + assert (1 <= u) by nra. assert (0 < a0 * u - a2) by nra. assert ((1 - u) * (a0 * u - a2) <= 0) by nra. nra.
      + assert (u <= -1) by nra. assert (a0 * u + a2 < 0) by nra. assert (0 <= (1 + u) * (a0 * u + a2)) by nra. nra.
    - assert (E : a1 = - 2 * a0 * u). { assert (v * (2 * a0 * u + a1) = 0) by lra. apply Rmult_integral in H. destruct H; lra. }
      assert (E2 : a2 = a0 * (u * u + v * v)) by (subst a1; lra). nra. }
  unfold cabs. rewrite <- sqrt_1. apply sqrt_lt_1_alt. split; auto. apply cabs2_pos.
Qed.
(** Both roots. *)
Lemma quad_roots a0 a1 a2 : 0 < a0 -> exists l1 l2 : C,
  quad a0 a1 a2 l1 = rc 0 /\ quad a0 a1 a2 l2 = rc 0 /\ cadd l1 l2 = rc (- a1 / a0) /\ cmul l1 l2 = rc (a2 / a0).
Proof.
  intros P. set (p := a1 / a0). set (r := a2 / a0).
  assert (E1 : a1 = a0 * p) by (unfold p; field; lra). assert (E2 : a2 = a0 * r) by (unfold r; field; lra).
  replace (- a1 / a0) with (- p) by (unfold p; field; lra).
  destruct (Rle_dec 0 (p * p / 4 - r)) as [D|D].
  - set (d := sqrt (p * p / 4 - r)). assert (Ed : d * d = p * p / 4 - r) by (apply sqrt_sqrt; auto).
    exists (rc (- p / 2 + d)), (rc (- p / 2 - d)). unfold quad, cadd, cmul, rc. simpl. rewrite E1, E2.
    repeat split; apply c_ext; simpl; try lra; nra.
  - apply Rnot_le_lt in D. set (d := sqrt (r - p * p / 4)). assert (Ed : d * d = r - p * p / 4) by (apply sqrt_sqrt; lra).
    exists (- p / 2, d), (- p / 2, - d). unfold quad, cadd, cmul, rc. simpl. rewrite E1, E2.
    repeat split; apply c_ext; simpl; try lra; nra.
Qed.

(** The previous value of a sequence, zero before the start. *)
Definition prev {T} (z : T) (g : nat -> T) (n : nat) : T := match n with O => z | S m => g m end.
Lemma first_order_bound (l : C) (w u : nat -> C) N U : cabs l < 1 -> 0 <= U ->
  (forall n, (n < N)%nat -> w n = cadd (cmul l (prev (rc 0) w n)) (u n)) -> (forall n, (n < N)%nat -> cabs (u n) <= U) ->
  forall n, (n < N)%nat -> cabs (w n) <= U / (1 - cabs l).
Proof.
  intros L PU E B. pose proof (cabs_pos l) as Pl.
  assert (F : U = U / (1 - cabs l) * (1 - cabs l)) by (field; lra).
  assert (PW : 0 <= U / (1 - cabs l)) by (apply Rmult_le_pos; [auto|apply Rlt_le, Rinv_0_lt_compat; lra]).
  set (W := U / (1 - cabs l)) in *.
  assert (S : forall n, (n < N)%nat -> cabs (prev (rc 0) w n) <= W -> cabs (w n) <= W).
  { intros n Hn IH. rewrite (E n Hn). eapply Rle_trans. apply cabs_add. rewrite cabs_mul. specialize (B n Hn).
    assert (cabs l * cabs (prev (rc 0) w n) <= cabs l * W) by (apply Rmult_le_compat_l; auto). nra. }
  induction n as [|n IH]; intros Hn; apply S; auto.
  - simpl. rewrite cabs_rc, Rabs_R0. auto.
  - simpl. apply IH. lia.
Qed.
Lemma second_order_bound a0 a1 a2 : jury a0 a1 a2 -> exists B, 0 <= B /\ forall (g u : nat -> R) N U, 0 <= U ->
  (forall n, (n < N)%nat -> a0 * g n + a1 * prev 0 g n + a2 * prev 0 (prev 0 g) n = u n) ->
  (forall n, (n < N)%nat -> Rabs (u n) <= U) -> forall n, (n < N)%nat -> Rabs (g n) <= B * U.
Proof.
  intros J. pose proof (jury_a0 _ _ _ J) as P0. destruct (quad_roots a0 a1 a2 P0) as (l1 & l2 & Q1 & Q2 & Es & Ep).
  pose proof (jury_poles _ _ _ _ J Q1) as B1. pose proof (jury_poles _ _ _ _ J Q2) as B2.
  pose proof (cabs_pos l1) as P1. pose proof (cabs_pos l2) as P2.
  exists (/ a0 / (1 - cabs l2) / (1 - cabs l1)). split.
  { unfold Rdiv. repeat apply Rmult_le_pos; apply Rlt_le, Rinv_0_lt_compat; lra. }
  intros g u N U PU E BU n Hn.
  set (gc := fun n => rc (g n)).
  set (w := fun n => csub (gc n) (cmul l1 (prev (rc 0) gc n))).
  assert (PG : forall k, prev (rc 0) gc k = rc (prev 0 g k)) by (intros [|k]; reflexivity).
  assert (BW : forall k, (k < N)%nat -> cabs (w k) <= (U / a0) / (1 - cabs l2)).
  { apply (first_order_bound l2 w (fun k => rc (u k / a0)) N (U / a0)); auto.
    - apply Rmult_le_pos; auto. apply Rlt_le, Rinv_0_lt_compat; lra.
    - intros k Hk. specialize (E k Hk).
      assert (EW : prev (rc 0) w k = csub (rc (prev 0 g k)) (cmul l1 (rc (prev 0 (prev 0 g) k)))).
      { destruct k; simpl. apply c_ext; simpl; ring. unfold w. now rewrite PG. }
      rewrite EW. unfold w. rewrite PG. unfold gc.
      apply (f_equal fst) in Es as Es1. apply (f_equal snd) in Es as Es2. apply (f_equal fst) in Ep as Ep1. apply (f_equal snd) in Ep as Ep2.
      unfold cadd, cmul, rc in Es1, Es2, Ep1, Ep2. simpl in Es1, Es2, Ep1, Ep2.
      assert (Ea1 : - a1 = a0 * (fst l1 + fst l2)) by (rewrite Es1; field; lra).
      assert (Ea2 : a2 = a0 * (fst l1 * fst l2 - snd l1 * snd l2)) by (rewrite Ep1; field; lra).
      set (g0 := g k) in *. set (g1 := prev 0 g k) in *. set (g2 := prev 0 (prev 0 g) k) in *.
      assert (Eg : u k / a0 = g0 - (fst l1 + fst l2) * g1 + (fst l1 * fst l2 - snd l1 * snd l2) * g2).
      { rewrite <- E. replace a1 with (- (a0 * (fst l1 + fst l2))) by lra. rewrite Ea2. field. lra. }
      rewrite Eg. unfold csub, cadd, cmul, rc. apply c_ext; simpl.
      + ring_simplify. nra.
      + assert (T1 : (fst l1 * snd l2 + snd l1 * fst l2) * g2 = 0) by (rewrite Ep2; ring).
        assert (T2 : (snd l1 + snd l2) * g1 = 0) by (rewrite Es2; ring). lra.
    - intros k Hk. rewrite cabs_rc. unfold Rdiv. rewrite Rabs_mult, (Rabs_pos_eq (/ a0)) by (apply Rlt_le, Rinv_0_lt_compat; lra).
      apply Rmult_le_compat_r; auto. apply Rlt_le, Rinv_0_lt_compat; lra. }
  assert (BG : forall k, (k < N)%nat -> cabs (gc k) <= (U / a0) / (1 - cabs l2) / (1 - cabs l1)).
  { apply (first_order_bound l1 gc w N); auto.
    - apply Rmult_le_pos; [apply Rmult_le_pos; auto|]; apply Rlt_le, Rinv_0_lt_compat; lra.
    - intros k Hk. unfold w. unfold csub, cadd, cmul. apply c_ext; simpl; ring. }
  specialize (BG n Hn). unfold gc in BG. rewrite cabs_rc in BG.
  replace (/ a0 / (1 - cabs l2) / (1 - cabs l1) * U) with (U / a0 / (1 - cabs l2) / (1 - cabs l1)) by (field; lra). auto.
Qed.

(** Three coefficients. *)
Lemma get3 {c0 c1 c2 : R} k : (2 < k)%nat -> get [c0; c1; c2] k = 0.
Proof. intros H. apply (get_out (HA := CRing_R)). simpl. lia. Qed.
Lemma conv3 c0 c1 c2 (y : list R) n :
  conv [c0; c1; c2] y n = c0 * get y n + c1 * prev 0 (get y) n + c2 * prev 0 (prev 0 (get y)) n.
Proof.
  unfold conv. destruct n as [|[|n]].
  - cbn [sum]. cbn. ring.
  - cbn [sum]. cbn. ring.
  - assert (G : forall m, (m <= n)%nat -> sum (3 + m) (fun k => get [c0; c1; c2] k *! get y (S (S n) - k)) =
       c0 * get y (S (S n)) + c1 * get y (S n) + c2 * get y n).
    { induction m; intros Hm. cbn [sum Nat.add]. cbn [Nat.sub]. rewrite Nat.sub_0_r. cbn [radd rmul r0 CRing_R get nth]. ring.
      replace (3 + S m)%nat with (S (3 + m)) by lia. cbn [sum]. rewrite IHm by lia. rewrite get3 by lia.
      cbn [radd rmul r0 CRing_R]. ring. }
    destruct n as [|n]. cbn [sum]. cbn. ring.
    replace (S (S (S (S n)))) with (3 + S n)%nat by lia. rewrite G by lia. reflexivity.
Qed.
Lemma trim3 a0 a1 a2 : a0 <> 0 -> (a1 = 0 /\ a2 = 0 /\ trim_back [a0; a1; a2] = [a0]) \/
  (forall x, trim_back [a0; a1; a2] <> [x]).
Proof.
  intros H. cbn [trim_back]. destruct (Req_EM_T a2 0); destruct (Req_EM_T a1 0); destruct (Req_EM_T a0 0); try lra; auto;
    right; intros x X; discriminate X.
Qed.
Lemma set_ba3 b0 b1 b2 a0 a1 a2 : a0 <> 0 ->
  set_ba ([b0; b1; b2], [a0; a1; a2]) = ([b0; b1; b2], [a0; a1; a2]) \/
  (a1 = 0 /\ a2 = 0 /\ set_ba ([b0; b1; b2], [a0; a1; a2]) = ([b0 / a0; b1 / a0; b2 / a0], [a0 / a0])).
Proof.
  intros H. unfold set_ba. cbn [fst snd]. destruct (trim3 a0 a1 a2 H) as [(E1 & E2 & ->)|N].
  - right. cbn [map]. auto.
  - left. destruct (trim_back [a0; a1; a2]) as [|x [|]]; auto. now destruct (N x).
Qed.
Lemma get_rep0 n k : get (repeat 0 n) k = 0.
Proof. unfold get. revert k. induction n; intros [|k]; simpl; auto. Qed.
(** The filter solves the difference equation with the designed coefficients. *)
Lemma lfilter_rest3 b0 b1 b2 a0 a1 a2 x : a0 <> 0 ->
  exists y, lfilter_rest (set_ba ([b0; b1; b2], [a0; a1; a2])) x = Ok y /\ diff_eq [b0; b1; b2] [a0; a1; a2] x y.
Proof.
  intros H. destruct (set_ba3 b0 b1 b2 a0 a1 a2 H) as [->|(E1 & E2 & ->)].
  - unfold lfilter_rest. cbn [fst snd]. change (get [a0; a1; a2] 0) with a0. destruct (Req_EM_T a0 0); [contradiction|].
    eexists. split; [reflexivity|]. cbn [map].
    pose proof (lfilter_diff [b0 / a0; b1 / a0; b2 / a0] [a0 / a0; a1 / a0; a2 / a0] x (repeat 0 (lf_order [b0; b1; b2] [a0; a1; a2]))) as D.
    destruct D as [DL D]. { cbn. field. auto. } { simpl. lia. } { simpl. lia. }
    split; auto. intros i Hi. specialize (D i Hi). cbn [length] in *. rewrite !conv3 in *.
    match type of D with _ = radd _ ?g => assert (G : g = 0) by (apply get_rep0) end.
    rewrite G in D. cbn [radd CRing_R] in D.
    match goal with |- ?l = ?r => replace l with (a0 * (l / a0)) by (field; auto); replace r with (a0 * (r / a0)) by (field; auto) end.
    f_equal. unfold Rdiv in *. lra.
  - subst. unfold lfilter_rest. cbn [fst snd]. change (get [a0 / a0] 0) with (a0 / a0).
    destruct (Req_EM_T (a0 / a0) 0) as [Z|_]. { exfalso. assert (a0 / a0 = 1) by (field; auto). lra. }
    eexists. split; [reflexivity|]. cbn [map].
    assert (E : a0 / a0 = 1) by (field; auto). rewrite E.
    pose proof (lfilter_diff [b0 / a0 / 1; b1 / a0 / 1; b2 / a0 / 1] [1 / 1] x (repeat 0 (lf_order [b0 / a0; b1 / a0; b2 / a0] [1]))) as D.
    destruct D as [DL D]. { cbn. field. } { simpl. lia. } { simpl. lia. }
    split; auto. intros i Hi. specialize (D i Hi). rewrite !conv3 in *.
    match type of D with _ = radd _ ?g => assert (G : g = 0) by (apply get_rep0) end.
    rewrite G in D. cbn [radd CRing_R] in D.
    match type of D with conv ?l ?y ?m = _ => assert (C : conv l y m = get y m) end.
    { unfold conv. rewrite sum_S_front. rewrite Nat.sub_0_r.
      rewrite (sum_ext i _ (fun _ => r0)). 2:{ intros k Hk. rewrite get_out by (simpl; lia). cbn. ring. }
      rewrite sum_zero. cbn. field. }
    rewrite C in D. rewrite D. field. auto.
Qed.

(** The transfer function, with both polynomials multiplied by e^(j theta). *)
Definition num3 (c0 c1 c2 th : R) : C := ((c0 + c2) * cos th + c1, (c0 - c2) * sin th).
Lemma zpoly3 c0 c1 c2 th : zpoly [c0; c1; c2] th = cmul (cis (- th)) (num3 c0 c1 c2 th).
Proof.
  unfold zpoly. cbn [length sum get nth INR radd r0 CRing_C].
  replace (- (0 * th)) with 0 by ring. replace (- (1 * th)) with (- th) by ring. replace (- ((1 + 1) * th)) with (- th + - th) by ring.
  rewrite cis_0, cis_add. unfold cis, num3, cmul, cadd, rc. rewrite cos_neg, sin_neg.
  pose proof (sin2_cos2 th) as S. unfold Rsqr in S. set (c := cos th) in *. set (s := sin th) in *.
  apply c_ext; simpl.
  - replace c0 with (c0 * (s * s + c * c)) at 1 by (rewrite S; ring). ring_simplify. nra.
  - nra.
Qed.
Lemma cabs2_cis t : cabs2 (cis t) = 1.
Proof. unfold cabs2, cis. simpl. pose proof (sin2_cos2 t) as S. unfold Rsqr in S. lra. Qed.
Lemma cmul_cancel (k x y h : C) : cabs2 k <> 0 -> cabs2 y <> 0 -> h = cmul (cmul k x) (cinv (cmul k y)) -> cmul h y = x.
Proof.
  intros Hk Hy ->. unfold cabs2 in *. unfold cmul, cinv. destruct k as [k1 k2], x as [x1 x2], y as [y1 y2]. simpl in *.
  assert (N : (k1 * y1 - k2 * y2) * (k1 * y1 - k2 * y2) + (k1 * y2 + k2 * y1) * (k1 * y2 + k2 * y1) <> 0).
  { replace ((k1 * y1 - k2 * y2) * (k1 * y1 - k2 * y2) + (k1 * y2 + k2 * y1) * (k1 * y2 + k2 * y1)) with ((k1 * k1 + k2 * k2) * (y1 * y1 + y2 * y2)) by ring.
    apply Rmult_integral_contrapositive_currified; auto. }
  apply c_ext; simpl; field; auto.
Qed.
Lemma freqz3 b0 b1 b2 a0 a1 a2 th : a0 <> 0 -> cabs2 (num3 a0 a1 a2 th) <> 0 ->
  exists h, freqz1 (fst (set_ba ([b0; b1; b2], [a0; a1; a2]))) (snd (set_ba ([b0; b1; b2], [a0; a1; a2]))) th = Some h /\
    cmul h (num3 a0 a1 a2 th) = num3 b0 b1 b2 th.
Proof.
  intros H Hd. destruct (set_ba3 b0 b1 b2 a0 a1 a2 H) as [->|(E1 & E2 & ->)]; cbn [fst snd]; unfold freqz1.
  - rewrite !zpoly3. rewrite cabs2_mul, cabs2_cis, Rmult_1_l. destruct (Req_EM_T _ 0); [lra|].
    eexists. split; [reflexivity|]. eapply cmul_cancel; [| |reflexivity]; auto. rewrite cabs2_cis. lra.
  - subst. assert (E : a0 / a0 = 1) by (field; auto). rewrite E.
    assert (E1 : zpoly [1] th = rc 1).
    { unfold zpoly. cbn [length sum get nth INR radd r0 CRing_C]. replace (- (0 * th)) with 0 by ring. rewrite cis_0. apply c_ext; simpl; ring. }
    rewrite E1. destruct (Req_EM_T (cabs2 (rc 1)) 0) as [Z|_]. { unfold cabs2, rc in Z. simpl in Z. lra. }
    eexists. split; [reflexivity|]. rewrite zpoly3. unfold num3, cmul, cinv, rc, cis. rewrite cos_neg, sin_neg.
    pose proof (sin2_cos2 th) as S. unfold Rsqr in S. simpl. set (c := cos th) in *. set (s := sin th) in *.
    replace ((b0 / a0 + b2 / a0) * c + b1 / a0) with (((b0 + b2) * c + b1) / a0) by (field; auto).
    replace ((b0 / a0 - b2 / a0) * s) with ((b0 - b2) * s / a0) by (field; auto).
    set (n1 := (b0 + b2) * c + b1). set (n2 := (b0 - b2) * s).
    apply c_ext; simpl.
    + transitivity (n1 * (s * s + c * c)); [field; auto | rewrite S; ring].
    + transitivity (n2 * (s * s + c * c)); [field; auto | rewrite S; ring].
Qed.
