(** Lemmas on the spectral distances: the integration weights and weighted norms. *)
From Coq Require Import List Arith Lia ZArith Bool Reals Lra Psatz.
From Verif Require Import Alg Spec Dft M_arrays M_latency M_dynamics M_level P_ar Claims_level M_distances Claims_distances.
Import ListNotations.
Local Open Scope R_scope.

Lemma odd_weight_pos n h i : 0 < h -> 0 < simpson_odd n h i.
Proof. intros. unfold simpson_odd. destruct (_ || _); [|destruct (Nat.odd i)]; lra. Qed.
Lemma weight_pos n h i : 0 < h -> (2 <= n)%nat -> (i < n)%nat -> 0 < simpson_weight n h i.
Proof.
  intros Hh Hn Hi. unfold simpson_weight. destruct n as [|[|[|n]]]; try lia. lra.
  destruct (Nat.odd (S (S (S n)))) eqn:O. now apply odd_weight_pos.
  pose proof (odd_weight_pos (S (S (S n)) - 1) h i Hh) as P.
  destruct (Nat.eqb_spec i (S (S (S n)) - 1)) as [->|].
  { destruct (Nat.eqb_spec (S (S (S n)) - 1) (S (S (S n)) - 2)); [lia|]. destruct (Nat.eqb_spec (S (S (S n)) - 1) (S (S (S n)) - 3)); [lia|]. lra. }
  destruct (Nat.eqb_spec i (S (S (S n)) - 2)); [lra|]. destruct (Nat.eqb_spec i (S (S (S n)) - 3)) as [->|]; [|lra].
  replace (S (S (S n)) - 3)%nat with n in * by lia. replace (S (S (S n)) - 1)%nat with (S (S n)) in * by lia.
  unfold simpson_odd. destruct (_ || _) eqn:E; [lra|]. destruct (Nat.odd n); lra.
Qed.
Lemma sum_alternate m : rsum (2 * m + 1) (fun i => if Nat.odd i then 4 else 2) = 6 * INR m + 2.
Proof.
  induction m as [|m IH]. simpl. lra.
  replace (2 * S m + 1)%nat with (S (S (2 * m + 1))) by lia. cbn [sum]. change (@radd R CRing_R) with Rplus. rewrite IH, S_INR.
  assert (O : Nat.odd (2 * m + 1) = true) by (apply Nat.odd_spec; exists m; lia). rewrite Nat.odd_succ, <- Nat.negb_odd, O. simpl. lra.
Qed.
Lemma simpson_odd_sum m h : (1 <= m)%nat -> rsum (2 * m + 1) (simpson_odd (2 * m + 1) h) = 2 * INR m * h.
Proof.
  intros Hm. rewrite (sum_ext (HA := CRing_R) _ _ (fun i => (h / 3) * (if Nat.odd i then 4 else 2) + ((if (i =? 0)%nat then - (h / 3) else 0) + (if (i =? 2 * m)%nat then - (h / 3) else 0)))).
  - change (fun i => (h / 3) * (if Nat.odd i then 4 else 2) + ((if (i =? 0)%nat then - (h / 3) else 0) + (if (i =? 2 * m)%nat then - (h / 3) else 0)))
      with (fun i => radd (rmul (h / 3) (if Nat.odd i then 4 else 2)) (radd (if (i =? 0)%nat then - (h / 3) else r0) (if (i =? 2 * m)%nat then - (h / 3) else r0))).
    rewrite !(sum_add (HA := CRing_R)), (sum_scal_l (HA := CRing_R)), sum_alternate.
    rewrite (sum_delta (HA := CRing_R) _ 0 (fun _ => - (h / 3))) by lia. rewrite (sum_delta (HA := CRing_R) _ (2 * m) (fun _ => - (h / 3))) by lia. simpl. field.
  - intros i Hi. unfold simpson_odd. replace (2 * m + 1 - 1)%nat with (2 * m)%nat by lia.
    destruct (Nat.eqb_spec i 0) as [E1|E1]; destruct (Nat.eqb_spec i (2 * m)) as [E2|E2]; cbn [orb]; try lia; [rewrite E1|rewrite E2|].
    + simpl. lra.
    + replace (2 * m)%nat with (0 + 2 * m)%nat by lia. rewrite Nat.odd_add_mul_2. simpl. lra.
    + destruct (Nat.odd i); lra.
Qed.
(** Constants are integrated exactly. *)
Lemma weight_total n h : (1 <= n)%nat -> rsum n (simpson_weight n h) = INR (n - 1) * h.
Proof.
  intros Hn. destruct n as [|[|[|n]]]; try lia. simpl. lra. simpl. lra. unfold simpson_weight. destruct (Nat.odd (S (S (S n)))) eqn:O.
  - apply Nat.odd_spec in O. destruct O as [m Om]. rewrite Om. rewrite (sum_ext (HA := CRing_R) _ _ (simpson_odd (2 * m + 1) h)) by auto. rewrite simpson_odd_sum by lia. replace (2 * m + 1 - 1)%nat with (2 * m)%nat by lia. rewrite mult_INR. simpl. ring.
  - assert (E : Nat.even (S (S (S n))) = true) by (rewrite <- Nat.negb_odd, O; reflexivity). apply Nat.even_spec in E. destruct E as [m Em].
    assert (Hm : (2 <= m)%nat) by lia. set (k := (m - 1)%nat). assert (Ek : S (S (S n)) = S (2 * k + 1)) by (unfold k; lia). rewrite Ek. clear O Hn. cbn [sum].
    replace (S (2 * k + 1) - 1)%nat with (2 * k + 1)%nat by lia. replace (S (2 * k + 1) - 2)%nat with (2 * k)%nat by lia. replace (S (2 * k + 1) - 3)%nat with (2 * k - 1)%nat by lia.
    rewrite Nat.eqb_refl. destruct (Nat.eqb_spec (2 * k + 1) (2 * k)); [lia|]. destruct (Nat.eqb_spec (2 * k + 1) (2 * k - 1)); [lia|].
    rewrite (sum_ext (HA := CRing_R) (2 * k + 1) _ (fun i => radd (simpson_odd (2 * k + 1) h i) (radd (if (i =? 2 * k)%nat then 2 / 3 * h else r0) (if (i =? 2 * k - 1)%nat then - (h / 12) else r0)))).
    + rewrite !(sum_add (HA := CRing_R)), simpson_odd_sum by (unfold k; lia).
      rewrite (sum_delta (HA := CRing_R) _ (2 * k) (fun _ => 2 / 3 * h)) by lia. rewrite (sum_delta (HA := CRing_R) _ (2 * k - 1) (fun _ => - (h / 12))) by lia.
      rewrite plus_INR, mult_INR. simpl. field.
    + intros i Hi. destruct (Nat.eqb_spec i (2 * k + 1)); [lia|]. destruct (Nat.eqb_spec i (2 * k)); destruct (Nat.eqb_spec i (2 * k - 1)); try lia; simpl; lra.
Qed.

(** ** Weighted norms *)
Definition wip (n : nat) (w a b : nat -> R) : R := rsum n (fun i => w i * (a i * b i)).
Lemma wip_nonneg n w a : (forall i, (i < n)%nat -> 0 <= w i) -> 0 <= wip n w a a.
Proof. intros H. unfold wip. induction n as [|n IH]. apply Rle_refl. cbn [sum]. change (@radd R CRing_R) with Rplus. pose proof (IH ltac:(intros; apply H; lia)) as P. pose proof (H n ltac:(lia)). assert (0 <= w n * (a n * a n)) by (apply Rmult_le_pos; auto; apply Rle_0_sqr). lra. Qed.
Lemma wip_zero n w a : (forall i, (i < n)%nat -> 0 < w i) -> wip n w a a = 0 -> forall i, (i < n)%nat -> a i = 0.
Proof.
  intros H. unfold wip. induction n as [|n IH]; intros E i Hi; [lia|]. cbn [sum] in E. change (@radd R CRing_R) with Rplus in E.
  pose proof (wip_nonneg n w a ltac:(intros; left; apply H; lia)) as P. unfold wip in P. pose proof (H n ltac:(lia)) as Wn.
  assert (Q : 0 <= w n * (a n * a n)) by (apply Rmult_le_pos; [lra|apply Rle_0_sqr]).
  destruct (Nat.eq_dec i n) as [->|]; [|apply IH; auto; try lra; lia].
  assert (Z : w n * (a n * a n) = 0) by lra. apply Rmult_integral in Z. destruct Z as [Z|Z]; [lra|]. apply Rmult_integral in Z. tauto.
Qed.
Lemma wip_schwarz n w a b : (forall i, (i < n)%nat -> 0 <= w i) -> wip n w a b * wip n w a b <= wip n w a a * wip n w b b.
Proof.
  intros H. set (A := wip n w a a). set (B := wip n w a b). set (D := wip n w b b).
  assert (Q : forall t, 0 <= A * (t * t) + 2 * B * t + D).
  { intros t. replace (A * (t * t) + 2 * B * t + D) with (wip n w (fun i => t * a i + b i) (fun i => t * a i + b i)). now apply wip_nonneg.
    unfold A, B, D, wip. clear. induction n as [|n IH]; cbn [sum]; change (@radd R CRing_R) with Rplus; change (@r0 R CRing_R) with 0. ring. rewrite IH. ring. }
  assert (PA : 0 <= A) by now apply wip_nonneg. assert (PD : 0 <= D) by now apply wip_nonneg.
  destruct (Req_EM_T A 0) as [Z|Z].
  - rewrite Z. destruct (Req_EM_T B 0) as [E|E]; [rewrite E; lra|]. pose proof (Q (- (D + 1) / (2 * B))) as K. rewrite Z in K. replace (0 * (- (D + 1) / (2 * B) * (- (D + 1) / (2 * B))) + 2 * B * (- (D + 1) / (2 * B)) + D) with (-1) in K by (field; auto). lra.
  - pose proof (Q (- B / A)) as K. replace (A * (- B / A * (- B / A)) + 2 * B * (- B / A) + D) with ((A * D - B * B) / A) in K by (field; auto).
    assert (0 <= (A * D - B * B) / A * A) by (apply Rmult_le_pos; lra). unfold Rdiv in H0. rewrite Rmult_assoc, Rinv_l in H0 by auto. lra.
Qed.
Lemma wip_triangle n w a b : (forall i, (i < n)%nat -> 0 <= w i) ->
  sqrt (wip n w (fun i => a i + b i) (fun i => a i + b i)) <= sqrt (wip n w a a) + sqrt (wip n w b b).
Proof.
  intros H. assert (E : wip n w (fun i => a i + b i) (fun i => a i + b i) = wip n w a a + 2 * wip n w a b + wip n w b b).
  { unfold wip. clear. induction n as [|n IH]; cbn [sum]; change (@radd R CRing_R) with Rplus; change (@r0 R CRing_R) with 0. ring. rewrite IH. ring. }
  pose proof (wip_schwarz n w a b H) as CS. pose proof (wip_nonneg n w a H) as PA. pose proof (wip_nonneg n w b H) as PB.
  set (A := wip n w a a) in *. set (B := wip n w a b) in *. set (D := wip n w b b) in *. pose proof (sqrt_pos A). pose proof (sqrt_pos D).
  apply Rsqr_incr_0_var; [|lra]. pose proof (wip_nonneg n w (fun i => a i + b i) H) as PS. unfold Rsqr. rewrite sqrt_sqrt by auto. rewrite E.
  pose proof (sqrt_sqrt A PA). pose proof (sqrt_sqrt D PB).
  assert (B <= sqrt A * sqrt D). { destruct (Rle_dec B 0). assert (0 <= sqrt A * sqrt D) by (apply Rmult_le_pos; auto). lra. apply Rsqr_incr_0_var; [|apply Rmult_le_pos; auto]. unfold Rsqr. replace (sqrt A * sqrt D * (sqrt A * sqrt D)) with ((sqrt A * sqrt A) * (sqrt D * sqrt D)) by ring. rewrite H2, H3. auto. }
  nra.
Qed.
