(** Facts on M_groupdelay. *)
From Coq Require Import List Arith Lia ZArith Bool Reals Lra.
From Verif Require Import Alg Spec Dft M_arrays P_arrays M_signal M_block M_latency M_tf M_ir M_scaling P_dft2 M_minphase P_minphase M_groupdelay.
Import ListNotations.
Local Open Scope R_scope.

Notation getr l t := (@get R CRing_R l t) (only parsing).
(** Frequency response of the taps [b] at the angular frequency [w], and the response of the taps weighted by their index. *)
Definition wsum (m : nat) (f : nat -> R) (w : R) : C := csum m (fun t => cmul (rc (f t)) (cis (- (w * INR t)))).
Definition response (b : list R) (w : R) : C := wsum (length b) (fun t => getr b t) w.
Definition ramped (b : list R) (w : R) : C := wsum (length b) (fun t => getr b t * INR t) w.

Lemma cis_abs w : cabs2 (cis w) = 1.
Proof. unfold cabs2, cis. simpl. pose proof (sin2_cos2 w) as H. unfold Rsqr in H. lra. Qed.
Lemma horner_gen (w : R) : forall (c : list R) (acc : C), fold_left (fun acc v => cadd (cmul acc (cis w)) (rc v)) c acc =
  cadd (cmul acc (cis (w * INR (length c)))) (csum (length c) (fun t => cmul (rc (getr c t)) (cis (w * INR (length c - 1 - t))))).
Proof.
  induction c as [|v c IH]; intros acc.
  - simpl. rewrite Rmult_0_r, cis_0. change (@r0 C CRing_C) with (rc 0). apply c_ext; simpl; ring.
  - cbn [fold_left]. rewrite IH. cbn [length]. rewrite (sum_S_front (HA := CRing_C)). change (@radd C CRing_C) with cadd.
    rewrite (sum_ext (HA := CRing_C) (length c) (fun i => cmul (rc (getr (v :: c) (S i))) (cis (w * INR (S (length c) - 1 - S i)))) (fun t => cmul (rc (getr c t)) (cis (w * INR (length c - 1 - t))))).
    2:{ intros i Hi. replace (S (length c) - 1 - S i)%nat with (length c - 1 - i)%nat by lia. reflexivity. }
    set (s := csum _ _). replace (S (length c) - 1 - 0)%nat with (length c) by lia.
    rewrite S_INR, Rmult_plus_distr_l, Rmult_1_r. rewrite (Rplus_comm (w * INR (length c))), cis_add. set (e := cis (w * INR (length c))). unfold get. cbn [nth].
    set (z := cis w). clearbody s e z. apply c_ext; simpl; ring.
Qed.
Lemma polyval_wsum (c : list R) w : cpolyval c (cis w) = cmul (cis (w * INR (length c - 1))) (response c w).
Proof.
  unfold cpolyval. rewrite horner_gen. rewrite cmul_rc0. assert (E0 : forall z, cadd (rc 0) z = z) by (intros; apply c_ext; simpl; ring). rewrite E0.
  unfold response, wsum. rewrite <- (sum_scal_l (HA := CRing_C)). apply (sum_ext (HA := CRing_C)). intros t Ht. change (@rmul C CRing_C) with cmul.
  rewrite !cmul_assoc, (cmul_comm (cis _) (rc _)), <- cmul_assoc. f_equal. rewrite <- cis_add. f_equal. replace (length c - 1)%nat with ((length c - 1 - t) + t)%nat at 2 by lia. rewrite plus_INR. ring.
Qed.
Lemma cabs2_mul' a b : cabs2 (cmul a b) = cabs2 a * cabs2 b.
Proof. unfold cabs2, cmul. simpl. ring. Qed.
Lemma cabs2_zero z : cabs2 z = 0 <-> z = rc 0.
Proof. unfold cabs2. split; [|intros ->; simpl; ring]. intros H. apply c_ext; simpl; nra. Qed.
Lemma cdiv_none a b : cdiv a b = None <-> b = rc 0.
Proof. unfold cdiv. destruct (c_is_zero b) eqn:E; split; intros H; try discriminate; auto. now apply c_is_zero_spec. apply c_is_zero_spec in H. congruence. Qed.
(** real part of the ratio: does not change when both are multiplied by a unit *)
Definition re_ratio (n d : C) : R := (fst n * fst d + snd n * snd d) / cabs2 d.
Lemma cdiv_ratio n d : d <> rc 0 -> exists q, cdiv n d = Some q /\ fst q = re_ratio n d.
Proof.
  intros H. unfold cdiv. destruct (c_is_zero d) eqn:E. { apply c_is_zero_spec in E. congruence. } eexists. split; [reflexivity|].
  unfold re_ratio, cinv. assert (cabs2 d <> 0) by (rewrite cabs2_zero; auto). unfold cabs2 in *. simpl. field. auto.
Qed.
Lemma re_ratio_unit e n d : cabs2 e = 1 -> re_ratio (cmul e n) (cmul e d) = re_ratio n d.
Proof.
  intros H. unfold re_ratio. rewrite cabs2_mul', H. rewrite Rmult_1_l. f_equal. unfold cabs2 in H. simpl.
  transitivity ((fst e * fst e + snd e * snd e) * (fst n * fst d + snd n * snd d)); [ring|rewrite H; ring].
Qed.
Lemma gd_at_eq b a w : let c := conv_full b (rev a) in
  (response c w = rc 0 -> gd_at b a w = 0) /\ (response c w <> rc 0 -> gd_at b a w = re_ratio (ramped c w) (response c w) - INR (length a) + 1).
Proof.
  intros c. unfold gd_at. fold c. set (cr := mk (length c) (fun t => getr c t * INR t)).
  assert (Lr : length cr = length c) by apply mk_length.
  assert (Er : response cr w = ramped c w).
  { unfold response, ramped, wsum. rewrite Lr. apply (sum_ext (HA := CRing_C)). intros t Ht. unfold cr. now rewrite (get_mk (HA := CRing_R)). }
  rewrite !polyval_wsum, Lr, Er. set (e := cis (w * INR (length c - 1))). assert (Ee : cabs2 e = 1) by apply cis_abs.
  assert (Z : cmul e (response c w) = rc 0 <-> response c w = rc 0). { rewrite <- !cabs2_zero, cabs2_mul', Ee, Rmult_1_l. reflexivity. }
  split; intros H.
  - apply Z in H. assert (Q : cdiv (cmul e (ramped c w)) (cmul e (response c w)) = None) by (now apply cdiv_none). now rewrite Q.
  - destruct (cdiv_ratio (cmul e (ramped c w)) (cmul e (response c w))) as (q & Eq & Fq). { rewrite Z. auto. }
    rewrite Eq, Fq, re_ratio_unit by auto. reflexivity.
Qed.

(** ** Convolutions *)
Lemma conv_weights (b x : list R) (W : nat -> C) : b <> [] -> x <> [] ->
  csum (length b + length x - 1) (fun n => cmul (rc (conv (HA := CRing_R) b x n)) (W n)) =
  csum (length b) (fun i => csum (length x) (fun j => cmul (rc (getr b i * getr x j)) (W (i + j)%nat))).
Proof.
  intros Hb Hx. assert (Lb : (0 < length b)%nat) by (destruct b; [congruence|simpl; lia]). assert (Lx : (0 < length x)%nat) by (destruct x; [congruence|simpl; lia]).
  set (M := (length b + length x - 1)%nat).
  transitivity (csum M (fun n => csum (length b) (fun i => if (i <=? n)%nat then cmul (rc (getr b i * getr x (n - i))) (W n) else rc 0))).
  - apply (sum_ext (HA := CRing_C)). intros n Hn. unfold conv.
    assert (E : rsum (S n) (fun k => getr b k * getr x (n - k)) = rsum (length b) (fun k => if (k <=? n)%nat then getr b k * getr x (n - k) else 0)).
    { destruct (Nat.le_ge_cases (S n) (length b)) as [L|L].
      - symmetry. transitivity (rsum (S n) (fun k => if (k <=? n)%nat then getr b k * getr x (n - k) else 0)).
        + apply (sum_trunc (HA := CRing_R)); auto. intros i Hi. destruct (Nat.leb_spec i n); [lia|reflexivity].
        + apply (sum_ext (HA := CRing_R)). intros i Hi. destruct (Nat.leb_spec i n); [reflexivity|lia].
      - transitivity (rsum (length b) (fun k => getr b k * getr x (n - k))).
        + apply (sum_trunc (HA := CRing_R)); auto. intros i Hi. rewrite (get_out (HA := CRing_R) b) by lia. change (@r0 R CRing_R) with 0. ring.
        + apply (sum_ext (HA := CRing_R)). intros i Hi. destruct (Nat.leb_spec i n); [reflexivity|lia]. }
    change (@rmul R CRing_R) with Rmult. rewrite E. rewrite <- csum_rc. rewrite <- (sum_scal_r (HA := CRing_C)). apply (sum_ext (HA := CRing_C)). intros i Hi. change (@rmul C CRing_C) with cmul.
    destruct (i <=? n)%nat; [reflexivity|]. apply cmul_rc0.
  - rewrite (sum_exchange (HA := CRing_C)). apply (sum_ext (HA := CRing_C)). intros i Hi.
    rewrite (sum_drop (HA := CRing_C) i) by (first [unfold M; lia | intros n Hn; destruct (Nat.leb_spec i n); [lia|reflexivity]]).
    rewrite (sum_ext (HA := CRing_C) (M - i) _ (fun j => cmul (rc (getr b i * getr x j)) (W (i + j)%nat))).
    2:{ intros j Hj. destruct (Nat.leb_spec i (i + j)); [|lia]. now replace (i + j - i)%nat with j by lia. }
    apply (sum_trunc (HA := CRing_C)); [lia|]. intros j Hj. rewrite (get_out (HA := CRing_R) x) by lia. change (@r0 R CRing_R) with 0. rewrite Rmult_0_r. apply cmul_rc0.
Qed.
Lemma conv_full_some (b x : list R) : b <> [] -> x <> [] -> conv_full (HA := CRing_R) x b = mk (length x + length b - 1) (fun n => conv (HA := CRing_R) b x n).
Proof. intros. destruct x; [congruence|]. destruct b; [congruence|]. reflexivity. Qed.
Lemma cis_split w i j : cis (- (w * INR (i + j))) = cmul (cis (- (w * INR i))) (cis (- (w * INR j))).
Proof. rewrite <- cis_add. f_equal. rewrite plus_INR. ring. Qed.
Lemma conv_response (b x : list R) w : b <> [] -> x <> [] -> response (conv_full (HA := CRing_R) x b) w = cmul (response b w) (response x w).
Proof.
  intros Hb Hx. unfold response at 1. unfold wsum. rewrite conv_full_some, mk_length by auto.
  rewrite (sum_ext (HA := CRing_C) _ _ (fun n => cmul (rc (conv (HA := CRing_R) b x n)) (cis (- (w * INR n))))) by (intros n Hn; now rewrite (get_mk (HA := CRing_R))).
  rewrite (Nat.add_comm (length x)). rewrite (conv_weights b x (fun n => cis (- (w * INR n)))) by auto.
  unfold response, wsum. change cmul with (@rmul C CRing_C). rewrite (sum_mul_sum (HA := CRing_C)). apply (sum_ext (HA := CRing_C)). intros i Hi. apply (sum_ext (HA := CRing_C)). intros j Hj.
  change (@rmul C CRing_C) with cmul. rewrite cis_split. apply c_ext; simpl; ring.
Qed.
Lemma conv_ramped (b x : list R) w : b <> [] -> x <> [] ->
  ramped (conv_full (HA := CRing_R) x b) w = cadd (cmul (ramped b w) (response x w)) (cmul (response b w) (ramped x w)).
Proof.
  intros Hb Hx. unfold ramped at 1. unfold wsum. rewrite conv_full_some, mk_length by auto.
  rewrite (sum_ext (HA := CRing_C) _ _ (fun n => cmul (rc (conv (HA := CRing_R) b x n)) (cmul (rc (INR n)) (cis (- (w * INR n)))))).
  2:{ intros n Hn. rewrite (get_mk (HA := CRing_R)) by auto. apply c_ext; simpl; ring. }
  rewrite (Nat.add_comm (length x)). rewrite (conv_weights b x (fun n => cmul (rc (INR n)) (cis (- (w * INR n))))) by auto.
  unfold response, ramped, wsum. change cmul with (@rmul C CRing_C). rewrite !(sum_mul_sum (HA := CRing_C)). change cadd with (@radd C CRing_C). rewrite <- (sum_add (HA := CRing_C)).
  apply (sum_ext (HA := CRing_C)). intros i Hi. rewrite <- (sum_add (HA := CRing_C)). apply (sum_ext (HA := CRing_C)). intros j Hj.
  change (@rmul C CRing_C) with cmul. change (@radd C CRing_C) with cadd. rewrite cis_split, plus_INR. apply c_ext; simpl; ring.
Qed.
Lemma cis_neg_conj w : cis (- w) = cconj (cis w).
Proof. unfold cis, cconj. simpl. now rewrite cos_neg, sin_neg. Qed.
(** reversed taps *)
Lemma rev_response (a : list R) w : a <> [] -> response (rev a) w = cmul (cis (- (w * INR (length a - 1)))) (cconj (response a w)).
Proof.
  intros Ha. unfold response, wsum. rewrite rev_length. rewrite csum_conj, <- (sum_scal_l (HA := CRing_C)). rewrite (sum_rev (HA := CRing_C)). apply (sum_ext (HA := CRing_C)). intros i Hi.
  change (@rmul C CRing_C) with cmul. assert (G : getr (rev a) (length a - 1 - i) = getr a i). { unfold get. rewrite rev_nth by lia. f_equal. lia. } rewrite G.
  rewrite cconj_mul, <- cis_neg_conj, Ropp_involutive. assert (Cr : cconj (rc (getr a i)) = rc (getr a i)) by (apply c_ext; simpl; ring). rewrite Cr.
  rewrite !cmul_assoc, (cmul_comm (cis _) (rc _)), <- cmul_assoc. f_equal. rewrite <- cis_add. f_equal. replace (length a - 1)%nat with ((length a - 1 - i) + i)%nat at 2 by lia. rewrite plus_INR. ring.
Qed.
Lemma rev_ramped (a : list R) w : a <> [] -> ramped (rev a) w = cmul (cis (- (w * INR (length a - 1)))) (csub (cmul (rc (INR (length a - 1))) (cconj (response a w))) (cconj (ramped a w))).
Proof.
  intros Ha. unfold response, ramped, wsum. rewrite rev_length. rewrite !csum_conj, <- (sum_scal_l (HA := CRing_C)). change csub with (@rsub C CRing_C). rewrite <- (sum_sub (HA := CRing_C)).
  rewrite <- (sum_scal_l (HA := CRing_C)). rewrite (sum_rev (HA := CRing_C)). apply (sum_ext (HA := CRing_C)). intros i Hi.
  change (@rmul C CRing_C) with cmul. change (@rsub C CRing_C) with csub. assert (G : getr (rev a) (length a - 1 - i) = getr a i). { unfold get. rewrite rev_nth by lia. f_equal. lia. } rewrite G.
  rewrite !cconj_mul, <- !cis_neg_conj, !Ropp_involutive. assert (Cr : forall v, cconj (rc v) = rc v) by (intros; apply c_ext; simpl; ring). rewrite !Cr.
  assert (Ei : INR (length a - 1 - i) = INR (length a - 1) - INR i) by (rewrite minus_INR by lia; reflexivity). rewrite Ei.
  replace (- (w * (INR (length a - 1) - INR i))) with (- (w * INR (length a - 1)) + w * INR i) by ring. rewrite cis_add.
  set (e := cis (- (w * INR (length a - 1)))). set (f := cis (w * INR i)). clearbody e f. apply c_ext; simpl; ring.
Qed.
