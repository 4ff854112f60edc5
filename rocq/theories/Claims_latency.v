(** C30: latency by correlation. *)
From Coq Require Import List Arith Lia ZArith Bool Reals Lra Psatz.
From Verif Require Import Alg Spec M_arrays P_arrays Dft P_ar M_welch P_welch M_latency Claims_signal.
Import ListNotations.
Local Open Scope R_scope.

(** ** Specification *)
(** y is x delayed by d samples (earlier when d < 0) and scaled by g; both are taken as zero outside their length. *)
Definition is_delayed (g : R) (d : Z) (x y : list R) : Prop := forall t : Z, zat y t = g * zat x (t - d).
Definition nonzero (x : list R) : Prop := exists t : Z, zat x t <> 0.

(** ** argmax *)
Lemma argmax_go_spec l : forall i bi b p, (forall j, (j < length l)%nat -> (i + j <> p)%nat -> nth j l 0 < nth (p - i) l 0 \/ (bi = p /\ nth j l 0 < b)) ->
  (bi = p /\ (forall j, (j < length l)%nat -> nth j l 0 < b)) \/ ((i <= p < i + length l)%nat /\ b < nth (p - i) l 0 /\ forall j, (j < length l)%nat -> (i + j <> p)%nat -> nth j l 0 < nth (p - i) l 0) ->
  argmax_go l i bi b = p.
Proof.
  induction l as [|v l IH]; intros i bi b p _ H.
  - destruct H as [[-> _]|[H _]]; auto. simpl in H. lia.
  - cbn [argmax_go]. destruct H as [[-> H]|[Hp [Hb H]]].
    + pose proof (H 0%nat ltac:(simpl; lia)) as H0. cbn [nth] in H0. destruct (Rlt_dec b v); [lra|].
      assert (K : forall j, (j < length l)%nat -> nth j l 0 < b) by (intros j Hj; apply (H (S j)); simpl; lia).
      apply IH. intros j Hj _. right. auto. left. auto.
    + simpl length in Hp. destruct (Nat.eq_dec p i) as [->|Hne].
      * rewrite Nat.sub_diag in *. cbn [nth] in *. destruct (Rlt_dec b v); [|lra].
        assert (K : forall j, (j < length l)%nat -> nth j l 0 < v) by (intros j Hj; apply (H (S j)); simpl; lia).
        apply IH. intros j Hj _. right. auto. left. auto.
      * assert (E : (p - i = S (p - S i))%nat) by lia. rewrite E in *. cbn [nth] in *.
        assert (K : forall j, (j < length l)%nat -> (S i + j <> p)%nat -> nth j l 0 < nth (p - S i) l 0) by (intros j Hj Hne'; apply (H (S j)); simpl; lia).
        destruct (Rlt_dec b v); apply IH; auto; right; repeat split; auto; try lia.
        apply (H 0%nat); simpl; lia.
Qed.
Lemma argmax_unique l p : (p < length l)%nat -> (forall j, (j < length l)%nat -> j <> p -> nth j l 0 < nth p l 0) -> argmax l = p.
Proof.
  destruct l as [|v l]; intros Hp H. simpl in Hp; lia. cbn [argmax]. assert (D : p = 0%nat \/ (1 <= p)%nat) by lia. destruct D as [->|D].
  - assert (K : forall j, (j < length l)%nat -> nth j l 0 < v) by (intros j Hj; apply (H (S j)); simpl; lia).
    apply argmax_go_spec; [intros; right; auto|left; auto].
  - assert (E : (p = S (p - 1))%nat) by lia. assert (K : forall j, (j < length l)%nat -> (1 + j <> p)%nat -> nth j l 0 < nth (p - 1) l 0).
    { intros j Hj Hne. rewrite E in H. apply (H (S j)); simpl; lia. }
    apply argmax_go_spec; [intros; left; auto|]. right. simpl in Hp. repeat split; auto; try lia. rewrite E in H. apply (H 0%nat); simpl; lia.
Qed.

(** ** Strict Cauchy-Schwarz for shifts *)
Lemma zat_nat x i : zat x (Z.of_nat i) = get (HA := CRing_R) x i.
Proof. unfold zat. destruct (Z.ltb_spec (Z.of_nat i) 0); [lia|]. now rewrite Nat2Z.id. Qed.
Lemma zat_out x t : (t < 0 \/ Z.of_nat (length x) <= t)%Z -> zat x t = 0.
Proof. intros H. unfold zat. destruct (Z.ltb_spec t 0); auto. apply gout. lia. Qed.
(** Any N consecutive samples have at most the energy of the signal. *)
Lemma energy_window x (m : Z) N : rsum N (fun l => zat x (Z.of_nat l + m) * zat x (Z.of_nat l + m)) <= rsum (length x) (fun l => get (HA := CRing_R) x l * get (HA := CRing_R) x l).
Proof.
  set (f := fun t => zat x t * zat x t). assert (F0 : forall t, 0 <= f t) by (intros t; apply Rle_0_sqr).
  assert (P : forall N, rsum N (fun l => f (Z.of_nat l)) <= rsum (length x) (fun l => get (HA := CRing_R) x l * get (HA := CRing_R) x l)).
  { intros M. assert (G : rsum (length x) (fun l => get (HA := CRing_R) x l * get (HA := CRing_R) x l) = rsum (length x) (fun l => f (Z.of_nat l))) by (apply rsum_ext; intros; unfold f; now rewrite zat_nat).
    rewrite G. destruct (le_lt_dec M (length x)).
    - replace (length x) with (M + (length x - M))%nat by lia. rewrite (sum_split (HA := CRing_R)). pose proof (rsum_nonneg (length x - M) (fun i => f (Z.of_nat (M + i))) (fun i _ => F0 _)). change (@radd R CRing_R) with Rplus. lra.
    - right. apply (sum_trunc (HA := CRing_R)); [lia|]. intros i Hi. unfold f. rewrite zat_out by lia. cbn. ring. }
  destruct (Z.le_gt_cases 0 m).
  - eapply Rle_trans; [|apply (P (Z.to_nat m + N)%nat)]. rewrite (sum_split (HA := CRing_R)). pose proof (rsum_nonneg (Z.to_nat m) (fun l => f (Z.of_nat l)) (fun i _ => F0 _)). change (@radd R CRing_R) with Rplus.
    rewrite (rsum_ext N (fun l => zat x (Z.of_nat l + m) * zat x (Z.of_nat l + m)) (fun i => f (Z.of_nat (Z.to_nat m + i)))). lra. intros i Hi. unfold f. f_equal; f_equal; lia.
  - destruct (le_lt_dec N (Z.to_nat (- m))).
    + rewrite rsum_0. apply rsum_nonneg. intros. apply Rle_0_sqr. intros i Hi. rewrite zat_out by lia. ring.
    + replace N with (Z.to_nat (- m) + (N - Z.to_nat (- m)))%nat by lia. rewrite (sum_split (HA := CRing_R)). change (@radd R CRing_R) with Rplus. rewrite rsum_0 by (intros i Hi; rewrite zat_out by lia; ring).
      eapply Rle_trans; [|apply (P (N - Z.to_nat (- m))%nat)]. rewrite Rplus_0_l. right. apply rsum_ext. intros i Hi. unfold f. f_equal; f_equal; lia.
Qed.
Lemma last_nonzero x : nonzero x -> exists q, (q < length x)%nat /\ get (HA := CRing_R) x q <> 0 /\ forall t, (q < t)%nat -> get (HA := CRing_R) x t = 0.
Proof.
  intros [t0 Ht]. assert (T : (0 <= t0 < Z.of_nat (length x))%Z). { destruct (Z.ltb_spec t0 0). rewrite zat_out in Ht by lia. congruence. destruct (Z.leb_spec (Z.of_nat (length x)) t0). rewrite zat_out in Ht by lia. congruence. lia. }
  assert (G : forall n, (n <= length x)%nat -> (forall t, (n <= t)%nat -> get (HA := CRing_R) x t = 0) -> exists q, (q < length x)%nat /\ get (HA := CRing_R) x q <> 0 /\ forall t, (q < t)%nat -> get (HA := CRing_R) x t = 0).
  { induction n; intros Hn Hz. exfalso. apply Ht. rewrite <- (Z2Nat.id t0), zat_nat by lia. apply Hz. lia.
    destruct (Req_dec (get (HA := CRing_R) x n) 0). apply IHn; [lia|]. intros t Hnt. destruct (Nat.eq_dec t n) as [->|]; auto. apply Hz. lia.
    exists n. repeat split; auto; lia. }
  apply (G (length x)); auto. intros. now apply gout.
Qed.
Lemma first_nonzero x : nonzero x -> exists q, (q < length x)%nat /\ get (HA := CRing_R) x q <> 0 /\ forall t, (t < q)%nat -> get (HA := CRing_R) x t = 0.
Proof.
  intros [t0 Ht]. assert (T : (0 <= t0)%Z). { destruct (Z.ltb_spec t0 0); auto. rewrite zat_out in Ht by lia. congruence. }
  rewrite <- (Z2Nat.id t0), zat_nat in Ht by lia. remember (Z.to_nat t0) as p. clear - Ht. induction p as [p IH] using lt_wf_ind.
  assert (D : (exists t, (t < p)%nat /\ get (HA := CRing_R) x t <> 0) \/ forall t, (t < p)%nat -> get (HA := CRing_R) x t = 0).
  { clear - x. induction p. right. intros; lia. destruct IHp as [[t [H1 H2]]|H]. left. exists t. split; auto. destruct (Req_dec (get (HA := CRing_R) x p) 0).
    right. intros t Ht. destruct (Nat.eq_dec t p) as [->|]; auto. apply H. lia. left. exists p. split; auto. }
  destruct D as [[t [H1 H2]]|H]. now apply (IH t). exists p. split; auto. destruct (le_lt_dec (length x) p); auto. rewrite gout in Ht by auto. congruence.
Qed.
Lemma shift_strict x m : nonzero x -> m <> 0%Z ->
  Rabs (rsum (length x) (fun l => get (HA := CRing_R) x l * zat x (Z.of_nat l + m))) < rsum (length x) (fun l => get (HA := CRing_R) x l * get (HA := CRing_R) x l).
Proof.
  intros Hx Hm. assert (Q : exists q, (q < length x)%nat /\ get (HA := CRing_R) x q <> 0 /\ zat x (Z.of_nat q + m) = 0).
  { destruct (Z.lt_trichotomy m 0) as [N|[N|N]]; [|congruence|].
    - destruct (first_nonzero x Hx) as (q & H1 & H2 & H3). exists q. repeat split; auto. destruct (Z.ltb_spec (Z.of_nat q + m) 0). apply zat_out; lia. rewrite <- (Z2Nat.id (Z.of_nat q + m)), zat_nat by lia. apply H3. lia.
    - destruct (last_nonzero x Hx) as (q & H1 & H2 & H3). exists q. repeat split; auto. rewrite <- (Z2Nat.id (Z.of_nat q + m)), zat_nat by lia. apply H3. lia. }
  destruct Q as (q & Hq & Q1 & Q2). set (N := length x). set (E := rsum N (fun l => get (HA := CRing_R) x l * get (HA := CRing_R) x l)). set (c := rsum N _).
  pose proof (energy_window x m N) as W. fold N E in W. set (E' := rsum N _) in W.
  assert (S : forall s, s = 1 \/ s = -1 -> get (HA := CRing_R) x q * get (HA := CRing_R) x q <= E + E' + 2 * s * c).
  { intros s Hs. replace (E + E' + 2 * s * c) with (rsum N (fun l => (get (HA := CRing_R) x l + s * zat x (Z.of_nat l + m)) * (get (HA := CRing_R) x l + s * zat x (Z.of_nat l + m)))).
    - eapply Rle_trans; [|apply (rsum_term N _ q); auto; intros; apply Rle_0_sqr]. cbv beta. rewrite Q2. right. ring.
    - unfold E, E', c. rewrite <- rsum_scal, <- !rsum_plus. apply rsum_ext. intros l Hl. destruct Hs as [-> | ->]; ring. }
  assert (0 < get (HA := CRing_R) x q * get (HA := CRing_R) x q) by nra. pose proof (S 1 ltac:(auto)). pose proof (S (-1) ltac:(auto)). apply Rabs_def1; lra.
Qed.
Lemma delayed_range g d x y : nonzero x -> g <> 0 -> is_delayed g d x y -> (- Z.of_nat (length x) < d < Z.of_nat (length y))%Z.
Proof.
  intros [t Ht] Hg D. specialize (D (t + d)%Z). replace (t + d - d)%Z with t in D by lia.
  assert (T : (0 <= t < Z.of_nat (length x))%Z). { split; apply Z.nlt_ge || apply Z.nle_gt; intros C; apply Ht; apply zat_out; lia. }
  assert (U : zat y (t + d) <> 0) by (rewrite D; now apply Rmult_integral_contrapositive_currified).
  assert (V : (0 <= t + d < Z.of_nat (length y))%Z). { split; apply Z.nlt_ge || apply Z.nle_gt; intros C; apply U; apply zat_out; lia. } lia.
Qed.
(** One channel: any non-zero signal, any delay (also negative), any non-zero gain (also negative). *)
Theorem C30_pair_exact : forall x y g d, nonzero x -> g <> 0 -> is_delayed g d x y -> latency_pair x y = d.
Proof.
  intros x y g d Hx Hg D. pose proof (delayed_range g d x y Hx Hg D) as Rg. unfold latency_pair.
  set (E := rsum (length x) (fun l => get (HA := CRing_R) x l * get (HA := CRing_R) x l)). set (p := Z.to_nat (Z.of_nat (length y) - 1 - d)).
  rewrite (argmax_unique _ p). lia.
  - rewrite map_length. unfold correlate1. rewrite mk_length. lia.
  - assert (V : forall j, (j < length x + length y - 1)%nat -> nth j (map Rabs (correlate1 x y)) 0 = Rabs g * Rabs (rsum (length x) (fun l => get (HA := CRing_R) x l * zat x (Z.of_nat l + (Z.of_nat p - Z.of_nat j))))).
    { intros j Hj. rewrite (nth_indep _ 0 (Rabs 0)) by (rewrite map_length; unfold correlate1; rewrite mk_length; auto). rewrite map_nth. unfold correlate1. rewrite nth_mk by auto. rewrite <- Rabs_mult. f_equal. rewrite <- rsum_scal. apply rsum_ext.
      intros l Hl. rewrite D. replace (Z.of_nat l - Z.of_nat j + Z.of_nat (length y) - 1 - d)%Z with (Z.of_nat l + (Z.of_nat p - Z.of_nat j))%Z by lia. ring. }
    intros j Hj Hne. rewrite map_length in Hj. unfold correlate1 in Hj. rewrite mk_length in Hj. rewrite !V by lia. apply Rmult_lt_compat_l. now apply Rabs_pos_lt.
    eapply Rlt_le_trans; [apply shift_strict; auto; lia|]. eapply Rle_trans; [|apply Rle_abs]. right. apply rsum_ext. intros l Hl. replace (Z.of_nat l + (Z.of_nat p - Z.of_nat p))%Z with (Z.of_nat l) by lia. now rewrite zat_nat.
Qed.
Print Assumptions C30_pair_exact.
Theorem C30_two_signals_exact :
  forall (x y : list (list R)) (g : nat -> R) (d : nat -> Z), length y = length x ->
  (forall c, (c < length x)%nat -> nonzero (nth c x []) /\ g c <> 0 /\ is_delayed (g c) (d c) (nth c x []) (nth c y [])) ->
  exists corr, latency y (Some x) = Ok (mk (length x) d, corr).
Proof.
  intros x y g d HL H. unfold latency. rewrite HL, Nat.eqb_refl. cbn [negb]. eexists. f_equal. f_equal. unfold latency_two. rewrite HL. apply mk_eq. intros c Hc.
  destruct (H c Hc) as (H1 & H2 & H3). eapply C30_pair_exact; eauto.
Qed.
Print Assumptions C30_two_signals_exact.
(** Swapping the roles negates the result. *)
Theorem C30_antisymmetric :
  forall x y g d, nonzero x -> g <> 0 -> is_delayed g d x y -> latency_pair y x = (- latency_pair x y)%Z.
Proof.
  intros x y g d Hx Hg D. rewrite (C30_pair_exact x y g d) by auto. apply (C30_pair_exact y x (/ g)).
  - destruct Hx as [t Ht]. exists (t + d)%Z. rewrite D. replace (t + d - d)%Z with t by lia. now apply Rmult_integral_contrapositive_currified.
  - now apply Rinv_neq_0_compat.
  - intros t. rewrite D. replace (t - - d - d)%Z with t by lia. field. auto.
Qed.
Print Assumptions C30_antisymmetric.
(** The correlation of a delayed copy is the sign of the gain, whenever the compared stretch s is not constant. *)
Lemma mean_scale g (s : list R) : mean (map (Rmult g) s) = g * mean s.
Proof. unfold mean. rewrite map_length. assert (E : fold_right Rplus 0 (map (Rmult g) s) = g * fold_right Rplus 0 s) by (induction s; cbn; [ring|rewrite IHs; ring]). rewrite E. unfold Rdiv. ring. Qed.
Lemma const_var (s : list R) : rsum (length s) (fun i => (get (HA := CRing_R) s i - mean s) * (get (HA := CRing_R) s i - mean s)) = 0 -> forall i j, (i < length s)%nat -> (j < length s)%nat -> get (HA := CRing_R) s i = get (HA := CRing_R) s j.
Proof.
  intros E. assert (Z : forall i, (i < length s)%nat -> get (HA := CRing_R) s i = mean s).
  { intros i Hi. pose proof (rsum_term (length s) (fun i => (get (HA := CRing_R) s i - mean s) * (get (HA := CRing_R) s i - mean s)) i Hi ltac:(intros; apply Rle_0_sqr)) as T. cbv beta in T. rewrite E in T. nra. }
  intros i j Hi Hj. rewrite !Z; auto.
Qed.
Lemma pearson_gain g (s : list R) : g <> 0 -> (2 <= length s)%nat -> (exists i j, (i < length s)%nat /\ (j < length s)%nat /\ get (HA := CRing_R) s i <> get (HA := CRing_R) s j) ->
  pearson (map (Rmult g) s) s = Ok (Some (g / Rabs g)) /\ pearson s (map (Rmult g) s) = Ok (Some (g / Rabs g)).
Proof.
  intros Hg H2 (i & j & Hi & Hj & Hij). unfold pearson. rewrite map_length. destruct (Nat.ltb_spec (length s) 2); [lia|]. rewrite mean_scale. set (m := mean s).
  assert (GM : forall k, get (HA := CRing_R) (map (Rmult g) s) k = g * get (HA := CRing_R) s k). { intros k. unfold get. change (@r0 R CRing_R) with 0. replace 0 with (g * 0) at 1 by ring. apply (map_nth (Rmult g)). }
  set (V := rsum (length s) (fun i => (get (HA := CRing_R) s i - m) * (get (HA := CRing_R) s i - m))).
  assert (V0 : 0 < V). { assert (0 <= V) by (apply rsum_nonneg; intros; apply Rle_0_sqr). destruct (Req_dec V 0) as [Z|]; [|lra]. exfalso. apply Hij. apply (const_var s); auto. }
  assert (VG : rsum (length s) (fun i => (get (HA := CRing_R) (map (Rmult g) s) i - g * m) * (get (HA := CRing_R) (map (Rmult g) s) i - g * m)) = g * g * V) by (unfold V; rewrite <- rsum_scal; apply rsum_ext; intros; rewrite GM; ring).
  assert (C1 : rsum (length s) (fun i => (get (HA := CRing_R) (map (Rmult g) s) i - g * m) * (get (HA := CRing_R) s i - m)) = g * V) by (unfold V; rewrite <- rsum_scal; apply rsum_ext; intros; rewrite GM; ring).
  assert (C2 : rsum (length s) (fun i => (get (HA := CRing_R) s i - m) * (get (HA := CRing_R) (map (Rmult g) s) i - g * m)) = g * V) by (unfold V; rewrite <- rsum_scal; apply rsum_ext; intros; rewrite GM; ring).
  cbv zeta. rewrite VG, C1, C2. fold V. assert (G2 : 0 < g * g) by nra. assert (GV : g * g * V <> 0) by nra. destruct (Req_EM_T (g * g * V) 0); [congruence|]. destruct (Req_EM_T V 0); [lra|].
  assert (SG : sqrt (g * g * V) = Rabs g * sqrt V). { rewrite sqrt_mult_alt by lra. f_equal. apply sqrt_Rsqr_abs. }
  assert (S0 : 0 < sqrt V) by now apply sqrt_lt_R0. assert (SS : sqrt V * sqrt V = V) by (apply sqrt_sqrt; lra). assert (A0 : 0 < Rabs g) by now apply Rabs_pos_lt.
  rewrite SG. assert (K : g * V / (Rabs g * sqrt V * sqrt V) = g / Rabs g) by (rewrite Rmult_assoc, SS; field; split; lra).
  split; do 2 f_equal. exact K. rewrite <- K. f_equal. ring.
Qed.
(** the part of x that both signals contain after removing the delay *)
Definition overlap_part (x y : list R) (d : Z) : list R :=
  let a := Z.to_nat (- d) in let b := Z.to_nat d in firstn (Nat.min (length x - a) (length y - b)) (skipn a x).
Theorem C30_correlation_is_sign :
  forall x y g d, nonzero x -> g <> 0 -> is_delayed g d x y -> (2 <= length (overlap_part x y d))%nat ->
  (exists i j, (i < length (overlap_part x y d))%nat /\ (j < length (overlap_part x y d))%nat /\ get (HA := CRing_R) (overlap_part x y d) i <> get (HA := CRing_R) (overlap_part x y d) j) ->
  latency [y] (Some [x]) = Ok ([d], [Some (g / Rabs g)]).
Proof.
  intros x y g d Hx Hg D H2 Hc. unfold latency. cbn [length Nat.eqb negb]. pose proof (C30_pair_exact x y g d Hx Hg D) as E.
  assert (L : latency_two [y] [x] = [d]) by (unfold latency_two; cbn [length mk seq map nth]; now rewrite E). rewrite L. cbn [length mk seq map nth]. f_equal. f_equal.
  pose proof (delayed_range g d x y Hx Hg D) as Rg. set (s := overlap_part x y d) in *.
  assert (Q : latency_correlation x y d = Ok (Some (g / Rabs g))); [|now rewrite Q].
  destruct (pearson_gain g s Hg H2 Hc) as [P1 P2]. unfold latency_correlation.
  assert (Ls : length s = Nat.min (length x - Z.to_nat (- d)) (length y - Z.to_nat d)) by (unfold s, overlap_part; rewrite firstn_length, skipn_length; lia).
  assert (Gs : forall i, (i < length s)%nat -> get (HA := CRing_R) s i = get (HA := CRing_R) x (Z.to_nat (- d) + i)). { intros i Hi. unfold s, overlap_part. rewrite (get_firstn (HA := CRing_R)), (get_skipn (HA := CRing_R)). rewrite Ls in Hi. destruct (Nat.ltb_spec i (Nat.min (length x - Z.to_nat (- d)) (length y - Z.to_nat d))); [auto|lia]. }
  assert (GM : forall k, get (HA := CRing_R) (map (Rmult g) s) k = g * get (HA := CRing_R) s k). { intros k. unfold get. change (@r0 R CRing_R) with 0. replace 0 with (g * 0) at 1 by ring. apply (map_nth (Rmult g)). }
  destruct (Z.ltb_spec 0 d).
  - rewrite skipn_length. set (n := Nat.min _ _). assert (Ln : n = length s) by (unfold n; lia).
    replace (firstn n (skipn (Z.to_nat (Z.abs d)) y)) with (map (Rmult g) s). replace (firstn n x) with s; auto.
    + unfold s, overlap_part. replace (Z.to_nat (- d)) with 0%nat by lia. cbn [skipn]. f_equal. lia.
    + apply (get_ext (HA := CRing_R)). rewrite map_length, firstn_length, skipn_length. lia. intros i Hi. rewrite map_length in Hi. rewrite GM, Gs, (get_firstn (HA := CRing_R)), (get_skipn (HA := CRing_R)) by auto. destruct (Nat.ltb_spec i n); [|lia].
      rewrite <- !zat_nat. rewrite D. f_equal. f_equal. lia.
  - rewrite skipn_length. set (n := Nat.min _ _). assert (Ln : n = length s) by (unfold n; lia).
    replace (firstn n (skipn (Z.to_nat (Z.abs d)) x)) with s. replace (firstn n y) with (map (Rmult g) s); auto.
    + apply (get_ext (HA := CRing_R)). rewrite map_length, firstn_length. lia. intros i Hi. rewrite map_length in Hi. rewrite GM, Gs, (get_firstn (HA := CRing_R)) by auto. destruct (Nat.ltb_spec i n); [|lia].
      rewrite <- !zat_nat. rewrite D. f_equal. f_equal. lia.
    + unfold s, overlap_part. f_equal; [lia|]. f_equal. lia.
Qed.
Print Assumptions C30_correlation_is_sign.
(** Single-signal form: the latencies of channels 1, 2, ..., against channel 0 come out in reversed order. *)
Theorem C30_single_signal_reversed :
  forall in1, (1 < length in1)%nat -> (forall c, (c < length in1)%nat -> length (nth c in1 []) = length (hd [] in1)) ->
  exists corr, latency in1 None = Ok (rev (mk (length in1 - 1) (fun c => latency_pair (hd [] in1) (nth (c + 1) in1 []))), corr).
Proof.
  intros in1 Hc HL. unfold latency. destruct (Nat.leb_spec (length in1) 1); [lia|]. eexists. f_equal. f_equal. unfold latency_one, correlate2.
  destruct in1 as [|x ys]; [simpl in Hc; lia|]. cbn [hd tl] in *. cbn [length] in *. replace (1 + length ys - 1)%nat with (length ys) by lia. replace (S (length ys) - 1)%nat with (length ys) by lia.
  assert (Lh : length (hd [] ys) = length x). { destruct ys as [|y ys]; [simpl in Hc; lia|]. cbn [hd]. apply (HL 1%nat). simpl; lia. }
  rewrite map_mk. apply (nth_ext _ _ 0%Z 0%Z). now rewrite rev_length, !mk_length. rewrite mk_length. intros k Hk. rewrite nth_mk by auto. rewrite rev_nth by now rewrite mk_length. rewrite mk_length. rewrite nth_mk by lia.
  replace (length ys - S k + 1)%nat with (S (length ys - S k)) by lia. cbn [nth]. unfold latency_pair, correlate1.
  assert (Ly : length (nth (length ys - S k) ys []) = length x) by (apply (HL (S (length ys - S k))); lia). rewrite Ly, Lh. f_equal. f_equal. f_equal. f_equal. f_equal. apply mk_eq. intros k0 Hk0.
  cbn [sum nth]. change (@radd R CRing_R) with Rplus. change (@r0 R CRing_R) with 0. rewrite Rplus_0_l. destruct (Z.ltb_spec (Z.of_nat 0 - Z.of_nat k + Z.of_nat (length ys) - 1) 0); [lia|].
  replace (Z.to_nat (Z.of_nat 0 - Z.of_nat k + Z.of_nat (length ys) - 1)) with (length ys - S k)%nat by lia. reflexivity.
Qed.
Print Assumptions C30_single_signal_reversed.
(** Two channels: nothing to reverse. *)
Theorem C30_single_signal_two_channels :
  forall x y g d, length y = length x -> nonzero x -> g <> 0 -> is_delayed g d x y -> exists corr, latency [x; y] None = Ok ([d], corr).
Proof.
  intros x y g d HL Hx Hg D. destruct (C30_single_signal_reversed [x; y]) as [corr E]. simpl; lia. intros [|[|c]] Hc; auto. simpl in Hc; lia.
  exists corr. rewrite E. cbn. now rewrite (C30_pair_exact x y g d).
Qed.
Print Assumptions C30_single_signal_two_channels.
Definition witness := [[1; 0; 0]; [0; 1; 0]; [0; 0; 1]].
Lemma witness_delays : (forall c, (c < 3)%nat -> is_delayed 1 (Z.of_nat c) [1; 0; 0] (nth c witness [])) /\ nonzero [1; 0; 0].
Proof.
  assert (P : forall t, zat [1; 0; 0] t = if (t =? 0)%Z then 1 else 0).
  { intros t. destruct (Z.eqb_spec t 0) as [->|]. reflexivity. destruct (Z.ltb_spec t 0). apply zat_out; auto. rewrite <- (Z2Nat.id t), zat_nat by lia. destruct (Z.to_nat t) as [|[|[|k]]] eqn:E; try reflexivity. lia. cbn. now destruct k. }
  split. 2:{ exists 0%Z. cbn. lra. }
  intros c Hc t. rewrite P. destruct (Z.ltb_spec t 0). rewrite zat_out by auto. destruct (Z.eqb_spec (t - Z.of_nat c) 0); [lia|]. ring.
  rewrite <- (Z2Nat.id t), zat_nat by lia. generalize (Z.to_nat t) as n. intros n. destruct (le_lt_dec 3 n).
  - rewrite gout. destruct (Z.eqb_spec (Z.of_nat n - Z.of_nat c) 0); [lia|]. ring. destruct c as [|[|[|c]]]; simpl; lia.
  - destruct c as [|[|[|c]]]; [| | |lia]; destruct n as [|[|[|n]]]; try lia; cbn; ring.
Qed.
Theorem C30_single_signal_refuted :
  ~ (forall in1 (d : nat -> Z) lat corr, (1 < length in1)%nat -> nonzero (hd [] in1) -> (forall c, (c < length in1)%nat -> length (nth c in1 []) = length (hd [] in1)) ->
      (forall c, (c < length in1)%nat -> is_delayed 1 (d c) (hd [] in1) (nth c in1 [])) -> latency in1 None = Ok (lat, corr) -> forall c, (c < length in1 - 1)%nat -> nth c lat 0%Z = d (c + 1)%nat).
Proof.
  intros H. destruct witness_delays as [W Nz]. destruct (C30_single_signal_reversed witness) as [corr E]. simpl; lia. intros [|[|[|c]]] Hc; auto. simpl in Hc; lia.
  specialize (H witness Z.of_nat _ corr ltac:(simpl; lia) Nz ltac:(intros [|[|[|c]]] Hc; auto; simpl in Hc; lia) ltac:(intros; apply W; auto) E 0%nat ltac:(simpl; lia)).
  cbn [witness length hd Nat.sub mk seq map rev app nth Nat.add] in H. rewrite (C30_pair_exact [1; 0; 0] [0; 0; 1] 1 2) in H; [discriminate H|auto|lra|apply (W 2%nat); lia].
Qed.
Print Assumptions C30_single_signal_refuted.
Example C30_example : nonzero [1; 0; 0] /\ is_delayed 1 2 [1; 0; 0] [0; 0; 1] /\ (exists corr, latency [[0; 1; 0]; [0; 0; 1]] (Some [[1; 0; 0]; [1; 0; 0]]) = Ok ([1; 2]%Z, corr)).
Proof.
  destruct witness_delays as [W Nz]. split; auto. split. apply (W 2%nat); lia.
  apply (C30_two_signals_exact [[1; 0; 0]; [1; 0; 0]] [[0; 1; 0]; [0; 0; 1]] (fun _ => 1) (fun c => Z.of_nat (c + 1))). reflexivity.
  intros [|[|c]] Hc; cbn [nth]; [| |simpl in Hc; lia]; (split; [auto|]); (split; [lra|]). apply (W 1%nat); lia. apply (W 2%nat); lia.
Qed.
(** End to end with the library's own delay. *)
Theorem C30_latency_of_delay :
  forall (td : list (list R)) d len, td <> [] -> Forall (fun col => length col = len) td -> (forall c, (c < length td)%nat -> nonzero (nth c td [])) ->
  exists out corr, delay_td d None false td = Ok out /\ latency out (Some td) = Ok (repeat (Z.of_nat d) (length td), corr).
Proof.
  intros td d len Hne HF Hn. assert (G : exists out, delay_td d None false td = Ok out /\ length out = length td /\ forall c, (c < length td)%nat -> is_delayed 1 (Z.of_nat d) (nth c td []) (nth c out [])).
  { destruct (Nat.eq_dec d 0) as [->|Hd].
    - exists td. split; [reflexivity|]. split; auto. intros c Hc t. replace (t - Z.of_nat 0)%Z with t by lia. ring.
    - destruct (C25_delay_samples R CRing_R d None false td len) as (out & E & HL & HC); auto; try lia; try discriminate.
      + destruct td; [congruence|]. discriminate.
      + apply FinFun.Injective_map_NoDup. intros a b Hab. lia. apply seq_NoDup.
      + intros z Hz. apply in_map_iff in Hz as (k & <- & Hk). apply in_seq in Hk. lia.
      + exists out. split; auto. split; auto. intros c Hc t. destruct (HC c Hc) as [Lc Vc]. assert (Ltd : length (nth c td []) = len) by (rewrite Forall_forall in HF; apply HF; now apply nth_In).
        destruct (Z.ltb_spec t 0). rewrite !zat_out by lia. ring. destruct (Z.leb_spec (Z.of_nat (len + d)) t). rewrite !zat_out by lia. ring.
        rewrite <- (Z2Nat.id t), zat_nat by lia. rewrite Vc by lia. replace (existsb _ _) with true.
        2:{ symmetry. apply existsb_exists. exists (Z.of_nat c). split. apply in_map_iff. exists c. split; auto. apply in_seq. lia. rewrite Z.eqb_refl. reflexivity. }
        destruct (Nat.ltb_spec (Z.to_nat t) d). rewrite zat_out by lia. cbn; ring. replace (Z.of_nat (Z.to_nat t) - Z.of_nat d)%Z with (Z.of_nat (Z.to_nat t - d)) by lia. rewrite zat_nat. ring. }
  destruct G as (out & E & HL & HD). destruct (C30_two_signals_exact td out (fun _ => 1) (fun _ => Z.of_nat d)) as [corr L]; auto.
  exists out, corr. split; auto. rewrite L. now rewrite mk_const.
Qed.
Print Assumptions C30_latency_of_delay.
