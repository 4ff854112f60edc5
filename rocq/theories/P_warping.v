(** First-order sections as recursions on sequences: energy, commutation, convolution and symmetry of the Laguerre kernels. *)
From Coq Require Import List Arith Lia ZArith Bool Reals Lra.
From Verif Require Import Alg Spec Dft M_arrays M_filter P_filter M_transforms.
Import ListNotations.
Local Open Scope R_scope.

Fixpoint fo (b0 b1 a1 : R) (u : nat -> R) (n : nat) : R :=
  match n with O => b0 * u 0%nat | S m => b0 * u (S m) + b1 * u m - a1 * fo b0 b1 a1 u m end.
Lemma fo_ext b0 b1 a1 u v n : (forall m, (m <= n)%nat -> u m = v m) -> fo b0 b1 a1 u n = fo b0 b1 a1 v n.
Proof. induction n; intros H; cbn [fo]. now rewrite H. rewrite !H by lia. rewrite IHn; auto. Qed.
Lemma conv_two (c0 c1 : R) (x : list R) n : conv [c0; c1] x n = c0 * get x n + c1 * match n with O => 0 | S m => get x m end.
Proof.
  unfold conv. destruct n as [|n].
  - cbn [sum Nat.sub]. unfold get. cbn [nth]. change (@r0 R CRing_R) with 0. change (@radd R CRing_R) with Rplus. change (@rmul R CRing_R) with Rmult. ring.
  - rewrite !(sum_S_front (HA := CRing_R)). rewrite (sum_zero' (HA := CRing_R)). 2:{ intros i Hi. assert (G : get [c0; c1] (S (S i)) = 0) by (unfold get; cbn [nth]; now destruct i). rewrite G. change (@r0 R CRing_R) with 0. change (@rmul R CRing_R) with Rmult. ring. }
    unfold get. cbn [nth]. rewrite Nat.sub_0_r. replace (S n - 1)%nat with n by lia. change (@r0 R CRing_R) with 0. change (@radd R CRing_R) with Rplus. change (@rmul R CRing_R) with Rmult. ring.
Qed.
Lemma conv_one (c0 : R) (x : list R) n : conv [c0] x n = c0 * get x n.
Proof.
  unfold conv. rewrite (sum_S_front (HA := CRing_R)). rewrite (sum_zero' (HA := CRing_R)). 2:{ intros i Hi. assert (G : get [c0] (S i) = 0) by (unfold get; cbn [nth]; now destruct i). rewrite G. change (@r0 R CRing_R) with 0. change (@rmul R CRing_R) with Rmult. ring. }
  unfold get. cbn [nth]. rewrite Nat.sub_0_r. change (@r0 R CRing_R) with 0. change (@radd R CRing_R) with Rplus. change (@rmul R CRing_R) with Rmult. ring.
Qed.
Lemma lf_two b0 b1 a1 x : let y := fst (lfilter [b0; b1] [1; a1] x [0]) in length y = length x /\ forall n, (n < length x)%nat -> get y n = fo b0 b1 a1 (get x) n.
Proof.
  cbv zeta. destruct (lfilter_diff (HA := CRing_R) [b0; b1] [1; a1] x [0] ltac:(reflexivity) ltac:(simpl; lia) ltac:(simpl; lia)) as (L & D). split; auto.
  set (y := fst _) in *. induction n as [|n IH]; intros Hn; specialize (D _ Hn); rewrite !conv_two in D; change (@radd R CRing_R) with Rplus in D.
  - change (get [0] 0) with 0 in D. cbn [fo]. lra.
  - rewrite IH in D by lia. cbn [fo]. assert (G : get [0] (S n) = 0) by (unfold get; cbn [nth]; now destruct n). rewrite G in D. lra.
Qed.
Lemma lf_one b0 a1 x : let y := fst (lfilter [b0] [1; a1] x [0]) in length y = length x /\ forall n, (n < length x)%nat -> get y n = fo b0 0 a1 (get x) n.
Proof.
  cbv zeta. destruct (lfilter_diff (HA := CRing_R) [b0] [1; a1] x [0] ltac:(reflexivity) ltac:(simpl; lia) ltac:(simpl; lia)) as (L & D). split; auto.
  set (y := fst _) in *. induction n as [|n IH]; intros Hn; specialize (D _ Hn); rewrite conv_two, conv_one in D; change (@radd R CRing_R) with Rplus in D.
  - change (get [0] 0) with 0 in D. cbn [fo]. lra.
  - rewrite IH in D by lia. cbn [fo]. assert (G : get [0] (S n) = 0) by (unfold get; cbn [nth]; now destruct n). rewrite G in D. lra.
Qed.

Section Lag.
Variables (l g : R).
Hypothesis norm : g * g + l * l = 1.
(** normalised state and allpass output *)
Definition st (u : nat -> R) := fo g 0 l u.
Definition ap (u : nat -> R) := fo l 1 l u.
Lemma ap_st u n : ap u n = l * u n + g * match n with O => 0 | S m => st u m end.
Proof.
  induction n as [|n IH]. unfold ap. cbn [fo]. ring. unfold ap in *. cbn [fo]. rewrite IH. destruct n; unfold st; cbn [fo].
  - replace (1 * u 0%nat) with ((g * g + l * l) * u 0%nat) by (rewrite norm; ring). ring.
  - replace (1 * u (S n)) with ((g * g + l * l) * u (S n)) by (rewrite norm; ring). ring.
Qed.
Lemma ap_energy u n : rsum n (fun t => u t * u t) = rsum n (fun t => ap u t * ap u t) + match n with O => 0 | S m => st u m * st u m end.
Proof.
  induction n as [|n IH]. cbn [sum]. change (@r0 R CRing_R) with 0. ring. cbn [sum]. change (@radd R CRing_R) with Rplus. rewrite IH. rewrite ap_st. destruct n; unfold st; cbn [fo].
  - cbn [sum]. change (@r0 R CRing_R) with 0. replace (u 0%nat * u 0%nat) with ((g * g + l * l) * (u 0%nat * u 0%nat)) by (rewrite norm; ring). ring.
  - set (s := fo g 0 l u n). set (A := rsum _ _). replace (u (S n) * u (S n)) with ((g * g + l * l) * (u (S n) * u (S n))) by (rewrite norm; ring).
    replace (s * s) with ((g * g + l * l) * (s * s)) by (rewrite norm; ring). ring.
Qed.
Lemma commute u n : ap (st u) n = st (ap u) n.
Proof.
  induction n as [|n IH]. unfold ap, st. cbn [fo]. ring.
  change (ap (st u) (S n)) with (l * st u (S n) + 1 * st u n - l * ap (st u) n). change (st (ap u) (S n)) with (g * ap u (S n) + 0 * ap u n - l * st (ap u) n).
  rewrite <- IH, (ap_st u (S n)). change (st u (S n)) with (g * u (S n) + 0 * u n - l * st u n). replace (1 * st u n) with ((g * g + l * l) * st u n) by (rewrite norm; ring). ring.
Qed.
Fixpoint aps (i : nat) (u : nat -> R) : nat -> R := match i with O => u | S j => ap (aps j u) end.
Lemma ap_ext u v n : (forall m, (m <= n)%nat -> u m = v m) -> ap u n = ap v n.
Proof. apply fo_ext. Qed.
Lemma st_ext u v n : (forall m, (m <= n)%nat -> u m = v m) -> st u n = st v n.
Proof. apply fo_ext. Qed.
Lemma aps_ext i u v n : (forall m, (m <= n)%nat -> u m = v m) -> aps i u n = aps i v n.
Proof. revert n. induction i; intros n H; cbn [aps]. now apply H. apply ap_ext. intros m Hm. apply IHi. intros; apply H; lia. Qed.
Lemma aps_st i u n : aps i (st u) n = st (aps i u) n.
Proof. revert n. induction i; intros n; cbn [aps]; auto. rewrite (ap_ext _ (st (aps i u))) by auto. apply commute. Qed.
Lemma aps_energy N u i : rsum (S N) (fun t => u t * u t) = rsum i (fun j => aps j (st u) N * aps j (st u) N) + rsum (S N) (fun t => aps i u t * aps i u t).
Proof.
  induction i as [|i IH]. cbn [sum aps]. change (@r0 R CRing_R) with 0. change (@radd R CRing_R) with Rplus. ring.
  rewrite IH. rewrite (ap_energy (aps i u) (S N)). rewrite <- aps_st. change (rsum (S i) ?f) with (rsum i f + f i). cbv beta. cbn [aps]. ring.
Qed.
End Lag.

Lemma sum_lin3 q a b c (f g h : nat -> R) : rsum q (fun m => a * f m + b * g m - c * h m) = a * rsum q f + b * rsum q g - c * rsum q h.
Proof. induction q as [|q IH]; cbn [sum]. change (@r0 R CRing_R) with 0. ring. change (@radd R CRing_R) with Rplus. rewrite IH. ring. Qed.
(** Linear, shift-invariant: a filtered convolution is the convolution with the filtered kernel. *)
Lemma fo_conv b0 b1 a1 (h x u : nat -> R) : (forall n, u n = rsum (S n) (fun m => h (n - m)%nat * x m)) ->
  forall n, fo b0 b1 a1 u n = rsum (S n) (fun m => fo b0 b1 a1 h (n - m)%nat * x m).
Proof.
  intros H. induction n as [|n IH].
  - cbn [fo]. rewrite H. cbn [sum Nat.sub fo]. change (@r0 R CRing_R) with 0. change (@radd R CRing_R) with Rplus. ring.
  - cbn [fo]. rewrite IH, (H (S n)), (H n).
    assert (E : rsum (S (S n)) (fun m => fo b0 b1 a1 h (S n - m) * x m) = rsum (S n) (fun m => b0 * (h (S n - m)%nat * x m) + b1 * (h (n - m)%nat * x m) - a1 * (fo b0 b1 a1 h (n - m)%nat * x m)) + b0 * (h 0%nat * x (S n))).
    { change (rsum (S (S n)) ?f) with (rsum (S n) f + f (S n)). f_equal.
      - apply (sum_ext (HA := CRing_R)). intros m Hm. replace (S n - m)%nat with (S (n - m)) by lia. cbn [fo]. ring.
      - cbv beta. replace (S n - S n)%nat with 0%nat by lia. cbn [fo]. ring. }
    rewrite E. change (rsum (S (S n)) (fun m => h (S n - m)%nat * x m)) with (rsum (S n) (fun m => h (S n - m)%nat * x m) + h (S n - S n)%nat * x (S n)). replace (S n - S n)%nat with 0%nat by lia.
    assert (L : rsum (S n) (fun m => b0 * (h (S n - m)%nat * x m) + b1 * (h (n - m)%nat * x m) - a1 * (fo b0 b1 a1 h (n - m)%nat * x m)) =
      b0 * rsum (S n) (fun m => h (S n - m)%nat * x m) + b1 * rsum (S n) (fun m => h (n - m)%nat * x m) - a1 * rsum (S n) (fun m => fo b0 b1 a1 h (n - m)%nat * x m)).
    { apply sum_lin3. }
    rewrite L. ring.
Qed.
Definition dl (n : nat) : R := if (n =? 0)%nat then 1 else 0.
Lemma conv_dl (x : nat -> R) n : x n = rsum (S n) (fun m => dl (n - m) * x m).
Proof.
  rewrite (sum_single (HA := CRing_R) (S n) n). unfold dl. rewrite Nat.sub_diag. cbn [Nat.eqb]. ring. lia.
  intros m Hm Hne. unfold dl. destruct (Nat.eqb_spec (n - m) 0); [lia|]. change (@r0 R CRing_R) with 0. ring.
Qed.
(** Laguerre kernels *)
Definition ker (l g : R) (i n : nat) : R := aps l i (st l g dl) n.
Lemma aps_conv l i h x u : (forall n, u n = rsum (S n) (fun m => h (n - m)%nat * x m)) -> forall n, aps l i u n = rsum (S n) (fun m => aps l i h (n - m)%nat * x m).
Proof. intros H. induction i; intros n; cbn [aps]. apply H. unfold ap. apply fo_conv. auto. Qed.
Lemma ker_conv l g x i n : aps l i (st l g x) n = rsum (S n) (fun m => ker l g i (n - m) * x m).
Proof. apply aps_conv. intros k. apply fo_conv. intros j. apply conv_dl. Qed.
Lemma ker_00 l g : ker l g 0 0 = g.
Proof. unfold ker, st, dl. cbn [aps fo]. cbn [Nat.eqb]. ring. Qed.
Lemma ker_0S l g n : ker l g 0 (S n) = - l * ker l g 0 n.
Proof. unfold ker, st, dl. cbn [aps fo]. cbn [Nat.eqb]. destruct n; cbn [Nat.eqb]; ring. Qed.
Lemma ker_S0 l g i : ker l g (S i) 0 = l * ker l g i 0.
Proof. unfold ker. cbn [aps]. unfold ap. cbn [fo]. reflexivity. Qed.
Lemma ker_SS l g i n : ker l g (S i) (S n) = l * ker l g i (S n) + ker l g i n - l * ker l g (S i) n.
Proof. unfold ker. cbn [aps]. unfold ap. cbn [fo]. ring. Qed.
Lemma ker_sym l g i n : ker l g i n = ker (- l) g n i.
Proof.
  revert n. induction i as [|i IH].
  - induction n as [|n IHn]. now rewrite !ker_00. rewrite ker_0S, ker_S0, IHn. ring.
  - induction n as [|n IHn]. rewrite ker_S0, ker_0S, IH. ring. rewrite !ker_SS, IHn, !IH. ring.
Qed.
Lemma ker_i0 l g i : ker l g i 0 = g * l ^ i.
Proof. induction i. rewrite ker_00. simpl. ring. rewrite ker_S0, IHi. simpl. ring. Qed.

(** The list functions of the model *)
Lemma lag_stage_eq l x : length (lag_stage l x) = length x /\ forall n, (n < length x)%nat -> get (lag_stage l x) n = ap l (get x) n.
Proof. apply lf_two. Qed.
Lemma lag_first_eq l x : length (lag_first l x) = length x /\ forall n, (n < length x)%nat -> get (lag_first l x) n = st l (sqrt (1 - l * l)) (get x) n.
Proof. apply lf_one. Qed.
Lemma last_get (x : list R) : last x 0 = get x (length x - 1).
Proof.
  induction x as [|a x IH]; [reflexivity|]. destruct x as [|b x]; [reflexivity|]. change (last (a :: b :: x) 0) with (last (b :: x) 0). rewrite IH. replace (length (a :: b :: x) - 1)%nat with (S (length (b :: x) - 1)) by (cbn; lia). reflexivity.
Qed.
Lemma lag_outputs_eq l m : forall x (u : nat -> R), x <> [] -> (forall n, (n < length x)%nat -> get x n = u n) ->
  length (lag_outputs l m x) = m /\ forall i, (i < m)%nat -> get (lag_outputs l m x) i = aps l i u (length x - 1).
Proof.
  induction m as [|m IH]; intros x u Hx Hu; cbn [lag_outputs]. { split; auto. intros; lia. }
  assert (Lx : (0 < length x)%nat) by (destruct x; [congruence|simpl; lia]).
  destruct (lag_stage_eq l x) as (L & V).
  destruct (IH (lag_stage l x) (ap l u)) as (L' & V'). { intros E. rewrite E in L. cbn in L. lia. }
  { intros n Hn. rewrite L in Hn. rewrite V by auto. apply ap_ext. intros j Hj. apply Hu. lia. }
  split. cbn. now rewrite L'. intros [|i] Hi. { change (last x 0 = u (length x - 1)%nat). rewrite last_get. apply Hu. lia. }
  change (get (lag_outputs l m (lag_stage l x)) i = aps l (S i) u (length x - 1)). rewrite V' by lia. rewrite L.
  assert (A : forall i u n, aps l i (ap l u) n = aps l (S i) u n). { clear. induction i; intros u n; auto. cbn [aps]. apply ap_ext. intros m _. apply IHi. } apply A.
Qed.
Lemma get_rev (x : list R) m : (m < length x)%nat -> get (rev x) m = get x (length x - 1 - m).
Proof. intros H. unfold get. rewrite rev_nth by auto. f_equal. lia. Qed.
Lemma laguerre_get l x i : x <> [] -> length (laguerre_col l x) = length x /\ ((i < length x)%nat ->
  get (laguerre_col l x) i = aps l i (st l (sqrt (1 - l * l)) (get (rev x))) (length x - 1)).
Proof.
  intros Hx. unfold laguerre_col. destruct (lag_first_eq l (rev x)) as (L & V). rewrite rev_length in L, V.
  destruct (lag_outputs_eq l (length x) (lag_first l (rev x)) (st l (sqrt (1 - l * l)) (get (rev x)))) as (L' & V').
  { intros E. rewrite E in L. cbn in L. destruct x; [congruence|discriminate]. } { intros n Hn. rewrite L in Hn. now apply V. }
  split; auto. intros Hi. rewrite V' by auto. now rewrite L.
Qed.
(** Every output is the inner product with a kernel. *)
Lemma laguerre_inner l x i : (i < length x)%nat -> get (laguerre_col l x) i = rsum (length x) (fun n => ker l (sqrt (1 - l * l)) i n * get x n).
Proof.
  intros Hi. assert (Hx : x <> []) by (intros ->; cbn in Hi; lia). destruct (laguerre_get l x i Hx) as (_ & E). rewrite E by auto. rewrite ker_conv.
  replace (S (length x - 1)) with (length x) by lia. rewrite (sum_rev (HA := CRing_R)). apply (sum_ext (HA := CRing_R)). intros n Hn. rewrite get_rev by lia. f_equal; f_equal; lia.
Qed.
