(** Lemmas on cascades of second-order sections from rest, their sums and allpass equations. *)
From Coq Require Import List Arith Lia ZArith Bool Reals Lra Psatz.
From Verif Require Import Alg Spec Dft M_arrays M_filter P_conv P_filter P_ar P_biquad M_crossover.
Import ListNotations.
Local Open Scope R_scope.

(** ** Linearity *)
Lemma vadd_len (u v : list R) : length (vadd u v) = length u.
Proof. apply mk_length. Qed.
Lemma vadd_get (u v : list R) i : length u = length v -> get (vadd u v) i = get u i + get v i.
Proof.
  intros L. destruct (Nat.lt_ge_cases i (length u)). unfold vadd. now rewrite get_mk.
  rewrite !(get_out (HA := CRing_R)) by (rewrite ?vadd_len; lia). simpl. ring.
Qed.
Lemma vadd_cons a b (u v : list R) : vadd (a :: u) (b :: v) = (a + b) :: vadd u v.
Proof. unfold vadd. cbn [length]. unfold mk. rewrite <- cons_seq. cbn [map]. f_equal. rewrite <- seq_shift, map_map. reflexivity. Qed.
Lemma vadd_assoc (u v w : list R) : length u = length v -> length v = length w -> vadd (vadd u v) w = vadd u (vadd v w).
Proof. intros. apply (get_ext (HA := CRing_R)). now rewrite !vadd_len. intros i Hi. rewrite !vadd_get by (rewrite ?vadd_len; lia). ring. Qed.
Lemma lf_sample_add b a (z z' : list R) v v' : length z = length z' ->
  lf_sample b a (vadd z z') (v + v') = (fst (lf_sample b a z v) + fst (lf_sample b a z' v'), vadd (snd (lf_sample b a z v)) (snd (lf_sample b a z' v'))).
Proof.
  intros L. unfold lf_sample. cbn [fst snd]. f_equal. rewrite vadd_get by auto. simpl. ring.
  apply (get_ext (HA := CRing_R)). now repeat (rewrite ?vadd_len, ?mk_length). intros i Hi. rewrite mk_length, vadd_len in Hi.
  rewrite get_mk by (rewrite ?vadd_len; lia). rewrite !vadd_get by (rewrite ?mk_length; auto). rewrite !get_mk by lia. simpl. ring.
Qed.
Lemma lfilter_add b a : forall (x x' z z' : list R), length x = length x' -> length z = length z' ->
  lfilter b a (vadd x x') (vadd z z') = (vadd (fst (lfilter b a x z)) (fst (lfilter b a x' z')), vadd (snd (lfilter b a x z)) (snd (lfilter b a x' z'))).
Proof.
  induction x as [|v x IH]; intros [|v' x'] z z' L Lz; try discriminate. reflexivity.
  rewrite vadd_cons. cbn [lfilter]. rewrite lf_sample_add by auto.
  assert (Ls : length (snd (lf_sample b a z v)) = length (snd (lf_sample b a z' v'))) by (unfold lf_sample; cbn [snd]; rewrite !mk_length; auto).
  destruct (lf_sample b a z v) as [y z1]. destruct (lf_sample b a z' v') as [y' z1']. cbn [fst snd] in *. rewrite IH by (simpl in L; auto).
  destruct (lfilter b a x z1). destruct (lfilter b a x' z1'). cbn [fst snd]. now rewrite vadd_cons.
Qed.
Lemma vadd00 : vadd [0; 0] [0; 0] = [0; 0].
Proof. unfold vadd, mk, get. simpl. now rewrite Rplus_0_l. Qed.
Lemma rest_cons b a t x : rest ((b, a) :: t) x = rest t (fst (lfilter b a x [0; 0])).
Proof. unfold rest. cbn [length repeat sosfilt hd tl]. destruct (lfilter b a x [0; 0]) as [y z1]. cbn [fst]. now destruct (sosfilt t y (repeat [0; 0] (length t))). Qed.
Lemma rest_nil x : rest [] x = x.
Proof. reflexivity. Qed.
Lemma rest_app s t x : rest (s ++ t) x = rest t (rest s x).
Proof. revert x. induction s as [|[b a] s IH]; intros x. reflexivity. cbn [app]. rewrite !rest_cons. apply IH. Qed.
Lemma rest_len s x : length (rest s x) = length x.
Proof. revert x. induction s as [|[b a] s IH]; intros x. reflexivity. rewrite rest_cons, IH. apply lfilter_length. Qed.
Lemma rest_add s x x' : length x = length x' -> rest s (vadd x x') = vadd (rest s x) (rest s x').
Proof.
  revert x x'. induction s as [|[b a] s IH]; intros x x' L. reflexivity. rewrite !rest_cons. rewrite <- IH by (now rewrite !lfilter_length). f_equal.
  rewrite <- vadd00 at 1. rewrite lfilter_add by auto. reflexivity.
Qed.
Lemma both_len p x : length (both p x) = length x.
Proof. unfold both. now rewrite vadd_len, rest_len. Qed.
Lemma both_add p x x' : length x = length x' -> both p (vadd x x') = vadd (both p x) (both p x').
Proof.
  intros L. unfold both. rewrite !rest_add by auto. apply (get_ext (HA := CRing_R)). now rewrite !vadd_len, !rest_len. intros i Hi.
  rewrite !vadd_get by (rewrite ?vadd_len, ?rest_len; auto). ring.
Qed.
Lemma chain_len t x : length (fold_left (fun b p => both p b) t x) = length x.
Proof. revert x. induction t as [|p t IH]; intros x. reflexivity. cbn [fold_left]. rewrite IH. apply both_len. Qed.
Lemma chain_add t x x' : length x = length x' -> fold_left (fun b p => both p b) t (vadd x x') = vadd (fold_left (fun b p => both p b) t x) (fold_left (fun b p => both p b) t x').
Proof. revert x x'. induction t as [|p t IH]; intros x x' L. reflexivity. cbn [fold_left]. rewrite both_add by auto. apply IH. now rewrite !both_len. Qed.
Lemma split_lens bank x : Forall (fun b => length b = length x) (lr_split bank x).
Proof.
  revert x. induction bank as [|[lo hi] t IH]; intros x; cbn [lr_split]. repeat constructor.
  constructor. now rewrite chain_len, rest_len. specialize (IH (rest hi x)). rewrite rest_len in IH. exact IH.
Qed.
Lemma fold_vadd l (a b : list R) : length a = length b -> Forall (fun v => length v = length a) l -> fold_left vadd l (vadd a b) = vadd a (fold_left vadd l b).
Proof.
  revert b. induction l as [|c l IH]; intros b L F. reflexivity. inversion F; subst. cbn [fold_left]. rewrite vadd_assoc by lia. apply IH; auto. now rewrite vadd_len.
Qed.
Lemma split_ne bank x : lr_split bank x <> [].
Proof. destruct bank as [|[lo hi] t]; discriminate. Qed.
Lemma summed_chain bank x : lr_summed bank x = fold_left (fun b p => both p b) bank x.
Proof.
  revert x. induction bank as [|[lo hi] t IH]; intros x. reflexivity.
  cbn [fold_left]. change (both (lo, hi) x) with (vadd (rest lo x) (rest hi x)). rewrite chain_add by (now rewrite !rest_len). rewrite <- (IH (rest hi x)).
  unfold lr_summed. cbn [lr_split hd tl]. pose proof (split_ne t (rest hi x)) as N. pose proof (split_lens t (rest hi x)) as F.
  destruct (lr_split t (rest hi x)) as [|c l]; [congruence|]. inversion F; subst. cbn [fold_left hd tl]. apply fold_vadd. rewrite chain_len, H1. now rewrite !rest_len.
  rewrite chain_len, rest_len. rewrite rest_len in H2. exact H2.
Qed.

(** ** Polynomials in the delay acting on sequences *)
Definition P3 (c0 c1 c2 : R) (f : nat -> R) (n : nat) : R := c0 * f n + c1 * prev 0 f n + c2 * prev 0 (prev 0 f) n.
Lemma P3_comm a0 a1 a2 b0 b1 b2 f n : P3 a0 a1 a2 (P3 b0 b1 b2 f) n = P3 b0 b1 b2 (P3 a0 a1 a2 f) n.
Proof. unfold P3. destruct n as [|[|[|[|n]]]]; cbn [prev]; ring. Qed.
Lemma prev_ext f g n : (forall k, (k <= n)%nat -> f k = g k) -> prev 0 f n = prev 0 g n.
Proof. intros H. destruct n; simpl; auto. Qed.
Lemma P3_ext c0 c1 c2 f g n : (forall k, (k <= n)%nat -> f k = g k) -> P3 c0 c1 c2 f n = P3 c0 c1 c2 g n.
Proof. intros H. unfold P3. rewrite H by lia. rewrite (prev_ext f g) by auto. rewrite (prev_ext (prev 0 f) (prev 0 g)); auto. intros k Hk. apply prev_ext. intros; apply H; lia. Qed.
Lemma P3_add c0 c1 c2 f g n : P3 c0 c1 c2 (fun k => f k + g k) n = P3 c0 c1 c2 f n + P3 c0 c1 c2 g n.
Proof. unfold P3. destruct n as [|[|n]]; cbn [prev]; ring. Qed.
Lemma P3_sub c0 c1 c2 f g n : P3 c0 c1 c2 (fun k => f k - g k) n = P3 c0 c1 c2 f n - P3 c0 c1 c2 g n.
Proof. unfold P3. destruct n as [|[|n]]; cbn [prev]; ring. Qed.
Lemma P3_kernel a1 a2 u N : (forall n, (n < N)%nat -> P3 1 a1 a2 u n = 0) -> forall n, (n < N)%nat -> u n = 0.
Proof.
  intros H n. induction n as [n IH] using lt_wf_ind. intros Hn. specialize (H n Hn). unfold P3 in H.
  destruct n as [|[|n]]; cbn [prev] in H. lra. rewrite (IH 0%nat) in H by lia. lra. rewrite (IH (S n)), (IH n) in H by lia. lra.
Qed.
Lemma section_eq b0 b1 b2 a1 a2 x : let y := fst (lfilter [b0; b1; b2] [1; a1; a2] x [0; 0]) in
  length y = length x /\ forall n, (n < length x)%nat -> P3 1 a1 a2 (get y) n = P3 b0 b1 b2 (get x) n.
Proof.
  cbv zeta. destruct (lfilter_diff (HA := CRing_R) [b0; b1; b2] [1; a1; a2] x [0; 0] ltac:(reflexivity) ltac:(simpl; lia) ltac:(simpl; lia)) as [L D]. split; auto. intros n Hn. specialize (D n Hn). rewrite !conv3 in D.
  unfold P3. change (@radd R CRing_R) with Rplus in D. assert (Z : get [0; 0] n = 0) by (unfold get; destruct n as [|[|[|n]]]; reflexivity). rewrite Z in D. lra.
Qed.
(** One section each, the same denominator. *)
Lemma both_eq1 lo0 lo1 lo2 hi0 hi1 hi2 a1 a2 x : let y := both ([([lo0; lo1; lo2], [1; a1; a2])], [([hi0; hi1; hi2], [1; a1; a2])]) x in
  length y = length x /\ forall n, (n < length x)%nat -> P3 1 a1 a2 (get y) n = P3 (lo0 + hi0) (lo1 + hi1) (lo2 + hi2) (get x) n.
Proof.
  cbv zeta. split. apply both_len. intros n Hn. unfold both. cbn [fst snd]. rewrite !rest_cons, !rest_nil.
  destruct (section_eq lo0 lo1 lo2 a1 a2 x) as [L1 E1]. destruct (section_eq hi0 hi1 hi2 a1 a2 x) as [L2 E2].
  set (u := fst (lfilter [lo0; lo1; lo2] [1; a1; a2] x [0; 0])) in *. set (v := fst (lfilter [hi0; hi1; hi2] [1; a1; a2] x [0; 0])) in *.
  rewrite (P3_ext 1 a1 a2 _ (fun k => get u k + get v k)) by (intros; apply vadd_get; congruence). rewrite P3_add, E1, E2 by auto. unfold P3. ring.
Qed.
(** Twice the same section each. *)
Lemma both_eq2 lo0 lo1 lo2 hi0 hi1 hi2 a1 a2 x : let l := ([lo0; lo1; lo2], [1; a1; a2]) in let h := ([hi0; hi1; hi2], [1; a1; a2]) in
  let y := both ([l; l], [h; h]) x in
  length y = length x /\ forall n, (n < length x)%nat -> P3 1 a1 a2 (P3 1 a1 a2 (get y)) n = P3 lo0 lo1 lo2 (P3 lo0 lo1 lo2 (get x)) n + P3 hi0 hi1 hi2 (P3 hi0 hi1 hi2 (get x)) n.
Proof.
  cbv zeta. split. apply both_len. intros n Hn. unfold both. cbn [fst snd]. rewrite !rest_cons, !rest_nil.
  assert (G : forall c0 c1 c2, let w := fst (lfilter [c0; c1; c2] [1; a1; a2] (fst (lfilter [c0; c1; c2] [1; a1; a2] x [0; 0])) [0; 0]) in
    length w = length x /\ P3 1 a1 a2 (P3 1 a1 a2 (get w)) n = P3 c0 c1 c2 (P3 c0 c1 c2 (get x)) n).
  { intros c0 c1 c2. cbv zeta. destruct (section_eq c0 c1 c2 a1 a2 x) as [L1 E1]. set (u := fst (lfilter [c0; c1; c2] [1; a1; a2] x [0; 0])) in *.
    destruct (section_eq c0 c1 c2 a1 a2 u) as [L2 E2]. split; [congruence|].
    rewrite (P3_ext 1 a1 a2 _ (P3 c0 c1 c2 (get u))) by (intros; apply E2; lia). rewrite P3_comm. apply P3_ext. intros; apply E1; lia. }
  destruct (G lo0 lo1 lo2) as [L1 E1]. destruct (G hi0 hi1 hi2) as [L2 E2]. set (u := fst (lfilter [lo0; lo1; lo2] _ _ _)) in *. set (v := fst (lfilter [hi0; hi1; hi2] _ _ _)) in *.
  rewrite <- E1, <- E2, <- P3_add. apply P3_ext. intros k Hk. rewrite <- P3_add. apply P3_ext. intros j Hj. apply vadd_get. congruence.
Qed.

(** ** Allpass equations *)
Lemma first_order r g q (x y : nat -> R) N : g - q = r -> g + q = 1 ->
  (forall n, (n < N)%nat -> P3 1 (2 * r) (r * r) y n = P3 (g * g - q * q) (2 * (g * g) + 2 * (q * q)) (g * g - q * q) x n) ->
  forall n, (n < N)%nat -> y n + r * prev 0 y n = r * x n + prev 0 x n.
Proof.
  intros E1 E2 H. assert (q = (1 - r) / 2) as -> by lra. assert (g = (1 + r) / 2) as -> by lra.
  intros n Hn. enough (y n + r * prev 0 y n - (r * x n + prev 0 x n) = 0) by lra. revert n Hn.
  apply (P3_kernel r 0 (fun n => y n + r * prev 0 y n - (r * x n + prev 0 x n))). intros n Hn. specialize (H n Hn). unfold P3 in *.
  destruct n as [|[|n]]; cbn [prev] in *; nra.
Qed.
Lemma second_order l h a1 a2 (x y : nat -> R) N : l * l + h * h = a2 -> 4 * (l * l) - 4 * (h * h) = a1 * (1 + a2) -> 6 * (l * l) + 6 * (h * h) = 1 + a1 * a1 + a2 * a2 ->
  (forall n, (n < N)%nat -> P3 1 a1 a2 (P3 1 a1 a2 y) n = P3 l (2 * l) l (P3 l (2 * l) l x) n + P3 h (-2 * h) h (P3 h (-2 * h) h x) n) ->
  forall n, (n < N)%nat -> P3 1 a1 a2 y n = P3 a2 a1 1 x n.
Proof.
  intros E0 E1 E2 H n Hn. enough (P3 1 a1 a2 y n - P3 a2 a1 1 x n = 0) by lra. revert n Hn.
  apply (P3_kernel a1 a2 (fun n => P3 1 a1 a2 y n - P3 a2 a1 1 x n)). intros n Hn. rewrite P3_sub, H by auto.
  assert (G : forall n, P3 l (2 * l) l (P3 l (2 * l) l x) n + P3 h (-2 * h) h (P3 h (-2 * h) h x) n - P3 1 a1 a2 (P3 a2 a1 1 x) n =
    x n * (l * l + h * h - a2) + prev 0 x n * (4 * (l * l) - 4 * (h * h) - a1 * (1 + a2)) + prev 0 (prev 0 x) n * (6 * (l * l) + 6 * (h * h) - (1 + a1 * a1 + a2 * a2))
    + prev 0 (prev 0 (prev 0 x)) n * (4 * (l * l) - 4 * (h * h) - a1 * (1 + a2)) + prev 0 (prev 0 (prev 0 (prev 0 x))) n * (l * l + h * h - a2)).
  { intros m. unfold P3. destruct m as [|[|[|[|m]]]]; cbn [prev]; ring. }
  rewrite G, E0, E1, E2. ring.
Qed.
Lemma energy1 r (x y : nat -> R) N : -1 < r < 1 -> (forall n, (n < N)%nat -> y n + r * prev 0 y n = r * x n + prev 0 x n) ->
  forall m, (m < N)%nat -> rsum (S m) (fun k => x k * x k) - rsum (S m) (fun k => y k * y k) = (x m - r * y m) * (x m - r * y m) / (1 - r * r).
Proof.
  intros Hr H m. assert (D : 0 < 1 - r * r) by nra. induction m as [|m IH]; intros Hm.
  - specialize (H 0%nat Hm). cbn [prev] in H. cbn [sum]. change (@radd R CRing_R) with Rplus. change (@r0 R CRing_R) with 0. replace (y 0%nat) with (r * x 0%nat) by lra. field. lra.
  - cbn [sum] in *. change (@radd R CRing_R) with Rplus in *. specialize (IH ltac:(lia)). specialize (H (S m) Hm). cbn [prev] in H.
    assert (E : x m - r * y m = y (S m) - r * x (S m)) by lra. rewrite E in IH.
    apply (Rmult_eq_reg_r (1 - r * r)); [|lra]. apply (f_equal (fun v => v * (1 - r * r))) in IH. unfold Rdiv in *. rewrite Rmult_assoc, Rinv_l, Rmult_1_r in IH by lra. rewrite Rmult_assoc, Rinv_l, Rmult_1_r by lra. nra.
Qed.
Lemma energy2 d1 d2 (x y : list R) : -1 < d2 < 1 -> Rabs d1 < 1 + d2 -> (forall n, (n < length x)%nat -> P3 1 d1 d2 (get y) n = P3 d2 d1 1 (get x) n) ->
  forall m, (m <= length x)%nat -> rsum m (fun k => get y k * get y k) <= rsum m (fun k => get x k * get x k).
Proof.
  intros H2 H1 H. set (w := resp [1; 0; 0] [1; d1; d2] x). destruct (resp_ok (HA := CRing_R) [1; 0; 0] [1; d1; d2] x ltac:(reflexivity)) as [Lw Ew]. fold w in Lw, Ew.
  assert (EW : forall n, (n < length x)%nat -> P3 1 d1 d2 (get w) n = get x n). { intros n Hn. specialize (Ew n Hn). rewrite !conv3 in Ew. unfold P3. lra. }
  assert (EY : forall n, (n < length x)%nat -> get y n = P3 d2 d1 1 (get w) n).
  { intros n Hn. enough (get y n - P3 d2 d1 1 (get w) n = 0) by lra. revert n Hn. apply (P3_kernel d1 d2 (fun n => get y n - P3 d2 d1 1 (get w) n)). intros n Hn.
    rewrite P3_sub, H by auto. rewrite P3_comm. rewrite (P3_ext d2 d1 1 (P3 1 d1 d2 (get w)) (get x)) by (intros; apply EW; lia). ring. }
  assert (T : forall m, (m <= length x)%nat -> rsum m (fun k => get x k * get x k) - rsum m (fun k => get y k * get y k) =
    (1 - d2 * d2) * (prev 0 (get w) m * prev 0 (get w) m + prev 0 (prev 0 (get w)) m * prev 0 (prev 0 (get w)) m) + 2 * d1 * (1 - d2) * (prev 0 (get w) m * prev 0 (prev 0 (get w)) m)).
  { induction m as [|m IH]; intros Hm. cbn [sum prev]. change (@r0 R CRing_R) with 0. ring.
    specialize (IH ltac:(lia)). cbn [sum]. change (@radd R CRing_R) with Rplus. pose proof (EW m ltac:(lia)) as E1. pose proof (EY m ltac:(lia)) as E2. unfold P3 in E1, E2.
    cbn [prev]. rewrite <- E1, E2. set (w0 := get w m) in *. set (w1 := prev 0 (get w) m) in *. set (w2 := prev 0 (prev 0 (get w)) m) in *. clearbody w0 w1 w2. nra. }
  intros m Hm. specialize (T m Hm). set (u := prev 0 (get w) m) in *. set (v := prev 0 (prev 0 (get w)) m) in *.
  apply Rabs_def2 in H1. assert (0 <= (1 - d2 * d2) * (u * u + v * v) + 2 * d1 * (1 - d2) * (u * v)); [|lra].
  replace ((1 - d2 * d2) * (u * u + v * v) + 2 * d1 * (1 - d2) * (u * v)) with ((1 - d2) * ((1 + d2) * (u * u + v * v) + d1 * (2 * (u * v)))) by ring.
  apply Rmult_le_pos; [lra|]. clear T. clearbody u v. pose proof (Rle_0_sqr (u + v)) as S1. pose proof (Rle_0_sqr (u - v)) as S2. unfold Rsqr in S1, S2.
  destruct (Rle_dec 0 d1); nra.
Qed.
