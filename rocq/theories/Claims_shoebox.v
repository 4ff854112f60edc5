(** C57: rooms, their modes and their absorption. *)
From Coq Require Import List Arith Lia ZArith Bool Reals Lra Permutation Sorted.
From Verif Require Import Alg Spec Dft M_arrays M_shoebox Claims_level P_ar.
Import ListNotations.
Local Open Scope R_scope.

(** ** Sabine's formula *)
(** t60 times the equivalent absorption area is 0.161 times the volume. *)
Definition sabine (t60 alpha area volume : R) : Prop := t60 * (alpha * area) = 161 / 1000 * volume.
Lemma room_inv dims v s t a r : room_new dims v s t a = Ok r ->
  0 < s /\ 0 < v /\ exists t' a', r = derive dims v s t' a' /\ 0 < a' <= 1 /\ 0 < t' /\ sabine t' a' s v /\
  ((t = Some t' /\ a = None) \/ (t = None /\ a = Some a')).
Proof.
  unfold room_new. destruct (Rlt_dec 0 s) as [Hs|]; [|discriminate]. destruct (Rlt_dec 0 v) as [Hv|]; [|discriminate].
  destruct t as [t|], a as [a|]; try discriminate.
  - destruct (Req_EM_T t 0) as [|Ht]; [discriminate|]. cbn zeta. destruct (Rlt_dec 0 _) as [Ha|]; [|discriminate].
    destruct (Rle_dec _ 1) as [Hb|]; [|discriminate]. intros [= <-]. split; [auto|]. split; [auto|].
    exists t, (161 / 1000 * v / s / t). repeat split; auto.
    + destruct (Rlt_le_dec 0 t) as [|Hn]; auto. exfalso. assert (/ t < 0) by (apply Rinv_lt_0_compat; lra).
      assert (0 < 161 / 1000 * v / s) by (apply Rdiv_lt_0_compat; lra). unfold Rdiv in Ha, H0. pose proof (Rmult_lt_gt_compat_neg_l _ _ _ H H0) as X.
      unfold Rdiv in X. lra.
    + unfold sabine. field. split; lra.
  - destruct (Rlt_dec 0 a) as [Ha|]; [|discriminate]. destruct (Rle_dec a 1) as [Hb|]; [|discriminate]. intros [= <-]. split; [auto|]. split; [auto|].
    exists (161 / 1000 * v / s / a), a. repeat split; auto.
    + repeat apply Rdiv_lt_0_compat; lra.
    + unfold sabine. field. split; lra.
Qed.
(** Every room satisfies Sabine's formula with an absorption coefficient in (0, 1]; what was given is kept; Schroeder's frequency and
    the critical distance belong to the reverberation time. *)
Theorem C57_sabine dims v s t a r : room_new dims v s t a = Ok r ->
  rm_vol r = v /\ rm_area r = s /\ sabine (rm_t60 r) (rm_alpha r) s v /\ 0 < rm_alpha r <= 1 /\ 0 < rm_t60 r /\
  (forall t', t = Some t' -> rm_t60 r = t') /\ (forall a', a = Some a' -> rm_alpha r = a') /\
  0 <= rm_schroeder r /\ rm_schroeder r ^ 2 = 2000 ^ 2 * (rm_t60 r / v) /\ 0 <= rm_critical r /\ rm_critical r ^ 2 = (57 / 1000) ^ 2 * (v / rm_t60 r).
Proof.
  intros H. apply room_inv in H. destruct H as (Hs & Hv & t' & a' & -> & Ha & Ht & S & C). unfold derive. cbn [rm_vol rm_area rm_t60 rm_alpha rm_schroeder rm_critical].
  assert (P1 : 0 <= t' / v) by (apply Rlt_le, Rdiv_lt_0_compat; lra). assert (P2 : 0 <= v / t') by (apply Rlt_le, Rdiv_lt_0_compat; lra).
  repeat split; auto; try lra.
  - intros x ->. destruct C as [[C _]|[C _]]; congruence.
  - intros x ->. destruct C as [[_ C]|[_ C]]; congruence.
  - pose proof (sqrt_pos (t' / v)). lra.
  - rewrite Rpow_mult_distr, pow2_sqrt; auto.
  - pose proof (sqrt_pos (v / t')). lra.
  - rewrite Rpow_mult_distr, pow2_sqrt; auto.
Qed.
Print Assumptions C57_sabine.
(** Which rooms can be made from one of the two values. *)
Theorem C57_accepted dims v s : 0 < v -> 0 < s ->
  (forall a, (exists r, room_new dims v s None (Some a) = Ok r) <-> 0 < a <= 1) /\
  (forall t, (exists r, room_new dims v s (Some t) None = Ok r) <-> 161 / 1000 * v / s <= t).
Proof.
  intros Hv Hs. assert (K : 0 < 161 / 1000 * v / s) by (apply Rdiv_lt_0_compat; lra). split.
  - intros a. split. intros [r E]. apply room_inv in E. destruct E as (_ & _ & t' & a' & _ & Ha & _ & _ & [[_ C]|[_ C]]); congruence.
    intros [A B]. unfold room_new. destruct (Rlt_dec 0 s); [|lra]. destruct (Rlt_dec 0 v); [|lra]. destruct (Rlt_dec 0 a); [|lra]. destruct (Rle_dec a 1); [|lra]. eauto.
  - intros t. split.
    + intros [r E]. apply room_inv in E. destruct E as (_ & _ & t' & a' & _ & Ha & Ht & S & [[C _]|[C _]]); [|congruence]. injection C as <-.
      unfold sabine in S. apply Rmult_le_reg_r with s; auto. unfold Rdiv at 1. rewrite Rmult_assoc, Rinv_l, Rmult_1_r, <- S by lra.
      apply Rmult_le_compat_l; try lra. rewrite <- (Rmult_1_l s) at 2. apply Rmult_le_compat_r; lra.
    + intros H. unfold room_new. destruct (Rlt_dec 0 s); [|lra]. destruct (Rlt_dec 0 v); [|lra]. destruct (Req_EM_T t 0); [lra|]. cbn zeta.
      destruct (Rlt_dec 0 _) as [_|X]; [|exfalso; apply X; apply Rdiv_lt_0_compat; lra].
      destruct (Rle_dec _ 1) as [_|X]; [eauto|exfalso; apply X]. apply Rmult_le_reg_r with t. lra. unfold Rdiv at 1. rewrite Rmult_assoc, Rinv_l; lra.
Qed.
Print Assumptions C57_accepted.
Example C57_accepted_example : (exists r, room_new None 100 130 None (Some (1 / 5)) = Ok r) /\ (exists r, room_new None 100 130 (Some (1 / 2)) None = Ok r) /\
  ~ (exists r, room_new None 100 130 (Some (1 / 10)) None = Ok r).
Proof.
  destruct (C57_accepted None 100 130 ltac:(lra) ltac:(lra)) as [A B]. rewrite A, !B. lra.
Qed.
(** From the absorption to the reverberation time and back, and the other way round. *)
Theorem C57_round_trip dims v s a t r : room_new dims v s t a = Ok r ->
  room_new dims v s (Some (rm_t60 r)) None = Ok r /\ room_new dims v s None (Some (rm_alpha r)) = Ok r.
Proof.
  intros H. apply room_inv in H. destruct H as (Hs & Hv & t' & a' & -> & Ha & Ht & S & _). unfold sabine in S. cbn [derive rm_t60 rm_alpha].
  assert (E1 : 161 / 1000 * v / s / t' = a') by (rewrite <- S; field; split; lra). assert (E2 : 161 / 1000 * v / s / a' = t') by (rewrite <- S; field; split; lra).
  unfold room_new. destruct (Rlt_dec 0 s); [|lra]. destruct (Rlt_dec 0 v); [|lra]. destruct (Req_EM_T t' 0); [lra|]. cbn zeta. rewrite E1, E2.
  destruct (Rlt_dec 0 a'); [|lra]. destruct (Rle_dec a' 1); [|lra]. auto.
Qed.
Print Assumptions C57_round_trip.
(** Giving both values never gives a room, even when they agree: the constructor fails with an AttributeError. *)
Theorem C57_both_refuted dims v s t a : 0 < v -> 0 < s -> room_new dims v s (Some t) (Some a) = Err AttributeError.
Proof. intros Hv Hs. unfold room_new. destruct (Rlt_dec 0 s); [|lra]. destruct (Rlt_dec 0 v); [|lra]. reflexivity. Qed.
Print Assumptions C57_both_refuted.
Example C57_both_example : sabine (161 / 1000) 1 1 1. Proof. unfold sabine. lra. Qed.

(** ** Shoebox rooms *)
Lemma shoebox_inv dims t a r : shoebox_new dims t a = Ok r -> exists x y z, dims = [x; y; z] /\ 0 < x /\ 0 < y /\ 0 < z /\
  room_new (Some (x, y, z)) (x * y * z) (2 * (x * y + y * z + z * x)) t a = Ok r.
Proof.
  unfold shoebox_new. destruct dims as [|x [|y [|z [|? ?]]]]; try discriminate.
  destruct (Rlt_dec 0 x); [|discriminate]. destruct (Rlt_dec 0 y); [|discriminate]. destruct (Rlt_dec 0 z); [|discriminate].
  intros E. exists x, y, z. repeat split; auto. replace (2 * (x * y + y * z + z * x)) with ((z * x + x * y + y * z) * 2) by ring. exact E.
Qed.
Definition same_acoustics (r q : room) : Prop := rm_vol r = rm_vol q /\ rm_area r = rm_area q /\ rm_t60 r = rm_t60 q /\ rm_alpha r = rm_alpha q /\
  rm_schroeder r = rm_schroeder q /\ rm_critical r = rm_critical q.
Lemma perm_fold (f : R -> R -> R) (H : forall a b c, f a (f b c) = f b (f a c)) e l l' : Permutation l l' -> fold_right f e l = fold_right f e l'.
Proof. induction 1; cbn; congruence. Qed.
(** Volume and surface are those of the box, whichever way it is turned. *)
Theorem C57_shoebox dims t a r : shoebox_new dims t a = Ok r ->
  (exists x y z, dims = [x; y; z] /\ 0 < x /\ 0 < y /\ 0 < z /\ rm_dims r = Some (x, y, z) /\ rm_vol r = x * y * z /\ rm_area r = 2 * (x * y) + 2 * (y * z) + 2 * (x * z)) /\
  sabine (rm_t60 r) (rm_alpha r) (rm_area r) (rm_vol r) /\
  (forall dims', Permutation dims dims' -> exists q, shoebox_new dims' t a = Ok q /\ same_acoustics r q).
Proof.
  intros H. pose proof (shoebox_inv _ _ _ _ H) as (x & y & z & -> & Hx & Hy & Hz & E). pose proof (C57_sabine _ _ _ _ _ _ E) as (E1 & E2 & S & _).
  split; [|split].
  - exists x, y, z. repeat split; auto. apply room_inv in E. destruct E as (_ & _ & ? & ? & -> & _). reflexivity. rewrite E2. ring.
  - now rewrite E1, E2.
  - intros d' P.
    assert (G : forall u v w, 0 < u -> 0 < v -> 0 < w -> u * v * w = x * y * z -> u * v + v * w + w * u = x * y + y * z + z * x ->
      exists q, shoebox_new [u; v; w] t a = Ok q /\ same_acoustics r q).
    { intros u v w Hu Hv Hw V A. unfold shoebox_new. destruct (Rlt_dec 0 u); [|lra]. destruct (Rlt_dec 0 v); [|lra]. destruct (Rlt_dec 0 w); [|lra].
      rewrite V. replace ((w * u + u * v + v * w) * 2) with (2 * (x * y + y * z + z * x)) by (rewrite <- A; ring).
      apply room_inv in E. destruct E as (Hs & Hv' & t' & a' & -> & Ha & Ht & Sb & C). unfold sabine in Sb.
      assert (F1 : 161 / 1000 * (x * y * z) / (2 * (x * y + y * z + z * x)) / t' = a') by (rewrite <- Sb; field; split; lra).
      assert (F2 : 161 / 1000 * (x * y * z) / (2 * (x * y + y * z + z * x)) / a' = t') by (rewrite <- Sb; field; split; lra).
      unfold room_new. destruct (Rlt_dec 0 _); [|lra]. destruct (Rlt_dec 0 _); [|lra].
      destruct C as [[-> ->]|[-> ->]].
      - destruct (Req_EM_T t' 0); [lra|]. cbn zeta. rewrite F1. destruct (Rlt_dec 0 a'); [|lra]. destruct (Rle_dec a' 1); [|lra]. eexists; split; [reflexivity|]. repeat split; reflexivity.
      - rewrite F2. destruct (Rlt_dec 0 a'); [|lra]. destruct (Rle_dec a' 1); [|lra]. eexists; split; [reflexivity|]. repeat split; reflexivity. }
    pose proof (Permutation_length P) as PL. destruct d' as [|u [|v [|w [|? ?]]]]; try discriminate PL.
    assert (PI : forall o, In o [u; v; w] -> 0 < o). { intros o Ho. apply (Permutation_in _ (Permutation_sym P)) in Ho. cbn in Ho. intuition (subst; auto). }
    pose proof (perm_fold Rmult ltac:(intros; ring) 1 _ _ P) as F1. pose proof (perm_fold Rplus ltac:(intros; ring) 0 _ _ P) as F2.
    pose proof (perm_fold Rplus ltac:(intros; ring) 0 _ _ (Permutation_map (fun o => o * o) P)) as F3. cbn [map fold_right] in F1, F2, F3.
    apply G; [apply PI; cbn; auto ..| |]. lra. assert (F4 : (x + (y + (z + 0))) * (x + (y + (z + 0))) = (u + (v + (w + 0))) * (u + (v + (w + 0)))) by (rewrite F2; reflexivity). lra.
Qed.
Print Assumptions C57_shoebox.
Example C57_shoebox_example : exists r, shoebox_new [3; 4; 5] None (Some (1 / 10)) = Ok r.
Proof.
  unfold shoebox_new. do 3 (destruct (Rlt_dec 0 _); [|lra]). apply C57_accepted; lra.
Qed.

(** ** Points in the room *)
Definition inside (dims p : R * R * R) : Prop := let '(x, y, z) := dims in let '(a, b, c) := p in 0 <= a <= x /\ 0 <= b <= y /\ 0 <= c <= z.
Lemma leb_iff a b : leb a b = true <-> a <= b.
Proof. unfold leb. destruct (Rle_dec a b); split; auto; try discriminate. Qed.
(** Every point of the room is accepted and points beyond the far walls are refused; with coordinates that are not negative the
    test is exact. *)
Theorem C57_in_room dims p : (inside dims p -> in_room dims p = true) /\
  (let '(a, b, c) := p in 0 <= a -> 0 <= b -> 0 <= c -> (in_room dims p = true <-> inside dims p)).
Proof.
  destruct dims as [[x y] z], p as [[a b] c]. unfold in_room, inside. rewrite !andb_true_iff, !leb_iff. split; intros; lra.
Qed.
Print Assumptions C57_in_room.
(** Points on the other side of the walls at the origin are taken for points in the room. *)
Theorem C57_in_room_refuted : ~ (forall dims p, in_room dims p = true -> inside dims p).
Proof.
  intros H. specialize (H (1, 1, 1) (-5, 1, 1)). unfold in_room, inside in H. rewrite !andb_true_iff, !leb_iff in H. lra.
Qed.
Print Assumptions C57_in_room_refuted.

(** ** Modes *)
Lemma insert_perm v l : Permutation (v :: l) (insert_mode v l).
Proof. induction l as [|w t IH]; cbn. auto. destruct (Rle_dec _ _); auto. rewrite perm_swap. auto. Qed.
Lemma sort_perm l : Permutation l (sort_modes l).
Proof. induction l as [|v t IH]; cbn. auto. rewrite <- insert_perm. auto. Qed.
Definition by_frequency (a b : mode) : Prop := fst a <= fst b.
Lemma insert_sorted v l : Sorted by_frequency l -> Sorted by_frequency (insert_mode v l).
Proof.
  induction l as [|w t IH]; intros S; cbn. repeat constructor. destruct (Rle_dec _ _) as [H|H].
  - constructor; auto. 
  - apply Rnot_le_lt in H. inversion S as [|? ? S' Hd]; subst. constructor; auto. destruct t as [|u t]; cbn in *. constructor. unfold by_frequency. lra.
    destruct (Rle_dec _ _); constructor; unfold by_frequency in *. lra. inversion Hd; auto.
Qed.
Lemma sort_sorted l : Sorted by_frequency (sort_modes l).
Proof. induction l; cbn. constructor. now apply insert_sorted. Qed.
Lemma triples_in m a b c : In (a, b, c) (triples m) <-> (a < m /\ b < m /\ c < m)%nat.
Proof.
  unfold triples. rewrite in_flat_map. split.
  - intros (i & Hi & H). rewrite in_flat_map in H. destruct H as (j & Hj & H). rewrite in_map_iff in H. destruct H as (k & E & Hk). injection E as <- <- <-.
    rewrite !in_seq in *. lia.
  - intros H. exists a. rewrite in_seq. split. lia. rewrite in_flat_map. exists b. rewrite in_seq. split. lia. apply in_map_iff. exists c. rewrite in_seq. split; auto. lia.
Qed.
Lemma NoDup_flat {A B} (f : A -> list B) l : NoDup l -> (forall a, In a l -> NoDup (f a)) ->
  (forall a b x, In a l -> In b l -> In x (f a) -> In x (f b) -> a = b) -> NoDup (flat_map f l).
Proof.
  induction l as [|a t IH]; intros N F D; cbn. constructor. inversion N as [|? ? Na Nt]; subst.
  assert (NA : NoDup (f a)) by (apply F; now left). assert (NT : NoDup (flat_map f t)).
  { apply IH; auto. intros b Hb. apply F. now right. intros b c x Hb Hc. apply D; now right. }
  assert (DJ : forall x, In x (f a) -> ~ In x (flat_map f t)).
  { intros x Hx Hy. rewrite in_flat_map in Hy. destruct Hy as (b & Hb & Hy). assert (a = b) by (apply (D a b x); auto; [now left|now right]). subst. contradiction. }
  clear -NA NT DJ. induction (f a) as [|x l IH]; cbn; auto. inversion NA; subst. constructor. rewrite in_app_iff. intros [H|H]; [contradiction|]. eapply DJ; eauto. now left.
  apply IH; auto. intros y Hy. apply DJ. now right.
Qed.
Lemma triples_nodup m : NoDup (triples m).
Proof.
  unfold triples. apply NoDup_flat. apply seq_NoDup.
  - intros a _. apply NoDup_flat. apply seq_NoDup.
    + intros b _. apply FinFun.Injective_map_NoDup. intros c d E. congruence. apply seq_NoDup.
    + intros b c x _ _ H1 H2. rewrite in_map_iff in *. destruct H1 as (? & <- & _), H2 as (? & E & _). congruence.
  - intros a b x _ _ H1 H2. rewrite in_flat_map in *. destruct H1 as (? & _ & H1), H2 as (? & _ & H2). rewrite in_map_iff in *.
    destruct H1 as (? & <- & _), H2 as (? & E & _). congruence.
Qed.
Lemma flat_length {A B} (f : A -> list B) n l : (forall a, length (f a) = n) -> length (flat_map f l) = (length l * n)%nat.
Proof. intros H. induction l; cbn; auto. rewrite app_length, H, IHl. lia. Qed.
Lemma triples_length m : length (triples m) = (m * m * m)%nat.
Proof.
  unfold triples. rewrite (flat_length _ (m * m)%nat). rewrite seq_length. lia.
  intros a. rewrite (flat_length _ m). now rewrite seq_length. intros b. now rewrite map_length, seq_length.
Qed.
Lemma triples_head m : exists l, triples (S m) = (0, 0, 0)%nat :: l.
Proof. unfold triples. cbn [seq flat_map map app]. eauto. Qed.
(** The list of modes contains every mode number up to the order in every direction exactly once, except the constant mode,
    each with the frequency c / 2 sqrt ((a / x)^2 + (b / y)^2 + (d / z)^2), in ascending order. *)
Theorem C57_modes m c dims : let l := room_modes m c dims in
  (forall f a b d, In (f, (a, b, d)) l <-> (a <= m /\ b <= m /\ d <= m)%nat /\ (a, b, d) <> (0, 0, 0)%nat /\ f = mode_freq c dims (a, b, d)) /\
  NoDup (map snd l) /\ length l = (S m * S m * S m - 1)%nat /\
  (forall i j, (i <= j)%nat -> (j < length l)%nat -> fst (nth i l (0, (0, 0, 0)%nat)) <= fst (nth j l (0, (0, 0, 0)%nat))).
Proof.
  cbn zeta. destruct (triples_head m) as [l El]. unfold room_modes. rewrite El. cbn [map tl].
  set (q := map (fun n => (mode_freq c dims n, n)) l). pose proof (sort_perm q) as P. pose proof (triples_nodup (S m)) as N. rewrite El in N. inversion N as [|? ? N0 N1]; subst.
  assert (Mq : map snd q = l). { unfold q. rewrite map_map. cbn. apply map_id. }
  split; [|split; [|split]].
  - intros f a b d. transitivity (In (f, (a, b, d)) q). split; intros H. eapply Permutation_in; [apply Permutation_sym, P|]; auto. eapply Permutation_in; eauto.
    unfold q. rewrite in_map_iff. pose proof (triples_in (S m) a b d) as T. rewrite El in T. cbn [In] in T. split.
    + intros (n & E & Hn). injection E as <- ->. split; [|split; auto]. assert (a < S m /\ b < S m /\ d < S m)%nat by (apply T; now right). lia. intros X. rewrite X in Hn. contradiction.
    + intros (B & NE & ->). exists (a, b, d). split; auto. assert (H : (0, 0, 0)%nat = (a, b, d) \/ In (a, b, d) l) by (apply T; lia). destruct H; auto. congruence.
  - eapply Permutation_NoDup. apply Permutation_map, P. now rewrite Mq.
  - rewrite <- (Permutation_length P). pose proof (triples_length (S m)) as L. rewrite El in L. cbn [length] in L. pose proof (map_length snd q) as Lq. rewrite Mq in Lq. unfold mode in *. lia.
  - pose proof (sort_sorted q) as S. apply Sorted_StronglySorted in S; [|unfold Relations_1.Transitive, by_frequency; intros; lra].
    set (w := sort_modes q) in *. clearbody w. clear -S. induction S as [|v t S IH F]; cbn [length]. intros; lia.
    intros [|i] [|j] H1 H2; cbn [nth]; try lra; try lia.
    + rewrite Forall_forall in F. apply F. apply nth_In. lia.
    + apply IH; lia.
Qed.
Print Assumptions C57_modes.
Lemma mode_freq_pos c dims n : 0 < c -> (let '(x, y, z) := dims in 0 < x /\ 0 < y /\ 0 < z) -> n <> (0, 0, 0)%nat -> 0 < mode_freq c dims n.
Proof.
  destruct dims as [[x y] z], n as [[a b] d]. intros Hc (Hx & Hy & Hz) N. unfold mode_freq. apply Rmult_lt_0_compat. lra. apply sqrt_lt_R0.
  assert (Q : forall k w, 0 < w -> 0 <= INR k / w * (INR k / w) /\ (k <> 0%nat -> 0 < INR k / w * (INR k / w))).
  { intros k w Hw. split. apply Rle_0_sqr. intros Hk. assert (0 < INR k / w) by (apply Rdiv_lt_0_compat; auto; apply lt_0_INR; lia). now apply Rmult_lt_0_compat. }
  destruct (Q a x Hx), (Q b y Hy), (Q d z Hz). destruct a as [|a], b as [|b], d as [|d]; try congruence; repeat match goal with H : S ?k <> _ -> _ |- _ => specialize (H ltac:(lia)) end; lra.
Qed.
(** No mode has frequency zero, and the lowest one belongs to the longest side of the room. *)
Theorem C57_lowest_mode m c x y z : 0 < c -> 0 < x -> 0 < y -> 0 < z ->
  (forall f n, In (f, n) (room_modes (S m) c (x, y, z)) -> c / (2 * Rmax x (Rmax y z)) <= f) /\
  (exists n, In (c / (2 * Rmax x (Rmax y z)), n) (room_modes (S m) c (x, y, z))).
Proof.
  intros Hc Hx Hy Hz. set (w := Rmax x (Rmax y z)). assert (Wx : x <= w) by apply Rmax_l. assert (Wy : y <= w) by (eapply Rle_trans; [apply Rmax_l|apply Rmax_r]).
  assert (Wz : z <= w) by (eapply Rle_trans; [apply Rmax_r|apply Rmax_r]). assert (W0 : 0 < w) by lra.
  destruct (C57_modes (S m) c (x, y, z)) as (I & _). split.
  - intros f [[a b] d] H. apply I in H. destruct H as (_ & N & ->). unfold mode_freq. replace (c / (2 * w)) with (c / 2 * / w) by (field; lra). apply Rmult_le_compat_l. lra.
    rewrite <- (sqrt_square (/ w)) by (apply Rlt_le, Rinv_0_lt_compat; auto). apply sqrt_le_1_alt.
    assert (Q : forall k v, 0 < v -> v <= w -> 0 <= INR k / v * (INR k / v) /\ (k <> 0%nat -> / w * / w <= INR k / v * (INR k / v))).
    { intros k v Hv Hw. split. apply Rle_0_sqr. intros Hk. assert (1 <= INR k) by (change 1 with (INR 1); apply le_INR; lia).
      assert (/ w <= INR k / v). { apply Rle_trans with (/ v). apply Rinv_le_contravar; auto. rewrite <- (Rmult_1_l (/ v)) at 1. apply Rmult_le_compat_r; auto. apply Rlt_le, Rinv_0_lt_compat; auto. }
      assert (0 < / w) by (apply Rinv_0_lt_compat; auto). apply Rmult_le_compat; lra. }
    destruct (Q a x Hx Wx), (Q b y Hy Wy), (Q d z Hz Wz). destruct a as [|a], b as [|b], d as [|d]; try congruence; repeat match goal with H : S ?k <> _ -> _ |- _ => specialize (H ltac:(lia)) end; lra.
  - assert (Z0 : INR 0 = 0) by reflexivity. assert (O1 : INR 1 = 1) by reflexivity. assert (C : w = x \/ w = y \/ w = z).
    { unfold w, Rmax. repeat destruct (Rle_dec _ _); auto. }
    assert (P : forall v, 0 < v -> sqrt (1 / v * (1 / v)) = / v). { intros v Hv. rewrite sqrt_square. field. lra. apply Rlt_le, Rdiv_lt_0_compat; lra. }
    destruct C as [C|[C|C]]; [exists (1, 0, 0)%nat|exists (0, 1, 0)%nat|exists (0, 0, 1)%nat]; apply I; (split; [lia|split; [congruence|]]); unfold mode_freq; rewrite Z0, O1, C.
    + replace (1 / x * (1 / x) + 0 / y * (0 / y) + 0 / z * (0 / z)) with (1 / x * (1 / x)) by (field; lra). rewrite P by auto. field. lra.
    + replace (0 / x * (0 / x) + 1 / y * (1 / y) + 0 / z * (0 / z)) with (1 / y * (1 / y)) by (field; lra). rewrite P by auto. field. lra.
    + replace (0 / x * (0 / x) + 0 / y * (0 / y) + 1 / z * (1 / z)) with (1 / z * (1 / z)) by (field; lra). rewrite P by auto. field. lra.
Qed.
Print Assumptions C57_lowest_mode.

(** ** Reciprocity *)
(** Source and receiver can be swapped. *)
Theorem C57_reciprocity r s q m c f : analytical_tf r s q m c f = analytical_tf r q s m c f.
Proof.
  unfold analytical_tf. destruct (rm_dims r) as [[[x y] z]|]; auto. rewrite (andb_comm (in_room _ s)). destruct (_ && _); auto. f_equal. f_equal. f_equal. apply map_ext.
  intros [[a b] d]. destruct s as [[s1 s2] s3], q as [[q1 q2] q3]. unfold mode_term. f_equal. f_equal. ring.
Qed.
Print Assumptions C57_reciprocity.
Definition mirror (L v : R) : R := L - v.
(** Turning the room by half a turn (all three coordinates mirrored, of source and receiver) changes nothing either. *)
Lemma cos_mirror n L v w : 0 < L -> cos (INR n / L * PI * mirror L v) * cos (INR n / L * PI * mirror L w) = cos (INR n / L * PI * v) * cos (INR n / L * PI * w).
Proof.
  intros HL. assert (M : forall v, cos (INR n / L * PI * mirror L v) = cos (INR n * PI) * cos (INR n / L * PI * v)).
  { intros u. unfold mirror. replace (INR n / L * PI * (L - u)) with (INR n * PI - INR n / L * PI * u) by (field; lra). rewrite cos_minus.
    replace (sin (INR n * PI)) with 0. ring. symmetry. rewrite INR_IZR_INZ. apply sin_eq_0_1. eauto. }
  rewrite !M. assert (S1 : cos (INR n * PI) * cos (INR n * PI) = 1).
  { pose proof (sin2_cos2 (INR n * PI)) as E. unfold Rsqr in E. assert (S0 : sin (INR n * PI) = 0) by (rewrite INR_IZR_INZ; apply sin_eq_0_1; eauto). rewrite S0 in E. lra. }
  replace (cos (INR n * PI) * cos (INR n / L * PI * v) * (cos (INR n * PI) * cos (INR n / L * PI * w))) with ((cos (INR n * PI) * cos (INR n * PI)) * (cos (INR n / L * PI * v) * cos (INR n / L * PI * w))) by ring.
  rewrite S1. ring.
Qed.
Theorem C57_mirror r x y z s1 s2 s3 q1 q2 q3 m c f : rm_dims r = Some (x, y, z) -> inside (x, y, z) (s1, s2, s3) -> inside (x, y, z) (q1, q2, q3) -> 0 < x -> 0 < y -> 0 < z ->
  analytical_tf r (mirror x s1, mirror y s2, mirror z s3) (mirror x q1, mirror y q2, mirror z q3) m c f = analytical_tf r (s1, s2, s3) (q1, q2, q3) m c f.
Proof.
  intros E Hs Hq Hx Hy Hz. unfold analytical_tf. rewrite E. destruct (C57_in_room (x, y, z) (s1, s2, s3)) as [I1 _], (C57_in_room (x, y, z) (q1, q2, q3)) as [I2 _].
  destruct (C57_in_room (x, y, z) (mirror x s1, mirror y s2, mirror z s3)) as [I3 _], (C57_in_room (x, y, z) (mirror x q1, mirror y q2, mirror z q3)) as [I4 _].
  rewrite I1, I2, I3, I4 by (auto; unfold inside, mirror in *; lra). cbn [andb]. f_equal. f_equal. f_equal. apply map_ext. intros [[a b] d]. unfold mode_term.
  rewrite !cos_mirror; auto.
Qed.
Print Assumptions C57_mirror.
Example C57_mirror_example : inside (3, 4, 5) (1, 1, 1) /\ inside (3, 4, 5) (2, 0, 5).
Proof. unfold inside. lra. Qed.
(** The weight of a mode is eight times its mean square over the room, which is found with an antiderivative. *)
Definition mean_cos2 (n : nat) (m : R) : Prop := exists F, (forall t, derivable_pt_lim F t (cos (INR n * PI * t) * cos (INR n * PI * t))) /\ F 1 - F 0 = m.
Lemma mean_zero : mean_cos2 0 1.
Proof.
  exists (fun t => t). split; [|lra]. intros t. replace (cos (INR 0 * PI * t) * cos (INR 0 * PI * t)) with 1. apply derivable_pt_lim_id. simpl. rewrite !Rmult_0_l, cos_0. ring.
Qed.
Lemma mean_pos n : n <> 0%nat -> mean_cos2 n (/ 2).
Proof.
  intros Hn. assert (P : 0 < INR n * PI) by (apply Rmult_lt_0_compat; [apply lt_0_INR; lia|apply PI_RGT_0]). set (k := INR n * PI) in *.
  exists (fun t => / 2 * t + / (4 * k) * sin (2 * k * t)). split.
  - intros t. fold k. replace (cos (k * t) * cos (k * t)) with (/ 2 * 1 + / (4 * k) * (cos (2 * k * t) * (2 * k * 1))).
    + apply (derivable_pt_lim_plus (fun t => / 2 * t) (fun t => / (4 * k) * sin (2 * k * t))). apply (derivable_pt_lim_scal (fun t => t)). apply derivable_pt_lim_id.
      apply (derivable_pt_lim_scal (fun t => sin (2 * k * t))). apply (derivable_pt_lim_comp (fun t => 2 * k * t) sin). apply (derivable_pt_lim_scal (fun t => t)). apply derivable_pt_lim_id. apply derivable_pt_lim_sin.
    + replace (2 * k * t) with (2 * (k * t)) by ring. rewrite cos_2a_cos. field. lra.
  - rewrite !Rmult_0_r, sin_0, !Rmult_1_r. replace (2 * k) with (IZR (Z.of_nat (2 * n)) * PI) by (rewrite <- INR_IZR_INZ, mult_INR; unfold k; simpl; ring).
    rewrite (sin_eq_0_1 (IZR (Z.of_nat (2 * n)) * PI)) by eauto. ring.
Qed.
Theorem C57_mode_sum r x y z s1 s2 s3 q1 q2 q3 m c f h : rm_dims r = Some (x, y, z) ->
  analytical_tf r (s1, s2, s3) (q1, q2, q3) m c f = Ok h ->
  exists weight : nat * nat * nat -> R,
    (forall a b d, (a, b, d) <> (0, 0, 0)%nat -> exists m1 m2 m3, mean_cos2 a m1 /\ mean_cos2 b m2 /\ mean_cos2 d m3 /\ weight (a, b, d) = 8 * (m1 * m2 * m3)) /\
    let shape a b d := cos (INR a * PI * s1 / x) * cos (INR a * PI * q1 / x) * (cos (INR b * PI * s2 / y) * cos (INR b * PI * q2 / y)) * (cos (INR d * PI * s3 / z) * cos (INR d * PI * q3 / z)) in
    let wn a b d := c * sqrt ((INR a / x * PI) * (INR a / x * PI) + (INR b / y * PI) * (INR b / y * PI) + (INR d / z * PI) * (INR d / z * PI)) in
    h = cmul (fold_left cadd (map (fun n => let '(a, b, d) := n in
          cmul (rc (shape a b d)) (cinv (cmul (rc (weight n)) (wn a b d * wn a b d - (2 * PI * f) * (2 * PI * f), 2 * (ln 1000 / rm_t60 r) * wn a b d)))) (tl (triples (S m)))) (rc 0))
        (rc (8 * (c * c) / (x * y * z))).
Proof.
  intros E H. unfold analytical_tf in H. rewrite E in H. destruct (_ && _); [|discriminate]. injection H as <-. exists cn. split.
  - intros a b d N. assert (M : forall n, mean_cos2 n (if (n =? 0)%nat then 1 else / 2)). { intros n. destruct (Nat.eqb_spec n 0) as [->|]. apply mean_zero. now apply mean_pos. }
    eexists _, _, _. split; [apply M|]. split; [apply M|]. split; [apply M|]. unfold cn.
    destruct a as [|a], b as [|b], d as [|d]; cbn [Nat.eqb Nat.add]; try lra. congruence.
  - cbv zeta. f_equal. f_equal. apply map_ext. intros [[a b] d]. unfold mode_term.
    replace (INR a * PI * s1 / x) with (INR a / x * PI * s1) by (unfold Rdiv; ring). replace (INR a * PI * q1 / x) with (INR a / x * PI * q1) by (unfold Rdiv; ring).
    replace (INR b * PI * s2 / y) with (INR b / y * PI * s2) by (unfold Rdiv; ring). replace (INR b * PI * q2 / y) with (INR b / y * PI * q2) by (unfold Rdiv; ring).
    replace (INR d * PI * s3 / z) with (INR d / z * PI * s3) by (unfold Rdiv; ring). replace (INR d * PI * q3 / z) with (INR d / z * PI * q3) by (unfold Rdiv; ring). reflexivity.
Qed.
Print Assumptions C57_mode_sum.
Example C57_mode_sum_example : exists r h, shoebox_new [3; 4; 5] None (Some (1 / 10)) = Ok r /\ rm_dims r = Some (3, 4, 5) /\ analytical_tf r (1, 1, 1) (2, 2, 2) 3 343 100 = Ok h.
Proof.
  destruct C57_shoebox_example as [r Hr]. exists r. unfold shoebox_new in Hr. assert (D : rm_dims r = Some (3, 4, 5)).
  { revert Hr. repeat (match goal with |- context [if ?c then _ else _] => destruct c; try discriminate end). intros Hr. apply room_inv in Hr. destruct Hr as (_ & _ & t & a & -> & _). reflexivity. }
  eexists. split. exact Hr. split. exact D. unfold analytical_tf. rewrite D. destruct (C57_in_room (3, 4, 5) (1, 1, 1)) as [I1 _], (C57_in_room (3, 4, 5) (2, 2, 2)) as [I2 _]. rewrite I1, I2 by (unfold inside; lra). reflexivity.
Qed.

(** ** Detailed absorption *)
Definition widen (ab : list R) : list R := if (length ab =? 1)%nat then repeat (get ab 0) 8 else ab.
Lemma check_loop_ok d : forall nb d1 nb', (nb <= 8)%nat -> check_loop d nb = (d1, Ok nb') ->
  d1 = map (fun e => (fst e, widen (snd e))) d /\ (nb <= nb' <= 8)%nat /\ (nb' = nb \/ exists e, In e d /\ length (snd e) = nb') /\
  (forall e, In e d -> (length (snd e) <> 1%nat -> length (snd e) <= nb')%nat /\ forall v, In v (snd e) -> 0 < v < 1).
Proof.
  induction d as [|[k ab] t IH]; intros nb d1 nb' Hn E.
  { cbn in E. injection E as <- <-. repeat split; auto; try contradiction. }
  cbn [check_loop] in E. unfold widen.
  assert (A01 : all01 ab = true -> forall v, In v ab -> 0 < v < 1).
  { unfold all01. rewrite forallb_forall. intros H v Hv. specialize (H v Hv). destruct (Rlt_dec v 1); [|discriminate]. destruct (Rlt_dec 0 v); [|discriminate]. lra. }
  cbn [map fst snd]. destruct (length ab =? 1)%nat eqn:E1.
  - destruct (all01 ab) eqn:EA; [|discriminate]. destruct (check_loop t nb) as [t' r'] eqn:ER. injection E as <- ->. specialize (IH nb t' nb' Hn ER).
    destruct IH as (-> & B & C & D). split; auto. split; auto. split. destruct C as [C|(e & He & C)]; auto. right. exists e. split; auto. now right.
    intros e [<-|He]; auto. cbn [snd]. apply Nat.eqb_eq in E1. split; [intros; lia|auto].
  - destruct (length ab <=? 8)%nat eqn:E2; [|discriminate]. apply Nat.leb_le in E2. destruct (all01 ab) eqn:EA; [|discriminate].
    set (nb1 := if (length ab <? nb)%nat then nb else length ab) in *. assert (B1 : (nb <= nb1 <= 8)%nat /\ (length ab <= nb1)%nat /\ (nb1 = nb \/ nb1 = length ab)).
    { unfold nb1. destruct (length ab <? nb)%nat eqn:E3; [apply Nat.ltb_lt in E3|apply Nat.ltb_ge in E3]; lia. }
    destruct (check_loop t nb1) as [t' r'] eqn:ER. injection E as <- ->. specialize (IH nb1 t' nb' ltac:(lia) ER). destruct IH as (-> & B & C & D). split; auto. split; [lia|]. split.
    + destruct C as [C|(e & He & C)]. destruct B1 as (_ & _ & [B1|B1]); [left; lia|]. right. exists (k, ab). split. now left. cbn. lia. right. exists e. split; auto. now right.
    + intros e [<-|He]; auto. cbn [snd]. split; [intros; lia|auto].
Qed.
Lemma fit_loop_ok nb d : forall d2, fit_loop nb d = (d2, None) -> (forall e, In e d -> (1 <= nb)%nat -> snd e <> []) /\
  d2 = map (fun e => (fst e, if (nb <=? length (snd e))%nat then firstn nb (snd e) else snd e ++ repeat (last (snd e) 0) (nb - length (snd e)))) d.
Proof.
  induction d as [|[k l] t IH]; intros d2 E; cbn [fit_loop] in E. injection E as <-. split; auto.
  unfold fit_bands in E. cbn [map fst snd].
  assert (G : l <> [] \/ nb = 0%nat \/ fit_bands nb l = Err ValueError). { destruct l; [destruct nb; [right; left; reflexivity|right; right; reflexivity]|left; discriminate]. }
  unfold fit_bands in G. destruct (nb <=? length l)%nat eqn:E1.
  - destruct (fit_loop nb t) as [t' e']. injection E as <- ->. destruct (IH t' eq_refl) as (N & ->). split; auto. intros e [<-|He] H1; auto. cbn [snd].
    destruct G as [G|[G|G]]; auto; [lia|discriminate].
  - destruct l as [|v l]; [discriminate|]. destruct (fit_loop nb t) as [t' e']. injection E as <- ->. destruct (IH t' eq_refl) as (N & ->). split; auto. intros e [<-|He] H1; auto. discriminate.
Qed.
Lemma find_map k (f : list R -> list R) d : find (fun e => key_eqb k (fst e)) (map (fun e => (fst e, f (snd e))) d) =
  match find (fun e => key_eqb k (fst e)) d with Some e => Some (fst e, f (snd e)) | None => None end.
Proof. induction d as [|e t IH]; cbn; auto. destruct (key_eqb k (fst e)); auto. Qed.
Lemma lookup_map k f d : has_key k d = true -> lookup k (map (fun e => (fst e, f (snd e))) d) = f (lookup k d).
Proof.
  unfold has_key, lookup. rewrite find_map. intros H. destruct (find _ d) eqn:E; auto. exfalso. apply existsb_exists in H. destruct H as (e & He & H).
  pose proof (find_none _ _ E e He) as X. cbn in X. congruence.
Qed.
Lemma lookup_in k d : has_key k d = true -> exists e, In e d /\ lookup k d = snd e.
Proof.
  unfold has_key, lookup. intros H. destruct (find _ d) as [e|] eqn:E. exists e. split; auto. apply find_some in E. tauto.
  exfalso. apply existsb_exists in H. destruct H as (e & He & H). pose proof (find_none _ _ E e He) as X. cbn in X. congruence.
Qed.
Lemma has_key_map k f d : has_key k (map (fun e : key * list R => (fst e, f (snd e))) d) = has_key k d.
Proof. unfold has_key. induction d; cbn; congruence. Qed.
Definition fitted (nb : nat) (l : list R) : list R := if (nb <=? length l)%nat then firstn nb l else l ++ repeat (last l 0) (nb - length l).
Lemma last_get (l : list R) : last l 0 = get l (length l - 1).
Proof.
  induction l as [|a t IH]; auto. destruct t as [|b t]; auto. change (last (a :: b :: t) 0) with (last (b :: t) 0). rewrite IH. cbn [length].
  replace (S (S (length t)) - 1)%nat with (S (S (length t) - 1)) by lia. reflexivity.
Qed.
Lemma get_fitted nb ab b : (b < nb <= 8)%nat -> ab <> [] -> (length ab <= nb)%nat \/ length ab = 1%nat -> get (fitted nb (widen ab)) b = get ab (Nat.min b (length ab - 1)).
Proof.
  intros Hb N L. assert (1 <= length ab)%nat by (destruct ab; [congruence|simpl; lia]). unfold widen. destruct (length ab =? 1)%nat eqn:E1.
  - apply Nat.eqb_eq in E1. rewrite E1. replace (Nat.min b (1 - 1)) with 0%nat by lia. unfold fitted. rewrite repeat_length. destruct (nb <=? 8)%nat eqn:E2; [|apply Nat.leb_gt in E2; lia].
    destruct ab as [|v [|? ?]]; try discriminate. unfold get at 2. cbn [nth]. clear -Hb. unfold get. destruct Hb as [B1 B2]. 
    do 9 (destruct nb as [|nb]; [do 8 (destruct b as [|b]; [try lia; reflexivity|]); lia|]). lia.
  - apply Nat.eqb_neq in E1. destruct L as [L|L]; [|lia]. unfold fitted. destruct (nb <=? length ab)%nat eqn:E2.
    + apply Nat.leb_le in E2. rewrite firstn_all2 by lia. f_equal. lia.
    + unfold get. destruct (Nat.lt_ge_cases b (length ab)). rewrite app_nth1 by lia. f_equal. lia.
      rewrite app_nth2 by lia. rewrite last_get. set (v := get ab (length ab - 1)). rewrite (nth_indep _ _ v) by (rewrite repeat_length; lia). rewrite nth_repeat. unfold v, get. f_equal. lia.
Qed.
(** The area of a wall. *)
Definition wall_area (dims : R * R * R) (w : wall) : R := let '(x, y, z) := dims in
  match w with Ceiling | Floor => x * y | North | South => x * z | East | West => y * z end.
(** The coefficient of wall w in band b: the one given for it, the last one given for all higher bands. *)
Definition coeff (d : dict) (w : wall) (b : nat) : R := let ab := lookup (Wall w) d in get ab (Nat.min b (length ab - 1)).
Fixpoint wsum (l : list wall) (f : wall -> R) : R := match l with [] => 0 | w :: t => f w + wsum t f end.
Lemma add_inv r d d' r' : add_detailed r d = (d', Ok r') -> exists dims nb, rm_dims r = Some dims /\ (1 <= nb <= 8)%nat /\
  (forall w, In w walls -> has_key (Wall w) d = true) /\ length d = 6%nat /\
  (forall w, lookup (Wall w) d <> [] /\ (length (lookup (Wall w) d) <= nb)%nat /\ forall v, In v (lookup (Wall w) d) -> 0 < v < 1) /\
  (nb = 1%nat \/ exists w, length (lookup (Wall w) d) = nb \/ exists e, In e d /\ length (snd e) = nb) /\
  length d' = 13%nat /\ (forall k, has_key k d = true -> has_key k d' = true) /\
  let area := mk nb (fun b => wsum walls (fun w => wall_area dims w * coeff d w b)) in
  let alpha := rsum nb (fun b => get area b / rm_area r * (2 ^ b / rsum nb (fun b => 2 ^ b))) in
  rm_dims r' = rm_dims r /\ rm_vol r' = rm_vol r /\ rm_area r' = rm_area r /\ rm_alpha r' = alpha /\ rm_t60 r' = 161 / 1000 * rm_vol r / (alpha * rm_area r) /\
  rm_schroeder r' = rm_schroeder r /\ rm_critical r' = rm_critical r /\
  exists D, rm_detail r' = Some D /\ dt_area D = area /\ dt_mean D = map (fun a => a / rm_area r) area /\ dt_freqs D = mk nb (fun b => 125 * 2 ^ b) /\
    dt_t60 D = map (fun a => 161 / 1000 * rm_vol r / a) area /\
    length (dt_matrix D) = 6%nat /\ forall w b, (b < nb)%nat -> get (nth (wall_index w) (dt_matrix D) []) b = coeff d w b.
Proof.
  unfold add_detailed. destruct (rm_dims r) as [[[x y] z]|] eqn:ED; [|discriminate]. destruct (length d =? 6)%nat eqn:EL; [|discriminate]. cbn [negb].
  destruct (forallb _ walls) eqn:EW; [|discriminate]. cbn [negb]. destruct (check_loop d 1) as [d1 [nb|e]] eqn:EC; [|discriminate]. destruct (fit_loop nb d1) as [d2 [e|]] eqn:EF; [discriminate|].
  intros E. injection E as <- <-. apply check_loop_ok in EC; [|lia]. destruct EC as (-> & B & C & A). pose proof (fit_loop_ok _ _ _ EF) as (N & E2). apply Nat.eqb_eq in EL.
  assert (HK : forall w, has_key (Wall w) d = true). { rewrite forallb_forall in EW. intros w. apply EW. destruct w; cbn; auto 10. }
  assert (LK : forall w, exists e, In e d /\ lookup (Wall w) d = snd e) by (intros w; apply lookup_in, HK).
  assert (NE : forall w, lookup (Wall w) d <> []). { intros w. destruct (LK w) as (e & He & ->). specialize (N (fst e, widen (snd e))). intros X. apply N; [|lia|].
    apply (in_map (fun e => (fst e, widen (snd e)))); auto. cbn [snd]. rewrite X. reflexivity. }
  assert (LL : forall w, (length (lookup (Wall w) d) <= nb)%nat). { intros w. specialize (NE w). destruct (LK w) as (e & He & Q). rewrite Q in *. destruct (A e He) as [A1 _].
    destruct (Nat.eq_dec (length (snd e)) 1); [lia|auto]. }
  assert (ROW : forall w b, (b < nb)%nat -> get (lookup (Wall w) d2) b = coeff d w b).
  { intros w b Hb. rewrite E2. pose proof (lookup_map (Wall w) (fitted nb) (map (fun e => (fst e, widen (snd e))) d)) as X. unfold fitted at 1 in X. rewrite X by (rewrite has_key_map; auto).
    rewrite lookup_map by auto. rewrite get_fitted; auto. lia. }
  assert (AR : mk nb (fun b => x * y * (get (lookup (Wall Ceiling) d2) b + get (lookup (Wall Floor) d2) b) + x * z * (get (lookup (Wall South) d2) b + get (lookup (Wall North) d2) b)
                                    + y * z * (get (lookup (Wall East) d2) b + get (lookup (Wall West) d2) b)) = mk nb (fun b => wsum walls (fun w => wall_area (x, y, z) w * coeff d w b))).
  { apply mk_ext. intros b Hb. rewrite !ROW by auto. cbn [walls wsum wall_area]. ring. }
  rewrite AR. exists (x, y, z), nb. split; [reflexivity|]. split; [lia|]. split; [auto|]. split; [auto|].
  split. { intros w. repeat split; auto. destruct (LK w) as (e & He & Q). rewrite Q in *. apply (proj2 (A e He) v H). destruct (LK w) as (e & He & Q). rewrite Q in *. apply (proj2 (A e He) v H). }
  split. { destruct C as [C|C]; auto. right. exists North. auto. }
  split. { rewrite E2, app_length, !map_length. cbn [seq map length]. lia. }
  split. { intros k Hk. unfold has_key in *. rewrite existsb_app. apply orb_true_iff. left. rewrite E2.
    pose proof (has_key_map k (fitted nb) (map (fun e => (fst e, widen (snd e))) d)) as X. rewrite (has_key_map k widen d) in X. unfold has_key, fitted in X. rewrite X. auto. }
  cbn zeta. cbn [rm_dims rm_vol rm_area rm_alpha rm_t60 rm_schroeder rm_critical rm_detail].
  set (area := mk nb _).
  assert (AL : rsum nb (fun b => get (map (fun a => a / rm_area r) area) b * (2 ^ b / rsum nb (fun b0 => 2 ^ b0))) = rsum nb (fun b => get area b / rm_area r * (2 ^ b / rsum nb (fun b0 => 2 ^ b0)))).
  { apply sum_ext. intros b Hb. f_equal. unfold get. rewrite (nth_indep _ _ (0 / rm_area r)). apply (map_nth (fun a => a / rm_area r)). rewrite map_length. unfold area. now rewrite mk_length. }
  rewrite AL. repeat split; auto. eexists. split; [reflexivity|]. cbn [dt_matrix dt_area dt_mean dt_freqs dt_t60]. repeat split; auto.
  intros w b Hb. rewrite <- ROW by auto. destruct w; reflexivity.
Qed.
Lemma key_eqb_eq a b : key_eqb a b = true <-> a = b.
Proof.
  destruct a as [v|n], b as [w|m]; unfold key_eqb; rewrite ?Nat.eqb_eq; split; intros H; try congruence. destruct v, w; cbn in H; congruence.
Qed.
Lemma lookup_here d k l : NoDup (map fst d) -> In (k, l) d -> lookup k d = l.
Proof.
  unfold lookup. induction d as [|[k' l'] t IH]; cbn [map fst In find]; intros N H; [contradiction|]. inversion N as [|? ? N1 N2]; subst. destruct (key_eqb k k') eqn:E.
  - apply key_eqb_eq in E. subst k'. destruct H as [H|H]; [injection H as ->; reflexivity|]. exfalso. apply N1. apply (in_map fst) in H. exact H.
  - destruct H as [H|H]. exfalso. injection H as -> ->. assert (key_eqb k k = true) by (now apply key_eqb_eq). congruence. auto.
Qed.
Lemma six_walls d : length d = 6%nat -> (forall w, In w walls -> has_key (Wall w) d = true) -> forall e, In e d -> exists w, e = (Wall w, lookup (Wall w) d).
Proof.
  intros L H. assert (ND : NoDup (map Wall walls)) by (cbn; repeat constructor; cbn; intuition congruence).
  assert (I : incl (map Wall walls) (map fst d)).
  { intros k Hk. apply in_map_iff in Hk. destruct Hk as (w & <- & Hw). specialize (H w Hw). unfold has_key in H. apply existsb_exists in H. destruct H as (e & He & Q).
    apply key_eqb_eq in Q. rewrite Q. now apply in_map. }
  assert (LL : (length (map fst d) <= length (map Wall walls))%nat) by (rewrite map_length; cbn; lia).
  pose proof (NoDup_length_incl ND LL I) as J. pose proof (NoDup_incl_NoDup ND LL I) as ND'.
  intros [k l] He. assert (In k (map Wall walls)) by (apply J; apply (in_map fst) in He; exact He). apply in_map_iff in H0. destruct H0 as (w & <- & _). exists w. f_equal. symmetry. now apply lookup_here.
Qed.

(** What add_detailed_absorption stores: the number of bands is the largest number of coefficients of a wall; each wall keeps its
    coefficients, the last one standing for all higher bands; the equivalent absorption area of a band is the sum over the walls
    of area times coefficient; the reverberation time of a band follows from Sabine's formula. *)
Theorem C57_detailed r d d' r' : 0 < rm_area r -> add_detailed r d = (d', Ok r') -> exists dims nb D,
  rm_dims r = Some dims /\ rm_detail r' = Some D /\
  (forall w, (1 <= length (lookup (Wall w) d) <= nb)%nat) /\ (exists w, length (lookup (Wall w) d) = nb) /\ (nb <= 8)%nat /\
  length (dt_area D) = nb /\ length (dt_mean D) = nb /\ length (dt_t60 D) = nb /\ length (dt_freqs D) = nb /\ length (dt_matrix D) = 6%nat /\
  forall b, (b < nb)%nat ->
    (forall w, get (nth (wall_index w) (dt_matrix D) []) b = coeff d w b /\ 0 < coeff d w b < 1) /\
    get (dt_freqs D) b = 125 * 2 ^ b /\
    get (dt_area D) b = wsum walls (fun w => wall_area dims w * coeff d w b) /\
    get (dt_mean D) b * rm_area r = get (dt_area D) b /\
    (0 < get (dt_area D) b -> sabine (get (dt_t60 D) b) (get (dt_mean D) b) (rm_area r) (rm_vol r)).
Proof.
  intros HA H. apply add_inv in H. destruct H as (dims & nb & E1 & B & HK & L6 & W & MX & _ & _ & _ & _ & _ & _ & _ & _ & _ & D & ED & EA & EM & EF & ET & LM & MT).
  exists dims, nb, D. assert (L1 : forall w, (1 <= length (lookup (Wall w) d))%nat). { intros w. destruct (W w) as (N & _). destruct (lookup _ _); [congruence|simpl; lia]. }
  split; [auto|]. split; [auto|]. split. { intros w. split; auto. apply W. }
  split. { destruct MX as [->|(w & [M|(e & He & M)])]. exists North. specialize (L1 North). destruct (W North) as (_ & X & _). lia. eauto.
    destruct (six_walls d L6 HK e He) as (v & ->). eauto. }
  split; [lia|]. rewrite EA, EM, EF, ET, !map_length, !mk_length. do 5 (split; [auto|]). intros b Hb.
  assert (GM : forall (f : R -> R), get (map f (mk nb (fun b => wsum walls (fun w => wall_area dims w * coeff d w b)))) b = f (wsum walls (fun w => wall_area dims w * coeff d w b))).
  { intros f. unfold get. rewrite (nth_indep _ _ (f 0)) by now rewrite map_length, mk_length. rewrite (map_nth f). f_equal. now apply (get_mk (HA := CRing_R)). }
  rewrite !GM, !get_mk by auto. split.
  { intros w. split; auto. unfold coeff. apply (proj2 (proj2 (W w))). apply nth_In. specialize (L1 w). lia. }
  split; [reflexivity|]. split; [reflexivity|]. split. field. lra. intros P. unfold sabine. field. split; lra.
Qed.
Print Assumptions C57_detailed.

Lemma pow2_sum_pos nb : (1 <= nb)%nat -> 0 < rsum nb (fun b => 2 ^ b).
Proof.
  intros H. destruct nb; [lia|]. clear H. induction nb. cbn. lra. assert (0 < 2 ^ S nb) by (apply pow_lt; lra). change (0 < rsum (S nb) (fun b => 2 ^ b) + 2 ^ S nb). lra.
Qed.
(** The mean coefficient lies between the smallest and the largest coefficient, and the overall reverberation time follows from it. *)
Theorem C57_alpha dims t a r d d' r' lo hi : shoebox_new dims t a = Ok r -> add_detailed r d = (d', Ok r') ->
  (forall w v, In v (lookup (Wall w) d) -> lo <= v <= hi) ->
  lo <= rm_alpha r' <= hi /\ 0 < rm_alpha r' < 1 /\ sabine (rm_t60 r') (rm_alpha r') (rm_area r') (rm_vol r') /\ rm_vol r' = rm_vol r /\ rm_area r' = rm_area r.
Proof.
  intros HR H. pose proof (C57_shoebox _ _ _ _ HR) as ((x & y & z & _ & Hx & Hy & Hz & ED & EV & ES) & _).
  apply add_inv in H. destruct H as (dims' & nb & E1 & B & HK & L6 & W & _ & _ & _ & _ & V' & A' & AL & T' & _). cbn zeta in *. rewrite ED in E1. injection E1 as <-.
  assert (P2 := pow2_sum_pos nb ltac:(lia)). assert (Q1 : 0 < x * y) by now apply Rmult_lt_0_compat. assert (Q2 : 0 < y * z) by now apply Rmult_lt_0_compat. assert (Q3 : 0 < x * z) by now apply Rmult_lt_0_compat.
  assert (SP : 0 < rm_area r) by (rewrite ES; lra).
  assert (G : forall l h, (forall w v, In v (lookup (Wall w) d) -> l <= v <= h) -> l <= rm_alpha r' <= h).
  { intros l h R. rewrite AL. assert (CO : forall w b, l <= coeff d w b <= h). { intros w b. unfold coeff. apply (R w). apply nth_In. destruct (W w) as (N & _). destruct (lookup (Wall w) d); [congruence|]. cbn [length]. lia. }
    assert (ONE : forall k, rsum nb (fun b => k * (2 ^ b / rsum nb (fun b => 2 ^ b))) = k).
    { intros k. rewrite (sum_scal_l (HA := CRing_R)). unfold Rdiv. rewrite (sum_scal_r (HA := CRing_R)). cbn [rmul CRing_R]. fold (rsum nb (fun b => 2 ^ b)). rewrite Rinv_r; lra. }
    assert (WP : forall b, 0 < 2 ^ b / rsum nb (fun b => 2 ^ b)) by (intros b; apply Rdiv_lt_0_compat; auto; apply pow_lt; lra).
    assert (MB : forall b, (b < nb)%nat -> l <= get (mk nb (fun b => wsum walls (fun w => wall_area (x, y, z) w * coeff d w b))) b / rm_area r <= h).
    { intros b Hb. rewrite get_mk by auto. cbn [wsum walls wall_area].
      assert (XS : forall s w, 0 < s -> s * l <= s * coeff d w b <= s * h). { intros s w Hs. destruct (CO w b). split; apply Rmult_le_compat_l; lra. }
      pose proof (XS _ North Q3). pose proof (XS _ South Q3). pose proof (XS _ East Q2). pose proof (XS _ West Q2). pose proof (XS _ Floor Q1). pose proof (XS _ Ceiling Q1).
      split; apply Rmult_le_reg_r with (rm_area r); auto; unfold Rdiv; rewrite Rmult_assoc, Rinv_l, Rmult_1_r by lra; rewrite ES; lra. }
    split. rewrite <- (ONE l) at 1. apply rsum_le. intros b Hb. apply Rmult_le_compat_r. apply Rlt_le, WP. now apply MB.
    rewrite <- (ONE h). apply rsum_le. intros b Hb. apply Rmult_le_compat_r. apply Rlt_le, WP. now apply MB. }
  intros R. split; [now apply G|]. 
  assert (AB : 0 < rm_alpha r' < 1).
  { assert (F : exists m M, 0 < m /\ M < 1 /\ forall w v, In v (lookup (Wall w) d) -> m <= v <= M).
    { assert (G1 : forall l, (forall v, In v l -> 0 < v < 1) -> exists m M, 0 < m /\ M < 1 /\ forall v, In v l -> m <= v <= M).
      { induction l as [|v l IH]; intros HI. exists (1/2), (1/2). repeat split; try lra; contradiction.
        destruct IH as (m & M & Hm & HM & K). intros u Hu. apply HI. now right. pose proof (HI v (or_introl eq_refl)). exists (Rmin m v), (Rmax M v).
        split. apply Rmin_glb_lt; lra. split. apply Rmax_lub_lt; lra. intros u [<-|Hu]. split; [apply Rmin_r|apply Rmax_r]. destruct (K u Hu). split. eapply Rle_trans; [apply Rmin_l|auto]. eapply Rle_trans; [|apply Rmax_l]; auto. }
      destruct (G1 (flat_map (fun w => lookup (Wall w) d) walls)) as (m & M & Hm & HM & K). intros v Hv. apply in_flat_map in Hv. destruct Hv as (w & _ & Hv). now apply (W w).
      exists m, M. repeat split; auto; apply K, in_flat_map; exists w; (split; [destruct w; cbn; auto 10|auto]). }
    destruct F as (m & M & Hm & HM & F). specialize (G m M F). lra. }
  split; [auto|]. split; [|auto]. rewrite T', A', V'. unfold sabine. rewrite AL in AB. rewrite AL. field. split; lra.
Qed.
Print Assumptions C57_alpha.
(** If every coefficient is a, the room is as absorbing and as reverberant as the room that was made with a in the first place. *)
Theorem C57_uniform dims t a r d d' r' c : shoebox_new dims t a = Ok r -> add_detailed r d = (d', Ok r') ->
  (forall w v, In v (lookup (Wall w) d) -> v = c) ->
  exists q, shoebox_new dims None (Some c) = Ok q /\ rm_alpha r' = rm_alpha q /\ rm_t60 r' = rm_t60 q.
Proof.
  intros HR H U. destruct (C57_alpha dims t a r d d' r' c c HR H) as (A & B & S & V & AA). intros w v Hv. rewrite (U w v Hv). lra.
  assert (EA : rm_alpha r' = c) by lra. apply shoebox_inv in HR. destruct HR as (x & y & z & -> & Hx & Hy & Hz & RN).
  pose proof (C57_sabine _ _ _ _ _ _ RN) as (E1 & E2 & _). apply room_inv in RN. destruct RN as (P1 & P2 & _).
  destruct (proj2 (proj1 (C57_accepted (Some (x, y, z)) _ _ P2 P1) c)) as [q Q]; [lra|].
  exists q. split. unfold shoebox_new. destruct (Rlt_dec 0 x); [|lra]. destruct (Rlt_dec 0 y); [|lra]. destruct (Rlt_dec 0 z); [|lra].
  replace ((z * x + x * y + y * z) * 2) with (2 * (x * y + y * z + z * x)) by ring. exact Q.
  pose proof (C57_sabine _ _ _ _ _ _ Q) as (F1 & F2 & FS & FA & FT & _ & FC & _). rewrite (FC c eq_refl). split; [auto|]. unfold sabine in *. rewrite V, AA, E1, E2, EA in S. rewrite (FC c eq_refl) in FS.
  apply Rmult_eq_reg_r with (c * (2 * (x * y + y * z + z * x))). lra. apply Rgt_not_eq, Rmult_lt_0_compat; lra.
Qed.
Print Assumptions C57_uniform.

(** Every complete dictionary is accepted. *)
Theorem C57_detailed_accepted dims r d : rm_dims r = Some dims -> length d = 6%nat -> (forall w, has_key (Wall w) d = true) ->
  (forall k ab, In (k, ab) d -> (1 <= length ab <= 8)%nat /\ forall v, In v ab -> 0 < v < 1) -> exists d' r', add_detailed r d = (d', Ok r').
Proof.
  intros ED L6 HK OK. unfold add_detailed. rewrite ED. destruct dims as [[x y] z]. rewrite L6. cbn [negb Nat.eqb].
  replace (forallb (fun w => has_key (Wall w) d) walls) with true by (cbn; now rewrite !HK). cbn [negb].
  assert (CL : forall d nb, (forall k ab, In (k, ab) d -> (1 <= length ab <= 8)%nat /\ forall v, In v ab -> 0 < v < 1) -> exists d1 nb', check_loop d nb = (d1, Ok nb') /\ forall k l, In (k, l) d1 -> l <> []).
  { clear. induction d as [|[k ab] t IH]; intros nb OK. cbn. exists [], nb. split; auto. destruct (OK k ab (or_introl eq_refl)) as [L V].
    assert (A1 : all01 ab = true). { unfold all01. apply forallb_forall. intros v Hv. specialize (V v Hv). destruct (Rlt_dec v 1); [|lra]. destruct (Rlt_dec 0 v); [|lra]. reflexivity. }
    assert (OKt : forall k ab, In (k, ab) t -> (1 <= length ab <= 8)%nat /\ forall v, In v ab -> 0 < v < 1) by (intros; apply (OK k0); now right).
    cbn [check_loop]. destruct (length ab =? 1)%nat eqn:E1; [|destruct (length ab <=? 8)%nat eqn:E2; [|apply Nat.leb_gt in E2; lia]]; rewrite A1.
    - destruct (IH nb OKt) as (d1 & nb' & -> & N). eexists _, _. split; [reflexivity|]. intros k' l [H|H]. injection H as <- <-. discriminate. eauto.
    - edestruct IH as (d1 & nb' & E & N); [apply OKt|]. rewrite E. eexists _, _. split; [reflexivity|]. intros k' l [H|H]. injection H as <- <-. destruct ab; [simpl in L; lia|discriminate]. eauto. }
  destruct (CL d 1%nat OK) as (d1 & nb & -> & N).
  assert (FL : exists d2, fit_loop nb d1 = (d2, None)).
  { clear -N. induction d1 as [|[k l] t IH]. cbn. eauto. cbn [fit_loop]. unfold fit_bands. destruct IH as [d2 E2]. { intros k' l' Hi. apply (N k'). now right. } rewrite E2. specialize (N k l (or_introl eq_refl)). destruct l; [congruence|]. destruct (nb <=? _)%nat; eauto. }
  destruct FL as [d2 ->]. eauto.
Qed.
Print Assumptions C57_detailed_accepted.
Definition uniform (a : R) : dict := map (fun w => (Wall w, [a])) walls.
Lemma uniform_ok dims r a : rm_dims r = Some dims -> 0 < a < 1 -> exists d' r', add_detailed r (uniform a) = (d', Ok r').
Proof.
  intros E H. apply (C57_detailed_accepted dims); auto. intros w. destruct w; reflexivity.
  intros k ab Hi. unfold uniform in Hi. apply in_map_iff in Hi. destruct Hi as (w & Q & _). injection Q as <- <-. cbn. split. lia. intros v [<-|[]]. auto.
Qed.
Example C57_detailed_example : exists r d' r', shoebox_new [3; 4; 5] None (Some (1 / 10)) = Ok r /\ add_detailed r (uniform (1 / 4)) = (d', Ok r') /\
  forall w v, In v (lookup (Wall w) (uniform (1 / 4))) -> v = 1 / 4.
Proof.
  destruct C57_shoebox_example as [r R]. pose proof (C57_shoebox _ _ _ _ R) as ((x & y & z & _ & _ & _ & _ & ED & _) & _).
  destruct (uniform_ok _ r (1 / 4) ED) as (d' & r' & E). lra. exists r, d', r'. repeat split; auto. intros w v. destruct w; cbn; intuition.
Qed.
(** Schroeder's frequency and the critical distance keep their old values, so they no longer belong to the reverberation time. *)
Theorem C57_stale_refuted :
  (forall r d d' r', add_detailed r d = (d', Ok r') -> rm_schroeder r' = rm_schroeder r /\ rm_critical r' = rm_critical r) /\
  ~ (forall dims t a r d d' r', shoebox_new dims t a = Ok r -> add_detailed r d = (d', Ok r') -> rm_schroeder r' ^ 2 = 2000 ^ 2 * (rm_t60 r' / rm_vol r')).
Proof.
  assert (K : forall r d d' r', add_detailed r d = (d', Ok r') -> rm_schroeder r' = rm_schroeder r /\ rm_critical r' = rm_critical r).
  { intros r d d' r' H. apply add_inv in H. destruct H as (? & ? & _ & _ & _ & _ & _ & _ & _ & _ & _ & _ & _ & _ & _ & S1 & S2 & _). auto. }
  split; [exact K|]. intros H. destruct C57_detailed_example as (r & d' & r' & R & A & U).
  specialize (H _ _ _ _ _ _ _ R A). destruct (K _ _ _ _ A) as [K1 _]. rewrite K1 in H.
  destruct (C57_uniform _ _ _ _ _ _ _ _ R A U) as (q & Q & EA & ET). pose proof (C57_alpha _ _ _ _ _ _ _ (1/4) (1/4) R A) as (_ & _ & _ & V & _). { intros w v Hv. rewrite (U w v Hv). lra. }
  apply shoebox_inv in R. destruct R as (x & y & z & Ed & Hx & Hy & Hz & R). injection Ed as <- <- <-.
  apply shoebox_inv in Q. destruct Q as (x & y & z & Ed & _ & _ & _ & Q). injection Ed as <- <- <-.
  pose proof (C57_sabine _ _ _ _ _ _ R) as (V1 & _ & S1 & _ & _ & _ & A1 & _ & SC & _). pose proof (C57_sabine _ _ _ _ _ _ Q) as (_ & _ & S2 & _ & _ & _ & A2 & _).
  rewrite SC, V, V1, ET in H. unfold sabine in *. rewrite (A1 _ eq_refl) in S1. rewrite (A2 _ eq_refl) in S2. lra.
Qed.
Print Assumptions C57_stale_refuted.
(** The caller's dictionary is changed: after a successful call it has 13 entries and the same dictionary is refused for any room. *)
Theorem C57_dictionary_refuted r d d' r' q : add_detailed r d = (d', Ok r') -> rm_dims q <> None ->
  length d = 6%nat /\ length d' = 13%nat /\ add_detailed q d' = (d', Err AssertionError).
Proof.
  intros H NQ. apply add_inv in H. destruct H as (dims & nb & _ & _ & _ & L6 & _ & _ & L13 & _). split; [auto|]. split; [auto|].
  unfold add_detailed. destruct (rm_dims q) as [[[x y] z]|]; [|congruence]. rewrite L13. reflexivity.
Qed.
Print Assumptions C57_dictionary_refuted.
