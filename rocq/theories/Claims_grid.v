(** C66: points, grids and microphone arrays. *)
From Coq Require Import List Arith Lia ZArith Bool Reals Lra Psatz.
From Verif Require Import Alg Spec Dft M_arrays M_latency M_distances Claims_room M_beam.
Import ListNotations.
Local Open Scope R_scope.

(** ** Specification *)
Definition euclid (p q : point) : R :=
  sqrt (Rsqr (coord AX p - coord AX q) + Rsqr (coord AY p - coord AY q) + Rsqr (coord AZ p - coord AZ q)).
Notation o3 := (0, 0, 0).
Notation pt ps i := (@nth point i ps o3).

Lemma dist_euclid p q : dist p q = euclid p q.
Proof. unfold dist, euclid, dot3, Rsqr. f_equal. ring. Qed.
Lemma dist_sym p q : dist p q = dist q p.
Proof. unfold dist, dot3. f_equal. ring. Qed.
Lemma dist_nonneg p q : 0 <= dist p q.
Proof. apply sqrt_pos. Qed.
Lemma dist_zero p q : dist p q = 0 <-> p = q.
Proof.
  rewrite dist_euclid. unfold euclid. set (a := coord AX p - coord AX q). set (b := coord AY p - coord AY q). set (c := coord AZ p - coord AZ q).
  assert (P : 0 <= Rsqr a + Rsqr b + Rsqr c) by (pose proof (Rle_0_sqr a); pose proof (Rle_0_sqr b); pose proof (Rle_0_sqr c); lra). split.
  - intros E. apply sqrt_eq_0 in E; auto. pose proof (Rle_0_sqr a). pose proof (Rle_0_sqr b). pose proof (Rle_0_sqr c).
    assert (a = 0) by (apply Rsqr_0_uniq; lra). assert (b = 0) by (apply Rsqr_0_uniq; lra). assert (c = 0) by (apply Rsqr_0_uniq; lra).
    unfold a, b, c in *. destruct p as [[x y] z], q as [[x' y'] z']. cbn [coord fst snd] in *. repeat f_equal; lra.
  - intros ->. unfold a, b, c. rewrite !Rminus_eq_0, !Rsqr_0, !Rplus_0_r. apply sqrt_0.
Qed.
Lemma dist_triangle p q s : dist p s <= dist p q + dist q s.
Proof.
  rewrite !dist_euclid. unfold euclid. set (a := coord AX p - coord AX q). set (b := coord AY p - coord AY q). set (c := coord AZ p - coord AZ q).
  replace (coord AX p - coord AX s) with (a + (coord AX q - coord AX s)) by (unfold a; ring).
  replace (coord AY p - coord AY s) with (b + (coord AY q - coord AY s)) by (unfold b; ring).
  replace (coord AZ p - coord AZ s) with (c + (coord AZ q - coord AZ s)) by (unfold c; ring).
  set (d := coord AX q - coord AX s). set (e := coord AY q - coord AY s). set (f := coord AZ q - coord AZ s).
  set (u := sqrt (Rsqr a + Rsqr b + Rsqr c)). set (v := sqrt (Rsqr d + Rsqr e + Rsqr f)).
  assert (U : u * u = Rsqr a + Rsqr b + Rsqr c) by (apply sqrt_sqrt; pose proof (Rle_0_sqr a); pose proof (Rle_0_sqr b); pose proof (Rle_0_sqr c); lra).
  assert (V : v * v = Rsqr d + Rsqr e + Rsqr f) by (apply sqrt_sqrt; pose proof (Rle_0_sqr d); pose proof (Rle_0_sqr e); pose proof (Rle_0_sqr f); lra).
  assert (U0 : 0 <= u) by apply sqrt_pos. assert (V0 : 0 <= v) by apply sqrt_pos.
  assert (CS : a * d + b * e + c * f <= u * v).
  { apply Rsqr_incr_0_var; [|nra]. unfold Rsqr in *. replace (u * v * (u * v)) with ((u * u) * (v * v)) by ring. rewrite U, V.
    pose proof (Rle_0_sqr (a * e - b * d)). pose proof (Rle_0_sqr (a * f - c * d)). pose proof (Rle_0_sqr (b * f - c * e)). unfold Rsqr in *. nra. }
  rewrite <- (sqrt_Rsqr (u + v)) by lra. apply sqrt_le_1_alt. unfold Rsqr in *. nra.
Qed.

(** Distances between points are Euclidean distances: the entry for the point i of the object and the point j of the argument. *)
Theorem C66_distance :
  forall ps qs, length (distances ps qs) = length ps /\
    (forall i j, (i < length ps)%nat -> (j < length qs)%nat -> length (nth i (distances ps qs) []) = length qs /\
       nth j (nth i (distances ps qs) []) 0 = euclid (pt ps i) (pt qs j)) /\
    (forall p q s, 0 <= dist p q /\ dist p q = dist q p /\ (dist p q = 0 <-> p = q) /\ dist p s <= dist p q + dist q s).
Proof.
  intros ps qs. unfold distances. split; [apply map_length|]. split.
  - intros i j Hi Hj. rewrite (nth_indep _ [] (map (dist o3) qs)) by now rewrite map_length. rewrite (map_nth (fun p => map (dist p) qs)). rewrite map_length. split; auto.
    rewrite (nth_indep _ 0 (dist (pt ps i) o3)) by now rewrite map_length. rewrite map_nth. apply dist_euclid.
  - intros p q s. repeat split; try apply dist_zero. apply dist_nonneg. apply dist_sym. apply dist_triangle.
Qed.
Print Assumptions C66_distance.
Example C66_distance_case : dist (0, 0, 0) (3, 4, 0) = 5.
Proof. rewrite dist_euclid. unfold euclid, Rsqr. cbn. replace (_ + _ + _) with (5 * 5) by ring. apply sqrt_square. lra. Qed.

(** ** Grids and maps *)
Lemma nth_list_prod {A B} (a : list A) (b : list B) i j da db : (i < length a)%nat -> (j < length b)%nat ->
  nth (i * length b + j) (list_prod a b) (da, db) = (nth i a da, nth j b db).
Proof.
  revert i. induction a as [|x t IH]; intros i Hi Hj. simpl in Hi; lia. cbn [list_prod]. destruct i as [|i].
  - cbn [Nat.mul Nat.add nth]. rewrite app_nth1 by (rewrite map_length; lia). rewrite (nth_indep _ _ (x, db)) by (rewrite map_length; lia). now rewrite map_nth.
  - rewrite app_nth2 by (rewrite map_length; lia). rewrite map_length. replace (S i * length b + j - length b)%nat with (i * length b + j)%nat by lia. cbn [nth]. apply IH; auto. simpl in Hi; lia.
Qed.
Lemma point_eta (p : point) : (coord AX p, coord AY p, coord AZ p) = p.
Proof. now destruct p as [[x y] z]. Qed.
Lemma base_points_id ps : length ps <> 1%nat -> base_points (map (coord AX) ps) (map (coord AY) ps) (map (coord AZ) ps) = Ok ps.
Proof.
  intros H. unfold base_points. rewrite !map_length, !Nat.eqb_refl. cbn [andb negb]. destruct (Nat.eqb_spec (length ps) 1); [lia|]. f_equal.
  apply nth_ext with (d := o3) (d' := o3); [apply mk_length|]. rewrite mk_length. intros i Hi. rewrite nth_mk by auto. unfold get.
  assert (K : forall a, nth i (map (coord a) ps) 0 = coord a (pt ps i)) by (intros a; rewrite (nth_indep _ 0 (coord a o3)) by (now rewrite map_length); apply map_nth).
  change (@r0 R CRing_R) with 0. rewrite !K. exact (point_eta _).
Qed.
Lemma nth_reshape n m i j : (i * n + j < length m)%nat -> (j < n)%nat -> nth j (firstn n (skipn (i * n) m)) 0 = get m (i * n + j).
Proof.
  intros H Hj. unfold get. change (@r0 R CRing_R) with 0. rewrite <- (firstn_skipn (i * n) m) at 2. rewrite app_nth2 by (rewrite firstn_length; lia).
  rewrite firstn_length, Nat.min_l by lia. replace (i * n + j - i * n)%nat with j by lia. rewrite <- (firstn_skipn n (skipn (i * n) m)) at 2.
  rewrite app_nth1; auto. rewrite firstn_length, skipn_length. lia.
Qed.

(** A rectangular grid has one point for every pair of values of the two lines, and the entry (i, j) of a reshaped map belongs to
    the point with the i-th value of the first and the j-th value of the second line. *)
Theorem C66_rectangular_grid :
  forall l1 l2 d1 d2 v3, d1 <> d2 -> length l1 <> 1%nat -> length l2 <> 1%nat -> exists ps, grid2 l1 l2 d1 d2 v3 = Ok ps /\
    length ps = (length l1 * length l2)%nat /\
    forall m, length m = length ps -> exists M, reshape2 (length l1) (length l2) m = Ok M /\ length M = length l1 /\
      forall i j, (i < length l1)%nat -> (j < length l2)%nat -> exists p, (p < length ps)%nat /\
        nth j (nth i M []) 0 = get m p /\ coord d1 (pt ps p) = nth i l1 0 /\ coord d2 (pt ps p) = nth j l2 0 /\
        (forall d, d <> d1 -> d <> d2 -> coord d (pt ps p) = v3).
Proof.
  intros l1 l2 d1 d2 v3 Hd H1 H2. unfold grid2. assert (Ed : axis_eqb d1 d2 = false) by (destruct d1, d2; auto; congruence). rewrite Ed.
  destruct (Nat.eqb_spec (length l1) 1); [lia|]. destruct (Nat.eqb_spec (length l2) 1); [lia|]. cbn [orb].
  set (ps := map (fun p => place d1 d2 (fst p) (snd p) v3) (list_prod l1 l2)). assert (L : length ps = (length l1 * length l2)%nat) by (unfold ps; now rewrite map_length, prod_length).
  exists ps. split; [|split; [exact L|]].
  { apply base_points_id. rewrite L. nia. }
  intros m Hm. unfold reshape2. rewrite Hm, L, Nat.eqb_refl. eexists. split; [reflexivity|]. split; [apply mk_length|].
  intros i j Hi Hj. assert (Hp : (i * length l2 + j < length l1 * length l2)%nat) by nia. exists (i * length l2 + j)%nat. split; [lia|].
  rewrite nth_mk by auto. rewrite nth_reshape by lia. split; [reflexivity|].
  assert (E : pt ps (i * length l2 + j) = place d1 d2 (nth i l1 0) (nth j l2 0) v3).
  { unfold ps. rewrite (nth_indep _ _ (place d1 d2 (fst (0, 0)) (snd (0, 0)) v3)) by (rewrite map_length, prod_length; lia).
    rewrite (map_nth (fun p => place d1 d2 (fst p) (snd p) v3)). now rewrite nth_list_prod by auto. }
  rewrite E. unfold place. destruct d1, d2; try congruence; cbn; repeat split; auto; intros d Ha Hb; destruct d; auto; congruence.
Qed.
Print Assumptions C66_rectangular_grid.
Example C66_rectangular_grid_case : exists ps M, grid2 [0; 1] [5; 6; 7] AX AZ 2 = Ok ps /\ pt ps 4 = (1, 2, 6) /\
  reshape2 2 3 [10; 11; 12; 13; 14; 15] = Ok M /\ nth 1 (nth 1 M []) 0 = 14.
Proof. do 2 eexists. repeat split; reflexivity. Qed.

Theorem C66_box_grid :
  forall lx ly lz, length lx <> 1%nat -> length ly <> 1%nat -> length lz <> 1%nat -> exists ps, grid3 lx ly lz = Ok ps /\
    length ps = (length lx * length ly * length lz)%nat /\
    forall m, length m = length ps -> exists M, reshape3 (length lx) (length ly) (length lz) m = Ok M /\
      forall i j k, (i < length lx)%nat -> (j < length ly)%nat -> (k < length lz)%nat -> exists p, (p < length ps)%nat /\
        nth k (nth j (nth i M []) []) 0 = get m p /\ pt ps p = (nth i lx 0, nth j ly 0, nth k lz 0).
Proof.
  intros lx ly lz H1 H2 H3. unfold grid3. destruct (Nat.eqb_spec (length lx) 1); [lia|]. destruct (Nat.eqb_spec (length ly) 1); [lia|]. destruct (Nat.eqb_spec (length lz) 1); [lia|]. cbn [orb].
  set (ps := list_prod (list_prod lx ly) lz : list point). assert (L : length ps = (length lx * length ly * length lz)%nat) by (transitivity (length (list_prod (list_prod lx ly) lz)); [reflexivity|now rewrite !prod_length]).
  exists ps. split; [|split; [exact L|]]. { apply (base_points_id ps). rewrite L. nia. }
  intros m Hm. unfold reshape3. rewrite L in Hm. rewrite Hm, Nat.eqb_refl. eexists. split; [reflexivity|].
  intros i j k Hi Hj Hk. assert (Hp : (i * length ly + j < length lx * length ly)%nat) by nia.
  assert (Hq : ((i * length ly + j) * length lz + k < length lx * length ly * length lz)%nat) by nia. exists ((i * length ly + j) * length lz + k)%nat. split; [lia|].
  rewrite nth_mk, nth_mk by auto. rewrite nth_reshape by lia. split; [reflexivity|]. unfold ps.
  etransitivity; [apply (nth_list_prod (list_prod lx ly) lz (i * length ly + j) k (0, 0) 0); [now rewrite prod_length|auto]|].
  now rewrite nth_list_prod by auto.
Qed.
Print Assumptions C66_box_grid.
Example C66_box_grid_case : exists ps, grid3 [0; 1] [2; 3] [4; 5] = Ok ps /\ pt ps 5 = (1, 2, 5).
Proof. eexists. split; reflexivity. Qed.

(** A line grid runs along its dimension; the second value belongs to the next dimension in the order x, y, z, x. *)
Theorem C66_line_grid :
  forall l d v2 v3, length l <> 1%nat -> exists ps, line_grid l d v2 v3 = Ok ps /\ length ps = length l /\
    forall i, (i < length l)%nat -> coord d (pt ps i) = nth i l 0 /\ coord (next d) (pt ps i) = v2 /\ coord (next (next d)) (pt ps i) = v3.
Proof.
  intros l d v2 v3 H. unfold line_grid. set (ps := map (fun v => place d (next d) v v2 v3) l). exists ps. split; [apply base_points_id; unfold ps; now rewrite map_length|].
  split; [unfold ps; now rewrite map_length|]. intros i Hi. unfold ps. rewrite (nth_indep _ _ (place d (next d) 0 v2 v3)) by now rewrite map_length. rewrite (map_nth (fun v => place d (next d) v v2 v3)).
  destruct d; cbn; auto.
Qed.
Print Assumptions C66_line_grid.
Example C66_line_grid_case : exists ps, line_grid [1; 2; 3] AZ 7 8 = Ok ps /\ pt ps 1 = (7, 8, 2).
Proof. eexists. split; reflexivity. Qed.

(** Grids and arrays of a single point cannot be made, and neither can grids one of whose lines has a single value. *)
Theorem C66_single_point_refuted :
  (forall x y z, base_points [x] [y] [z] = Err IndexError) /\ (forall v d v2 v3, line_grid [v] d v2 v3 = Err IndexError) /\
  (forall l1 l2 d1 d2 v3, d1 <> d2 -> length l1 = 1%nat \/ length l2 = 1%nat -> grid2 l1 l2 d1 d2 v3 = Err TypeError) /\
  (forall lx ly lz, length lx = 1%nat \/ length ly = 1%nat \/ length lz = 1%nat -> grid3 lx ly lz = Err AssertionError).
Proof.
  repeat split.
  - intros l1 l2 d1 d2 v3 Hd H. unfold grid2. assert (Ed : axis_eqb d1 d2 = false) by (destruct d1, d2; auto; congruence). rewrite Ed. destruct H as [-> | ->]; cbn [Nat.eqb orb]; auto. now rewrite orb_true_r.
  - intros lx ly lz H. unfold grid3. destruct H as [-> | [-> | ->]]; cbn [Nat.eqb orb]; rewrite ?orb_true_r; auto.
Qed.
Print Assumptions C66_single_point_refuted.

(** Coordinates of different numbers are refused, of the same number (but one) accepted. *)
Theorem C66_point_lengths : forall x y z, length x <> 1%nat ->
  ((length x = length y /\ length x = length z) -> exists ps, base_points x y z = Ok ps /\ length ps = length x /\ forall i, (i < length ps)%nat -> pt ps i = (nth i x 0, nth i y 0, nth i z 0)) /\
  (~ (length x = length y /\ length x = length z) -> base_points x y z = Err AssertionError).
Proof.
  intros x y z H. unfold base_points. split.
  - intros [A B]. rewrite (proj2 (Nat.eqb_eq _ _) A), (proj2 (Nat.eqb_eq _ _) B). cbn [andb negb]. destruct (Nat.eqb_spec (length x) 1); [lia|]. eexists. split; [reflexivity|]. split. apply mk_length.
    intros i Hi. rewrite mk_length in Hi. apply (nth_mk (T := point)); auto.
  - intros N. destruct (Nat.eqb_spec (length x) (length y)), (Nat.eqb_spec (length x) (length z)); auto. exfalso. auto.
Qed.
Print Assumptions C66_point_lengths.
Example C66_point_lengths_case : base_points [1; 2] [3; 4] [5] = Err AssertionError /\ exists ps, base_points [1; 2] [3; 4] [5; 6] = Ok ps /\ pt ps 1 = (2, 4, 6).
Proof. split. apply C66_point_lengths; simpl; lia. eexists. split; reflexivity. Qed.

(** A direction is a dimension of the object exactly if two of its points differ in it. *)
Theorem C66_dimensions :
  forall ps a, ps <> [] -> (In a (dims ps) <-> exists i j, (i < length ps)%nat /\ (j < length ps)%nat /\ coord a (pt ps i) <> coord a (pt ps j)).
Proof.
  intros ps a N. unfold dims. rewrite filter_In. destruct ps as [|p t]; [congruence|]. cbn [constant]. split.
  - intros [_ H]. apply negb_true_iff in H. assert (X : exists q, In q t /\ coord a q <> coord a p).
    { clear N. induction t as [|q t IH]; cbn [forallb] in H; [discriminate|]. destruct (Req_EM_T (coord a q) (coord a p)) as [E|E].
      - cbn [andb] in H. destruct (IH H) as (q' & I & Q). exists q'. split; [now right|auto].
      - exists q. split; [now left|auto]. }
    destruct X as (q & I & Q). destruct (In_nth t q o3 I) as (i & Hi & E). exists (S i), 0%nat. cbn [length nth]. rewrite E. repeat split; auto; lia.
  - intros (i & j & Hi & Hj & D). split; [destruct a; cbn; auto|]. apply negb_true_iff. apply not_true_is_false. intros F. rewrite forallb_forall in F.
    assert (K : forall n, (n < length (p :: t))%nat -> coord a (pt (p :: t) n) = coord a p).
    { intros [|n] Hn; [reflexivity|]. cbn [nth]. assert (I : In (nth n t o3) t) by (apply nth_In; simpl in Hn; lia). specialize (F _ I). destruct (Req_EM_T _ _); auto; discriminate. }
    apply D. rewrite !K by auto. reflexivity.
Qed.
Print Assumptions C66_dimensions.
Example C66_dimensions_case : In AY (dims [(0, 1, 2); (0, 3, 2)]) /\ ~ In AX (dims [(0, 1, 2); (0, 3, 2)]).
Proof.
  split. apply C66_dimensions; [discriminate|]. exists 0%nat, 1%nat. cbn. repeat split; try lia. lra.
  rewrite C66_dimensions by discriminate. intros (i & j & Hi & Hj & D). apply D. simpl in Hi, Hj. destruct i as [|[|]], j as [|[|]]; try lia; reflexivity.
Qed.

(** ** Nearest points and extent *)
Lemma argmin_spec l : l <> [] -> let r := argmin l in (r < length l)%nat /\ (forall j, (j < length l)%nat -> nth r l 0 <= nth j l 0) /\
  (forall j, (j < r)%nat -> nth r l 0 < nth j l 0).
Proof.
  intros N r. unfold argmin in r. assert (N' : map Ropp l <> []) by (destruct l; [congruence|discriminate]). destruct (argmax_spec _ N') as (A & B & D). fold r in A, B, D. rewrite map_length in A, B.
  assert (K : forall j, (j < length l)%nat -> nth j (map Ropp l) 0 = - nth j l 0). { intros j Hj. rewrite (nth_indep _ 0 (- 0)) by now rewrite map_length. apply (map_nth Ropp). }
  split; auto. split; intros j Hj. specialize (B j Hj). rewrite !K in B by auto. lra. specialize (D j Hj). rewrite !K in D by lia. lra.
Qed.
(** The nearest point found is one of the points, no other point is nearer, and it is the first of the nearest ones. *)
Theorem C66_nearest_point :
  forall ps q, ps <> [] -> exists i, find_nearest_point ps q = Ok (i, pt ps i) /\ (i < length ps)%nat /\
    (forall j, (j < length ps)%nat -> euclid (pt ps i) q <= euclid (pt ps j) q) /\ (forall j, (j < i)%nat -> euclid (pt ps i) q < euclid (pt ps j) q).
Proof.
  intros ps q N. set (l := map (fun p => dist p q) ps). assert (N' : l <> []) by (unfold l; destruct ps; [congruence|discriminate]). destruct (argmin_spec l N') as (A & B & D).
  assert (Ll : length l = length ps) by apply map_length. assert (K : forall j, (j < length ps)%nat -> nth j l 0 = euclid (pt ps j) q).
  { intros j Hj. unfold l. rewrite (nth_indep _ 0 (dist o3 q)) by now rewrite map_length. rewrite (map_nth (fun p => dist p q)). apply dist_euclid. }
  exists (argmin l). split. unfold find_nearest_point. destruct ps; [congruence|reflexivity]. rewrite Ll in *. split; auto.
  split; intros j Hj; rewrite <- !K by lia. now apply B. now apply D.
Qed.
Print Assumptions C66_nearest_point.
Example C66_nearest_point_case : exists p, find_nearest_point [(0, 0, 0); (1, 0, 0); (5, 5, 5)] (4, 4, 4) = Ok p.
Proof. eexists. reflexivity. Qed.

Lemma max_list_spec l : l <> [] -> In (max_list l) l /\ forall v, In v l -> v <= max_list l.
Proof.
  destruct l as [|a t]; [congruence|]. intros _. unfold max_list. cbn [hd tl]. induction t as [|b t IH]; cbn [fold_right]. split; [now left|]. intros v [->|[]]. lra.
  destruct IH as [I U]. split.
  - unfold Rmax at 1. destruct (Rle_dec b (fold_right Rmax a t)); [|right; now left]. destruct I as [E|I]; [now left|now right; right].
  - intros v [->|[->|I']]. eapply Rle_trans; [apply U; now left|apply Rmax_r]. apply Rmax_l. eapply Rle_trans; [apply U; now right|apply Rmax_r].
Qed.
Lemma min_list_spec l : l <> [] -> In (min_list l) l /\ forall v, In v l -> min_list l <= v.
Proof.
  destruct l as [|a t]; [congruence|]. intros _. unfold min_list. cbn [hd tl]. induction t as [|b t IH]; cbn [fold_right]. split; [now left|]. intros v [->|[]]. lra.
  destruct IH as [I U]. split.
  - unfold Rmin at 1. destruct (Rle_dec b (fold_right Rmin a t)); [right; now left|]. destruct I as [E|I]; [now left|now right; right].
  - intros v [->|[->|I']]. eapply Rle_trans; [apply Rmin_r|apply U; now left]. apply Rmin_l. eapply Rle_trans; [apply Rmin_r|apply U; now right].
Qed.
Theorem C66_extent :
  forall ps a, ps <> [] -> exists lo hi, extent a ps = Ok (lo, hi) /\
    (forall i, (i < length ps)%nat -> lo <= coord a (pt ps i) <= hi) /\
    (exists i, (i < length ps)%nat /\ coord a (pt ps i) = lo) /\ (exists i, (i < length ps)%nat /\ coord a (pt ps i) = hi).
Proof.
  intros ps a N. exists (min_list (map (coord a) ps)), (max_list (map (coord a) ps)). split. unfold extent. destruct ps; [congruence|reflexivity].
  assert (N' : map (coord a) ps <> []) by (destruct ps; [congruence|discriminate]). destruct (min_list_spec _ N') as [I1 U1]. destruct (max_list_spec _ N') as [I2 U2].
  split. intros i Hi. split; [apply U1|apply U2]; apply in_map, nth_In; auto.
  apply in_map_iff in I1 as (p & E1 & P1). apply in_map_iff in I2 as (p' & E2 & P2). destruct (In_nth _ _ o3 P1) as (i & Hi & Q1). destruct (In_nth _ _ o3 P2) as (j & Hj & Q2).
  split; [exists i|exists j]; split; auto; [rewrite <- E1; f_equal; exact Q1|rewrite <- E2; f_equal; exact Q2].
Qed.
Print Assumptions C66_extent.
Example C66_extent_case : exists lo hi, extent AX [(3, 0, 0); (1, 0, 0); (2, 0, 0)] = Ok (lo, hi) /\ lo <= 3 <= hi.
Proof. destruct (C66_extent [(3, 0, 0); (1, 0, 0); (2, 0, 0)] AX ltac:(discriminate)) as (lo & hi & E & U & _). exists lo, hi. split; auto. apply (U 0%nat). simpl; lia. Qed.

(** ** Microphone arrays *)
Lemma off_diagonal_in ps v : In v (off_diagonal ps) <-> exists i j, (i < length ps)%nat /\ (j < length ps)%nat /\ i <> j /\ v = dist (pt ps i) (pt ps j).
Proof.
  unfold off_diagonal. rewrite in_concat. split.
  - intros (l & Il & Iv). destruct (In_nth _ _ [] Il) as (i & Hi & E). rewrite mk_length in Hi. rewrite nth_mk in E by auto. subst l. apply in_concat in Iv as (l & Il' & Iv).
    destruct (In_nth _ _ [] Il') as (j & Hj & E). rewrite mk_length in Hj. rewrite nth_mk in E by auto. subst l. destruct (Nat.eqb_spec i j); [destruct Iv|]. destruct Iv as [<-|[]]. exists i, j. auto.
  - intros (i & j & Hi & Hj & D & ->). eexists. split. { eapply nth_In with (n := i) (d := []). now rewrite mk_length. } rewrite nth_mk by auto. apply in_concat.
    eexists. split. { eapply nth_In with (n := j) (d := []). now rewrite mk_length. } rewrite nth_mk by auto. destruct (Nat.eqb_spec i j); [lia|now left].
Qed.
(** The aperture is the largest and min_distance the smallest distance between two different microphones. *)
Theorem C66_aperture :
  forall ps, (2 <= length ps)%nat -> exists s' ap md, ma_step (new_array ps) Aperture = (s', OVal ap) /\ (exists s2, ma_step (new_array ps) MinDistance = (s2, OVal md)) /\
    (forall i j, (i < length ps)%nat -> (j < length ps)%nat -> i <> j -> md <= euclid (pt ps i) (pt ps j) <= ap) /\
    (exists i j, (i < length ps)%nat /\ (j < length ps)%nat /\ i <> j /\ euclid (pt ps i) (pt ps j) = ap) /\
    (exists i j, (i < length ps)%nat /\ (j < length ps)%nat /\ i <> j /\ euclid (pt ps i) (pt ps j) = md).
Proof.
  intros ps H. destruct ps as [|p0 t0] eqn:Eps; [simpl in H; lia|]. rewrite <- Eps in *. clear Eps p0 t0. exists (mkMA ps (Some (max_list (off_diagonal ps))) (Some (min_list (off_diagonal ps))) None).
  exists (max_list (off_diagonal ps)), (min_list (off_diagonal ps)).
  assert (N : off_diagonal ps <> []). { intros E. assert (I : In (dist (pt ps 0) (pt ps 1)) (off_diagonal ps)) by (apply off_diagonal_in; exists 0%nat, 1%nat; repeat split; lia). now rewrite E in I. }
  assert (P : match ps with [] => False | _ => True end) by (destruct ps; [simpl in H; lia|exact I]).
  split. { unfold ma_step, ma_with, ma_compute, new_array. cbn [ma_ap ma_pos]. now destruct ps. }
  split. { exists (mkMA ps (Some (max_list (off_diagonal ps))) (Some (min_list (off_diagonal ps))) None). unfold ma_step, ma_with, ma_compute, new_array. cbn [ma_min ma_pos]. now destruct ps. }
  destruct (max_list_spec _ N) as [I1 U1]. destruct (min_list_spec _ N) as [I2 U2]. repeat split.
  - rewrite <- dist_euclid. apply U2. apply off_diagonal_in. exists i, j. auto.
  - rewrite <- dist_euclid. apply U1. apply off_diagonal_in. exists i, j. auto.
  - apply off_diagonal_in in I1 as (i & j & A & B & D & E). exists i, j. rewrite <- dist_euclid. auto.
  - apply off_diagonal_in in I2 as (i & j & A & B & D & E). exists i, j. rewrite <- dist_euclid. auto.
Qed.
Print Assumptions C66_aperture.
Example C66_aperture_case : exists s, ma_step (new_array [(0, 0, 0); (3, 4, 0)]) Aperture = (s, OVal 5).
Proof.
  destruct (C66_aperture [(0, 0, 0); (3, 4, 0)] ltac:(simpl; lia)) as (s & ap & md & E & _ & _ & (i & j & Hi & Hj & D & Q) & _). exists s. rewrite E. do 2 f_equal. rewrite <- Q.
  rewrite <- dist_euclid. simpl in Hi, Hj. destruct i as [|[|]], j as [|[|]]; try lia; cbn [nth]; rewrite ?(dist_sym (3, 4, 0)); apply C66_distance_case.
Qed.

(** The central microphone is the one nearest to the mean position. *)
Theorem C66_center :
  forall ps, ps <> [] -> exists i s, ma_step (new_array ps) Center = (s, OCenter (pt ps i) i) /\ (i < length ps)%nat /\
    let m a := fold_right Rplus 0 (map (coord a) ps) / INR (length ps) in
    forall j, (j < length ps)%nat -> euclid (pt ps i) (m AX, m AY, m AZ) <= euclid (pt ps j) (m AX, m AY, m AZ).
Proof.
  intros ps N. destruct (C66_nearest_point ps (mean3 ps) N) as (i & E & Hi & A & _). exists i, (mkMA ps None None (Some (pt ps i, i))). split; [|split; auto].
  assert (Ec : center ps = i) by (unfold find_nearest_point in E; destruct ps; [congruence|]; now injection E as E).
  unfold ma_step, new_array. cbn [ma_center ma_pos ma_ap ma_min]. destruct ps as [|p t]; [congruence|]. now rewrite Ec.
Qed.
Print Assumptions C66_center.
Example C66_center_case : exists i s, ma_step (new_array [(0, 0, 0); (1, 0, 0); (2, 0, 0)]) Center = (s, OCenter (pt [(0, 0, 0); (1, 0, 0); (2, 0, 0)] i) i) /\ (i < 3)%nat.
Proof. destruct (C66_center [(0, 0, 0); (1, 0, 0); (2, 0, 0)] ltac:(discriminate)) as (i & s & E & Hi & _). exists i, s. auto. Qed.

(** Helmholtz numbers and frequencies convert back and forth. *)
Theorem C66_helmholtz_round_trip :
  forall ps he c, (2 <= length ps)%nat -> (exists i j, (i < length ps)%nat /\ (j < length ps)%nat /\ pt ps i <> pt ps j) -> c <> 0 ->
  exists s f, ma_step (new_array ps) (HeToHz he c) = (s, OVal f) /\ ma_step s (HzToHe f c) = (s, OVal he).
Proof.
  intros ps he c H (i & j & Hi & Hj & D) Hc. destruct (C66_aperture ps H) as (s & ap & md & E & _ & U & _). assert (P : 0 < ap).
  { assert (ij : i <> j) by (intros ->; now apply D). pose proof (U i j Hi Hj ij) as B. rewrite <- dist_euclid in B. destruct (Rle_lt_or_eq_dec _ _ (dist_nonneg (pt ps i) (pt ps j))) as [P|Z]; [lra|].
    symmetry in Z. apply dist_zero in Z. now apply D in Z. }
  unfold ma_step, ma_with, ma_compute, new_array in *. cbn [ma_ap ma_pos] in *. destruct ps as [|p t]; [simpl in H; lia|]. injection E as Es Ea. eexists _, _. split; [reflexivity|]. cbn [ma_ap].
  rewrite Ea. do 2 f_equal. field. split; lra.
Qed.
Print Assumptions C66_helmholtz_round_trip.
Example C66_helmholtz_case : exists s f, ma_step (new_array [(0, 0, 0); (3, 4, 0)]) (HeToHz 4 343) = (s, OVal f) /\ ma_step s (HzToHe f 343) = (s, OVal 4).
Proof. apply C66_helmholtz_round_trip. simpl; lia. exists 0%nat, 1%nat. cbn. repeat split; try lia. intros E. injection E as E1 _. lra. lra. Qed.
(** The recommended range: the lowest Helmholtz number, and half a wavelength at the smallest distance. *)
Theorem C66_frequency_range :
  forall ps he c, (2 <= length ps)%nat -> 0 < c -> (forall i j, (i < length ps)%nat -> (j < length ps)%nat -> i <> j -> pt ps i <> pt ps j) ->
  (forall i j, (i < length ps)%nat -> (j < length ps)%nat -> i <> j -> euclid (pt ps i) (pt ps j) >= c / snd (frequency_range ps he c) / 2) /\
  (exists i j, (i < length ps)%nat /\ (j < length ps)%nat /\ i <> j /\ euclid (pt ps i) (pt ps j) = c / snd (frequency_range ps he c) / 2).
Proof.
  intros ps he c H Hc D. destruct (C66_aperture ps H) as (s & ap & md & _ & (s2 & E) & U & _ & (i0 & j0 & Hi & Hj & ij & Q)).
  assert (Em : min_list (off_diagonal ps) = md). { unfold ma_step, ma_with, ma_compute, new_array in E. cbn [ma_min ma_pos] in E. destruct ps as [|p t]; [simpl in H; lia|]. now injection E as _ E. }
  assert (P : 0 < md). { rewrite <- Q, <- dist_euclid. destruct (Rle_lt_or_eq_dec _ _ (dist_nonneg (pt ps i0) (pt ps j0))) as [P|Z]; [lra|]. symmetry in Z. apply dist_zero in Z. now apply D in Z. }
  assert (F : c / snd (frequency_range ps he c) / 2 = md) by (unfold frequency_range; cbn [snd]; rewrite Em; field; split; lra).
  rewrite F. split. intros i j A B N. apply Rle_ge. now apply U. exists i0, j0. auto.
Qed.
Print Assumptions C66_frequency_range.
Example C66_frequency_range_case : exists i j, (i < 2)%nat /\ (j < 2)%nat /\ i <> j /\ euclid (pt [(0, 0, 0); (3, 4, 0)] i) (pt [(0, 0, 0); (3, 4, 0)] j) = 343 / snd (frequency_range [(0, 0, 0); (3, 4, 0)] 4 343) / 2.
Proof.
  destruct (C66_frequency_range [(0, 0, 0); (3, 4, 0)] 4 343 ltac:(simpl; lia) ltac:(lra)) as (_ & E); [|exact E]. intros i j Hi Hj N E. simpl in Hi, Hj. destruct i as [|[|]], j as [|[|]]; try lia; cbn in E; injection E; intros; lra.
Qed.

(** *** Histories *)
(** What an array answers: the aperture and the smallest distance of the positions at the first access to one of them, the centre of
    the positions at the first access to it. *)
Fixpoint answers (now : list point) (ap ce : option (list point)) (ops : list ma_op) : list ma_out :=
  match ops with
  | [] => []
  | SetCoordinates ps :: t => ODone :: answers ps ap ce t
  | Center :: t =>
      match (match ce with Some q => q | None => now end) with
      | [] => ORaise ValueError :: answers now ap ce t
      | q => OCenter (nth (center q) q o3) (center q) :: answers now ap (Some q) t
      end
  | o :: t =>
      match (match ap with Some q => q | None => now end) with
      | [] => ORaise ValueError :: answers now ap ce t
      | q => let big := max_list (off_diagonal q) in
             OVal (match o with Aperture => big | MinDistance => min_list (off_diagonal q) | HeToHz he c => he * c / big | HzToHe f c => f * big / c | _ => 0 end)
             :: answers now (Some q) ce t
      end
  end.
Definition stored (now : list point) (ap ce : option (list point)) : mic_array :=
  mkMA now (option_map (fun q => max_list (off_diagonal q)) ap) (option_map (fun q => min_list (off_diagonal q)) ap) (option_map (fun q => (nth (center q) q o3, center q)) ce).
Lemma answers_run ops : forall now ap ce, (forall q, ap = Some q -> q <> []) -> (forall q, ce = Some q -> q <> []) ->
  Spec.run ma_step (stored now ap ce) ops = answers now ap ce ops.
Proof.
  induction ops as [|o t IH]; intros now ap ce Ha Hc; [reflexivity|].
  assert (NS : forall p (l : list point) q, Some (p :: l) = Some q -> q <> []) by (intros p l q E; injection E as <-; discriminate).
  destruct o; cbn [Spec.run answers].
  1, 2, 5, 6: destruct ap as [q|]; unfold ma_step, ma_with, ma_compute, stored; cbn [ma_ap ma_min ma_pos ma_center option_map];
    [ specialize (Ha q eq_refl); destruct q as [|p l]; [congruence|]; f_equal; apply (IH now (Some (p :: l)) ce); auto; apply NS
    | destruct now as [|p l]; cbn [ma_ap ma_min ma_pos ma_center]; f_equal; [apply (IH [] None ce)|apply (IH (p :: l) (Some (p :: l)) ce)]; auto; apply NS ].
  - unfold ma_step, stored. cbn [ma_ap ma_min ma_pos ma_center]. destruct ce as [q|]; cbn [option_map].
    + specialize (Hc q eq_refl). destruct q as [|p l]; [congruence|]. f_equal. apply (IH now ap (Some (p :: l))); auto. apply NS.
    + destruct now as [|p l]; f_equal; [apply (IH [] ap None)|apply (IH (p :: l) ap (Some (p :: l)))]; auto. apply NS.
  - unfold ma_step, stored. cbn [ma_ap ma_min ma_pos ma_center]. f_equal. now apply IH.
Qed.
Theorem C66_history : forall ps ops, Spec.run ma_step (new_array ps) ops = answers ps None None ops.
Proof. intros ps ops. change (new_array ps) with (stored ps None None). apply answers_run; discriminate. Qed.
Print Assumptions C66_history.
(** After the microphones are moved the old aperture is reported: *)
Theorem C66_moved_array_refuted :
  ~ (forall ps qs s r, ma_step (final ma_step (new_array ps) [Aperture; SetCoordinates qs]) Aperture = (s, OVal r) -> (2 <= length qs)%nat ->
      exists i j, euclid (pt qs i) (pt qs j) = r).
Proof.
  intros H. specialize (H [(0, 0, 0); (3, 4, 0)] [(0, 0, 0); (0, 0, 0)]). destruct C66_aperture_case as (s & E).
  cbn [final] in H. rewrite E in H. cbn [fst] in H. assert (Es : ma_ap s = Some 5).
  { unfold ma_step, ma_with, ma_compute, new_array in E. cbn [ma_ap ma_pos] in E. injection E as <- E. cbn [ma_ap]. now rewrite E. }
  unfold ma_step at 2 in H. cbn [fst] in H. unfold ma_step, ma_with in H. cbn [ma_ap] in H. rewrite Es in H. destruct (H _ _ eq_refl ltac:(simpl; lia)) as (i & j & Q).
  assert (K : forall n, pt [(0, 0, 0); (0, 0, 0)] n = o3) by (intros [|[|[|]]]; reflexivity). rewrite !K in Q. rewrite <- dist_euclid in Q. assert (Z : dist o3 o3 = 0) by now apply dist_zero. lra.
Qed.
Print Assumptions C66_moved_array_refuted.
(** Without moving them the first answers stay true: every access to the aperture gives the value for the current positions. *)
Theorem C66_unmoved_array :
  forall ps ops, (2 <= length ps)%nat -> (forall o, In o ops -> forall qs, o <> SetCoordinates qs) -> forall n, (n < length ops)%nat -> nth n ops Aperture = Aperture ->
  nth n (Spec.run ma_step (new_array ps) ops) ODone = OVal (max_list (off_diagonal ps)).
Proof.
  intros ps ops H D n Hn E. rewrite C66_history. assert (G : forall ops n ap ce, (forall o, In o ops -> forall qs, o <> SetCoordinates qs) -> (ap = None \/ ap = Some ps) -> (ce = None \/ ce = Some ps) -> (n < length ops)%nat -> nth n ops Aperture = Aperture ->
    nth n (answers ps ap ce ops) ODone = OVal (max_list (off_diagonal ps))).
  { clear ops D n Hn E. induction ops as [|o t IH]; intros n ap ce D Ha Hc Hn E. simpl in Hn; lia.
    assert (Dt : forall o, In o t -> forall qs, o <> SetCoordinates qs) by (intros; apply D; now right).
    destruct ps as [|p l] eqn:Eps; [simpl in H; lia|]. rewrite <- Eps in *.
    assert (Xa : match ap with Some q => q | None => ps end = ps) by (destruct Ha as [-> | ->]; auto). assert (Xc : match ce with Some q => q | None => ps end = ps) by (destruct Hc as [-> | ->]; auto).
    destruct n as [|n].
    - cbn [nth] in E. subst o. cbn [answers]. rewrite Xa, Eps. reflexivity.
    - simpl in Hn. cbn [nth] in E. destruct o; cbn [answers]; try (rewrite Xa, Eps; cbn [nth]; rewrite <- Eps; apply IH; auto; lia).
      + rewrite Xc, Eps. cbn [nth]. rewrite <- Eps. apply IH; auto; lia.
      + exfalso. apply (D (SetCoordinates ps0) (or_introl eq_refl) ps0 eq_refl). }
  apply G; auto.
Qed.
Print Assumptions C66_unmoved_array.
Example C66_unmoved_array_case : nth 2 (Spec.run ma_step (new_array [(0, 0, 0); (3, 4, 0)]) [Center; MinDistance; Aperture]) ODone = OVal (max_list (off_diagonal [(0, 0, 0); (3, 4, 0)])).
Proof. apply C66_unmoved_array; simpl; auto; try lia. intros o [<-|[<-|[<-|[]]]] qs; discriminate. Qed.
