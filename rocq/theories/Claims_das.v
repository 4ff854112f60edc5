(** C68: maps of the delay-and-sum beamformer in the frequency domain. *)
From Coq Require Import List Arith Lia ZArith Bool Reals Lra Psatz.
From Verif Require Import Alg Spec Dft M_arrays M_scaling M_latency M_distances M_welch P_ar P_biquad P_parseval P_distances P_welch Claims_room Claims_tf Claims_welch M_beam Claims_grid Claims_steering.
Import ListNotations.
Local Open Scope R_scope.
Add Ring crcdas : (@rth C CRing_C).

(** ** Specification *)
(** The quadratic form of a matrix. *)
Definition form2 (n : nat) (v : nat -> C) (M : nat -> nat -> C) : C := csum n (fun i => csum n (fun j => cmul (cmul (cconj (v i)) (M i j)) (v j))).
Definition positive_matrix (n : nat) (M : nat -> nat -> C) : Prop := forall v, exists q, 0 <= q /\ form2 n v M = rc q.
Definition increasing (f : list R) : Prop := forall i j, (i < j)%nat -> (j < length f)%nat -> get f i < get f j.
(** The cross-spectra of a single source of power [P]. *)
Definition source_matrix (P k : R) (mics : list point) (s : point) (i j : nat) : C := cmulr (cmul (transfer k mics s i) (cconj (transfer k mics s j))) P.
Definition wave (f : list R) (c : R) (b : nat) : R := get f b * PI * 2 / c.
Notation bin_of csm b := (@nth matrix b csm []).
Definition agree (n : nat) (m : matrix) (M : nat -> nat -> C) : Prop := length m = n /\ forall i j, (i < n)%nat -> (j < n)%nat -> entry m i j = M i j.

(** ** The band *)
Lemma nearest_spec p f : f <> [] -> (nearest p f < length f)%nat /\ (forall j, (j < length f)%nat -> Rabs (p - get f (nearest p f)) <= Rabs (p - get f j)) /\
  (forall j, (j < nearest p f)%nat -> Rabs (p - get f (nearest p f)) < Rabs (p - get f j)).
Proof.
  intros N. unfold nearest. set (l := map _ f). assert (N' : l <> []) by (unfold l; destruct f; [congruence|discriminate]). destruct (argmax_spec l N') as (A & B & D).
  assert (Ll : length l = length f) by apply map_length. rewrite Ll in *. assert (K : forall j, (j < length f)%nat -> nth j l 0 = - Rabs (p - get f j)).
  { intros j Hj. unfold l. rewrite (nth_indep _ 0 (- Rabs (p - 0))) by now rewrite map_length. now rewrite (map_nth (fun v => - Rabs (p - v))). }
  split; auto. split; intros j Hj. specialize (B j Hj). rewrite !K in B by auto. lra. specialize (D j Hj). rewrite !K in D by lia. lra.
Qed.
Lemma nearest_mono f a b : f <> [] -> increasing f -> a <= b -> (nearest a f <= nearest b f)%nat.
Proof.
  intros N I H. destruct (nearest_spec a f N) as (A1 & A2 & A3). destruct (nearest_spec b f N) as (B1 & B2 & B3). destruct (le_lt_dec (nearest a f) (nearest b f)) as [|L]; auto. exfalso.
  specialize (A3 _ L). specialize (B2 _ A1). specialize (I _ _ L A1). revert A3 B2. unfold Rabs. repeat destruct (Rcase_abs _); lra.
Qed.
(** The limits of the band are at most and at least the centre frequency, their ratio is 2 ^ (1 / fraction). *)
Lemma bandwidth_order fc fr : 0 <= fc -> 0 <= fr -> fst (bandwidth fc fr) <= snd (bandwidth fc fr).
Proof.
  intros F H. unfold bandwidth. destruct (Req_EM_T fr 0); cbn [fst snd]; [lra|]. apply Rmult_le_compat_l; auto. apply Rle_Rpower; [lra|]. assert (0 < / fr) by (apply Rinv_0_lt_compat; lra). unfold Rdiv. nra.
Qed.
Theorem C68_band :
  forall f fc fr, f <> [] -> increasing f -> 0 <= fc -> 0 <= fr -> exists i j lo hi, band_bins f fc fr = (i, j) /\ (i < j)%nat /\ (j <= length f)%nat /\
    (fr = 0 -> lo = fc /\ hi = fc) /\ (fr <> 0 -> lo * Rpower 2 (1 / fr) = hi /\ lo * hi = fc * fc) /\
    (forall b, (b < length f)%nat -> Rabs (lo - get f i) <= Rabs (lo - get f b)) /\
    (exists e, (e = j - 1 \/ e = j)%nat /\ (e < length f)%nat /\ (e = j - 1 -> e = i)%nat /\ (forall b, (b < length f)%nat -> Rabs (hi - get f e) <= Rabs (hi - get f b))).
Proof.
  intros f fc fr N I F H. set (lo := fst (bandwidth fc fr)). set (hi := snd (bandwidth fc fr)). destruct (nearest_spec lo f N) as (A1 & A2 & _). destruct (nearest_spec hi f N) as (B1 & B2 & _).
  pose proof (nearest_mono f lo hi N I (bandwidth_order fc fr F H)) as M. exists (nearest lo f), (if (nearest lo f =? nearest hi f)%nat then S (nearest hi f) else nearest hi f), lo, hi.
  split; [reflexivity|]. assert (LH : (fr = 0 -> lo = fc /\ hi = fc) /\ (fr <> 0 -> lo * Rpower 2 (1 / fr) = hi /\ lo * hi = fc * fc)).
  { unfold lo, hi, bandwidth. destruct (Req_EM_T fr 0); cbn [fst snd]; split; intros; try contradiction; auto. split.
    - rewrite Rmult_assoc, <- Rpower_plus. do 2 f_equal. field. auto.
    - transitivity (fc * fc * (Rpower 2 (-1 / fr / 2) * Rpower 2 (1 / fr / 2))); [ring|]. rewrite <- Rpower_plus. replace (-1 / fr / 2 + 1 / fr / 2) with 0 by (field; auto). rewrite Rpower_O by lra. ring. }
  destruct LH as [L1 L2]. destruct (Nat.eqb_spec (nearest lo f) (nearest hi f)) as [E|E]; repeat split; auto; try lia; try (now apply L1); try (now apply L2).
  - exists (nearest hi f). repeat split; auto; lia.
  - exists (nearest hi f). repeat split; auto; lia.
Qed.
Print Assumptions C68_band.
Example C68_band_case : increasing [0; 100; 200] /\ exists i j, band_bins [0; 100; 200] 100 0 = (i, j) /\ (i < j)%nat.
Proof.
  assert (I : increasing [0; 100; 200]). { intros i j Hij Hj. simpl in Hj. unfold get. destruct i as [|[|[|]]], j as [|[|[|]]]; try lia; cbn; lra. } split; auto.
  destruct (C68_band [0; 100; 200] 100 0 ltac:(discriminate) I ltac:(lra) ltac:(lra)) as (i & j & lo & hi & E & L & _). exists i, j. auto.
Qed.

(** ** Values of the map *)
(** The weight of every bin of a band. *)
Definition band_weight (n : nat) (h : R) (b : nat) : R := if (n =? 1)%nat then 1 else simpson_weight n h b.
Lemma beam_map_eq grid f csm fc fr c bin i j g : band_bins f fc fr = (i, j) -> (i < j)%nat -> (g < length grid)%nat ->
  get (beam_map grid f csm fc fr c bin) g = rsum (j - i) (fun b => band_weight (j - i) (get f (i + 1) - get f i) b * get (bin (wave f c (i + b)) (bin_of csm (i + b))) g).
Proof.
  intros E L Hg. unfold beam_map. rewrite E. rewrite get_mk by auto. unfold band_weight. destruct (Nat.ltb_spec 1 (j - i)) as [G|G].
  - destruct (Nat.eqb_spec (j - i) 1); [lia|]. unfold simpson. rewrite map_length, mk_length. apply sum_ext. intros b Hb. f_equal. unfold get at 1.
    rewrite (nth_indep _ _ (get [] g)) by (now rewrite map_length, mk_length). rewrite (map_nth (fun v => get v g)). rewrite nth_mk by auto. reflexivity.
  - assert (j - i = 1)%nat as -> by lia. cbn [Nat.eqb]. unfold mk. cbn [seq map hd sum]. change (@radd R CRing_R) with Rplus. change (@r0 R CRing_R) with 0. unfold wave. ring.
Qed.
Lemma band_weight_pos n h b : 0 < h -> (b < n)%nat -> 0 < band_weight n h b.
Proof. intros H Hb. unfold band_weight. destruct (Nat.eqb_spec n 1); [lra|]. apply weight_pos; auto; lia. Qed.
Lemma band_h f i j : increasing f -> (i < j)%nat -> (j <= length f)%nat -> (j - i = 1)%nat \/ 0 < get f (i + 1) - get f i.
Proof. intros I L H. destruct (Nat.eq_dec (j - i) 1); auto. right. assert (get f i < get f (i + 1)) by (apply I; lia). lra. Qed.
Lemma band_weight_pos' f i j b : increasing f -> (i < j)%nat -> (j <= length f)%nat -> (b < j - i)%nat -> 0 < band_weight (j - i) (get f (i + 1) - get f i) b.
Proof. intros I L H Hb. destruct (band_h f i j I L H) as [E|P]. rewrite E. unfold band_weight. simpl. lra. now apply band_weight_pos. Qed.
Lemma quad_form2 h m : quad h m = form2 (length h) (cnth h) (entry m).
Proof. unfold quad, form2. apply sum_ext. intros i Hi. rewrite <- (sum_scal_l (HA := CRing_C)). apply sum_ext. intros j Hj. change (@rmul C CRing_C) with cmul. cring. Qed.
Lemma form2_ext n v M M' : (forall i j, (i < n)%nat -> (j < n)%nat -> M i j = M' i j) -> form2 n v M = form2 n v M'.
Proof. intros H. unfold form2. apply sum_ext. intros i Hi. apply sum_ext. intros j Hj. now rewrite H. Qed.
Lemma quad_agree h m M : agree (length h) m M -> quad h m = form2 (length h) (cnth h) M.
Proof. intros [_ A]. rewrite quad_form2. now apply form2_ext. Qed.
Lemma get_map_grid (F : point -> R) grid g : (g < length grid)%nat -> get (map F grid) g = F (mic grid g).
Proof. intros Hg. unfold get. rewrite (nth_indep _ _ (F o3)) by now rewrite map_length. now rewrite map_nth. Qed.
Lemma das_map_eq fo mics grid f csm fc fr c rm i j g : band_bins f fc fr = (i, j) -> (i < j)%nat -> (g < length grid)%nat ->
  get (das_map fo mics grid f csm fc fr c rm) g = rsum (j - i) (fun b => band_weight (j - i) (get f (i + 1) - get f i) b *
    das_value rm (steering fo (wave f c (i + b)) mics (mic grid g)) (bin_of csm (i + b))).
Proof. intros E L Hg. unfold das_map. rewrite (beam_map_eq _ _ _ _ _ _ _ i j) by auto. apply sum_ext. intros b Hb. f_equal. now rewrite get_map_grid by auto. Qed.

(** The map of positive semidefinite cross-spectra has one value per grid point and no negative value, with or without the diagonal. *)
Theorem C68_nonnegative :
  forall fo mics grid f csm fc fr c rm, f <> [] -> increasing f -> 0 <= fc -> 0 <= fr ->
  (forall b, (b < length f)%nat -> positive_matrix (length mics) (entry (bin_of csm b))) ->
  length (das_map fo mics grid f csm fc fr c rm) = length grid /\ forall g, (g < length grid)%nat -> 0 <= get (das_map fo mics grid f csm fc fr c rm) g.
Proof.
  intros fo mics grid f csm fc fr c rm N I F H P. destruct (C68_band f fc fr N I F H) as (i & j & lo & hi & E & L & U & _). split.
  { unfold das_map, beam_map. rewrite E. apply mk_length. }
  intros g Hg. rewrite (das_map_eq _ _ _ _ _ _ _ _ _ i j) by auto. apply rsum_nonneg. intros b Hb. apply Rmult_le_pos. left. now apply band_weight_pos'.
  unfold das_value. destruct rm. destruct (Rlt_dec _ 0); lra. destruct (P (i + b)%nat ltac:(lia) (cnth (steering fo (wave f c (i + b)) mics (mic grid g)))) as (q & Q & Eq).
  unfold power. rewrite quad_form2, steering_length, Eq. exact Q.
Qed.
Print Assumptions C68_nonnegative.
(** This includes every recording analysed with Welch's method. *)
Definition bin_matrix (n : nat) (m : list (list (list C))) (k : nat) : matrix := mk n (fun i => mk n (fun j => entry3 m i j k)).
Theorem C68_recording_nonnegative :
  forall fo mics grid fs window w overlap detrend s xs fc fr c rm f, csm_ready xs w overlap -> s = PowerSpectrum \/ s = PowerSpectralDensity -> length xs = length mics ->
  length f = (w / 2 + 1)%nat -> increasing f -> 0 <= fc -> 0 <= fr ->
  exists m, csm_welch xs fs window w overlap detrend false s = Ok m /\
    forall g, (g < length grid)%nat -> 0 <= get (das_map fo mics grid f (mk (w / 2 + 1) (bin_matrix (length xs) m)) fc fr c rm) g.
Proof.
  intros fo mics grid fs window w overlap detrend s xs fc fr c rm f R Hs Hl Lf I F H. destruct (C49_positive_semidefinite xs fs window w overlap detrend s R Hs) as (m & E & P). exists m. split; auto.
  apply C68_nonnegative; auto. intros ->. simpl in Lf; lia. intros b Hb v. rewrite Lf in Hb. rewrite nth_mk by auto. destruct (P v b ltac:(lia)) as (q & Q & Eq). exists q. split; auto. rewrite <- Eq, <- Hl. apply form2_ext.
  intros i j Hi Hj. unfold entry, bin_matrix. rewrite nth_mk by auto. unfold cnth. rewrite nth_mk by auto. reflexivity.
Qed.
Print Assumptions C68_recording_nonnegative.

(** The map without removal is linear in the cross-spectra: uncorrelated sources add up. *)
Theorem C68_linear :
  forall fo mics grid f csm csm1 csm2 x y fc fr c g, f <> [] -> increasing f -> 0 <= fc -> 0 <= fr ->
  (forall b i j, (b < length f)%nat -> (i < length mics)%nat -> (j < length mics)%nat ->
     entry (bin_of csm b) i j = cadd (cmulr (entry (bin_of csm1 b) i j) x) (cmulr (entry (bin_of csm2 b) i j) y)) -> (g < length grid)%nat ->
  get (das_map fo mics grid f csm fc fr c false) g = x * get (das_map fo mics grid f csm1 fc fr c false) g + y * get (das_map fo mics grid f csm2 fc fr c false) g.
Proof.
  intros fo mics grid f csm csm1 csm2 x y fc fr c g N I F H A Hg. destruct (C68_band f fc fr N I F H) as (i & j & lo & hi & E & L & U & _). rewrite !(das_map_eq _ _ _ _ _ _ _ _ _ i j) by auto.
  rewrite <- !rsum_mul_l. rewrite <- (sum_add (HA := CRing_R)). apply sum_ext. intros b Hb. change (@radd R CRing_R) with Rplus. unfold das_value, power. set (h := steering fo _ mics _).
  assert (Q : quad h (bin_of csm (i + b)) = cadd (cmulr (quad h (bin_of csm1 (i + b))) x) (cmulr (quad h (bin_of csm2 (i + b))) y)).
  { rewrite !quad_form2. unfold h. rewrite steering_length. fold h. assert (S : forall M k, cmulr (form2 (length mics) (cnth h) M) k = form2 (length mics) (cnth h) (fun i j => cmulr (M i j) k)).
    { intros M k. assert (G : forall n (F : nat -> C), cmulr (csum n F) k = csum n (fun i => cmulr (F i) k)).
      { intros n F0. induction n; cbn [sum]. apply c_ext; cbn; ring. rewrite <- IHn. apply c_ext; cbn; ring. }
      unfold form2. rewrite G. apply sum_ext. intros. rewrite G. apply sum_ext. intros. apply c_ext; cbn; ring. }
    rewrite !S. unfold form2. change cadd with (@radd C CRing_C). rewrite <- (sum_add (HA := CRing_C)). apply sum_ext. intros p Hp. rewrite <- (sum_add (HA := CRing_C)). apply sum_ext. intros q Hq. rewrite A by (auto; lia). change cadd with (@radd C CRing_C). cring. }
  rewrite Q. cbn. ring.
Qed.
Print Assumptions C68_linear.

(** ** A single source *)
Lemma form2_rank_one n v a P : form2 n v (fun i j => cmulr (cmul (a i) (cconj (a j))) P) = rc (P * cabs2 (Sxy n v a)).
Proof.
  transitivity (cmul (rc P) (cmul (Sxy n v a) (cconj (Sxy n v a)))).
  - unfold form2, Sxy at 1. rewrite <- (sum_scal_r (HA := CRing_C)). rewrite <- (sum_scal_l (HA := CRing_C)). apply sum_ext. intros i Hi. unfold Sxy. rewrite csum_conj. change (@rmul C CRing_C) with cmul.
    transitivity (cmul (cmul (rc P) (cmul (cconj (v i)) (a i))) (csum n (fun f => cconj (cmul (cconj (v f)) (a f))))); [|cring].
    change cmul with (@rmul C CRing_C) at 3. rewrite <- (sum_scal_l (HA := CRing_C)). apply sum_ext. intros j Hj. rewrite cconj_mul, cconj_conj. change (@rmul C CRing_C) with cmul.
    replace (cmulr (cmul (a i) (cconj (a j))) P) with (cmul (cmul (a i) (cconj (a j))) (rc P)) by (apply c_ext; cbn; ring). cring.
  - set (z := Sxy n v a). apply c_ext; unfold cabs2; cbn; ring.
Qed.
Lemma das_source fo k mics t s P m : agree (length mics) m (source_matrix P k mics s) -> das_value false (steering fo k mics t) m = P * cabs2 (response fo k mics t s).
Proof. intros A. unfold das_value, power. rewrite (quad_agree _ _ (source_matrix P k mics s)) by now rewrite steering_length. unfold source_matrix. rewrite form2_rank_one, steering_length. reflexivity. Qed.
Definition sources (f : list R) (c : R) (mics : list point) (s : point) (P : nat -> R) (csm : list matrix) : Prop :=
  forall b, (b < length f)%nat -> agree (length mics) (bin_of csm b) (source_matrix (P b) (wave f c b) mics s).
(** The value at the source is its power in the band for the inverse and the true power formulation: *)
Theorem C68_source_power :
  forall fo mics grid f csm P fc fr c g, fo = Inverse \/ fo = TruePower -> f <> [] -> increasing f -> 0 <= fc -> 0 <= fr -> (g < length grid)%nat -> away mics (mic grid g) ->
  sources f c mics (mic grid g) P csm ->
  exists i j, band_bins f fc fr = (i, j) /\ get (das_map fo mics grid f csm fc fr c false) g = rsum (j - i) (fun b => band_weight (j - i) (get f (i + 1) - get f i) b * P (i + b)%nat).
Proof.
  intros fo mics grid f csm P fc fr c g Fo N I F H Hg A S. destruct (C68_band f fc fr N I F H) as (i & j & lo & hi & E & L & U & _). exists i, j. split; auto. rewrite (das_map_eq _ _ _ _ _ _ _ _ _ i j) by auto.
  apply sum_ext. intros b Hb. f_equal. rewrite (das_source _ _ _ _ (mic grid g) (P (i + b)%nat)) by (apply S; lia). rewrite C67_unit_gain by auto. unfold cabs2, rc. cbn [fst snd]. ring.
Qed.
Print Assumptions C68_source_power.
(** and for the classic and the true location formulation it is the largest value of the map. *)
Theorem C68_source_location :
  forall fo mics grid f csm P fc fr c g, fo = Classic \/ fo = TrueLocation -> f <> [] -> increasing f -> 0 <= fc -> 0 <= fr -> (g < length grid)%nat -> (forall q, (q < length grid)%nat -> away mics (mic grid q)) ->
  sources f c mics (mic grid g) P csm -> (forall b, 0 <= P b) ->
  forall q, (q < length grid)%nat -> get (das_map fo mics grid f csm fc fr c false) q <= get (das_map fo mics grid f csm fc fr c false) g.
Proof.
  intros fo mics grid f csm P fc fr c g Fo N I F H Hg A S P0 q Hq. destruct (C68_band f fc fr N I F H) as (i & j & lo & hi & E & L & U & _). rewrite !(das_map_eq _ _ _ _ _ _ _ _ _ i j) by auto.
  apply rsum_le. intros b Hb. apply Rmult_le_compat_l. left. now apply band_weight_pos'. rewrite !(das_source _ _ _ _ (mic grid g) (P (i + b)%nat)) by (apply S; lia). apply Rmult_le_compat_l; auto.
  rewrite <- !cabs_sq. assert (X : cabs (response fo (wave f c (i + b)) mics (mic grid q) (mic grid g)) <= cabs (response fo (wave f c (i + b)) mics (mic grid g) (mic grid g))) by (apply C67_peak_at_source; auto).
  pose proof (cabs_pos (response fo (wave f c (i + b)) mics (mic grid q) (mic grid g))). apply Rmult_le_compat; auto.
Qed.
Print Assumptions C68_source_location.

(** ** Removal of the diagonal *)
(** The noise of the microphones themselves, whatever its power in every channel, does not change the map. *)
Theorem C68_self_noise :
  forall fo mics grid f csm csm' fc fr c g, f <> [] -> increasing f -> 0 <= fc -> 0 <= fr -> (g < length grid)%nat ->
  (forall b, (b < length f)%nat -> length (bin_of csm b) = length mics /\ length (bin_of csm' b) = length mics /\
     forall i j, (i < length mics)%nat -> (j < length mics)%nat -> i <> j -> entry (bin_of csm b) i j = entry (bin_of csm' b) i j) ->
  get (das_map fo mics grid f csm fc fr c true) g = get (das_map fo mics grid f csm' fc fr c true) g.
Proof.
  intros fo mics grid f csm csm' fc fr c g N I F H Hg A. destruct (C68_band f fc fr N I F H) as (i & j & lo & hi & E & L & U & _). rewrite !(das_map_eq _ _ _ _ _ _ _ _ _ i j) by auto.
  apply sum_ext. intros b Hb. f_equal. destruct (A (i + b)%nat ltac:(lia)) as (L1 & L2 & V). unfold das_value. set (h := steering _ _ _ _).
  assert (Q : remove_diagonal (bin_of csm (i + b)) = remove_diagonal (bin_of csm' (i + b))).
  { unfold remove_diagonal. rewrite L1, L2. unfold mk. apply map_ext_in. intros p Hp. apply map_ext_in. intros q Hq. apply in_seq in Hp, Hq. destruct (Nat.eqb_spec p q); auto. now rewrite V by lia. }
  now rewrite Q.
Qed.
Print Assumptions C68_self_noise.
Lemma removed_power h m M : agree (length h) m M ->
  quad h (remove_diagonal m) = cmulr (csub (form2 (length h) (cnth h) M) (csum (length h) (fun i => cmul (rc (cabs2 (cnth h i))) (M i i)))) (INR (length h) / INR (length h - 1)).
Proof.
  intros [L A]. rewrite quad_form2. set (n := length h) in *. set (K := INR n / INR (n - 1)). transitivity (cmul (rc K) (csub (form2 n (cnth h) M) (csum n (fun i => cmul (rc (cabs2 (cnth h i))) (M i i))))); [|apply c_ext; cbn; ring].
  unfold form2. change csub with (@rsub C CRing_C) at 1. rewrite <- (sum_sub (HA := CRing_C)). change cmul with (@rmul C CRing_C) at 3. rewrite <- (sum_scal_l (HA := CRing_C)). apply sum_ext. intros i Hi. change (@rmul C CRing_C) with cmul. change (@rsub C CRing_C) with csub.
  transitivity (csum n (fun j => cmul (rc K) (csub (cmul (cmul (cconj (cnth h i)) (M i j)) (cnth h j)) (if (j =? i)%nat then cmul (rc (cabs2 (cnth h i))) (M i i) else rc 0)))).
  - apply sum_ext. intros j Hj. unfold entry, remove_diagonal. rewrite L, nth_mk by auto. unfold cnth at 2. rewrite nth_mk by auto. rewrite Nat.eqb_sym. destruct (Nat.eqb_spec j i) as [->|].
    + replace (rc (cabs2 (cnth h i))) with (cmul (cconj (cnth h i)) (cnth h i)) by apply cabs2_conj. change (rc 0) with (@r0 C CRing_C). cring.
    + rewrite A by auto. fold K. replace (cmulr (M i j) K) with (cmul (M i j) (rc K)) by (apply c_ext; cbn; ring). change (rc 0) with (@r0 C CRing_C). cring.
  - change cmul with (@rmul C CRing_C) at 1. rewrite (sum_scal_l (HA := CRing_C)). change csub with (@rsub C CRing_C) at 1. rewrite (sum_sub (HA := CRing_C)). change (@rmul C CRing_C) with cmul. change (@rsub C CRing_C) with csub. f_equal. f_equal.
    rewrite (sum_single (HA := CRing_C) n i _ Hi). now rewrite Nat.eqb_refl. intros j Hj Hn. destruct (Nat.eqb_spec j i); [lia|reflexivity].
Qed.
Lemma removed_source fo k mics t s P m : agree (length mics) m (source_matrix P k mics s) ->
  power (steering fo k mics t) (remove_diagonal m) = P * (INR (length mics) / INR (length mics - 1)) *
    (cabs2 (response fo k mics t s) - rsum (length mics) (fun i => cabs2 (cnth (steering fo k mics t) i) * cabs2 (transfer k mics s i))).
Proof.
  intros A. unfold power. rewrite (removed_power _ _ (source_matrix P k mics s)) by now rewrite steering_length. unfold source_matrix at 1. rewrite form2_rank_one, steering_length. fold (response fo k mics t s). rewrite <- response_Sxy.
  replace (csum (length mics) (fun i => cmul (rc (cabs2 (cnth (steering fo k mics t) i))) (source_matrix P k mics s i i)))
    with (rc (P * rsum (length mics) (fun i => cabs2 (cnth (steering fo k mics t) i) * cabs2 (transfer k mics s i)))).
  - cbn [fst rc cmulr csub]. ring.
  - rewrite <- rsum_mul_l. rewrite <- csum_rc. apply sum_ext. intros i Hi. unfold source_matrix. set (z := transfer k mics s i). apply c_ext; unfold cabs2; cbn; ring.
Qed.
(** With the inverse formulation a single source still has its true power after the removal, and with the true power formulation no more than that. *)
Theorem C68_removed_diagonal :
  forall mics grid f csm P fc fr c g, (2 <= length mics)%nat -> f <> [] -> increasing f -> 0 <= fc -> 0 <= fr -> (g < length grid)%nat -> away mics (mic grid g) -> sources f c mics (mic grid g) P csm -> (forall b, 0 <= P b) ->
  exists i j, band_bins f fc fr = (i, j) /\ let total := rsum (j - i) (fun b => band_weight (j - i) (get f (i + 1) - get f i) b * P (i + b)%nat) in
    get (das_map Inverse mics grid f csm fc fr c true) g = total /\ 0 <= get (das_map TruePower mics grid f csm fc fr c true) g <= total.
Proof.
  intros mics grid f csm P fc fr c g H2 N I F H Hg A S P0. destruct (C68_band f fc fr N I F H) as (i & j & lo & hi & E & L & U & _). exists i, j. split; auto. cbv zeta. rewrite !(das_map_eq _ _ _ _ _ _ _ _ _ i j) by auto.
  set (n := length mics) in *. assert (Hn : 2 <= INR n) by (apply (le_INR 2); auto). assert (Hm : INR (n - 1) = INR n - 1) by (rewrite minus_INR by lia; simpl; ring).
  split; [|split].
  - apply sum_ext. intros b Hb. f_equal. set (k := wave f c (i + b)). assert (V : power (steering Inverse k mics (mic grid g)) (remove_diagonal (bin_of csm (i + b))) = P (i + b)%nat).
    { rewrite (removed_source _ _ _ _ (mic grid g) (P (i + b)%nat)) by (apply S; lia). fold n. rewrite C67_unit_gain by auto. replace (rsum n _) with (1 / INR n). rewrite Hm. unfold cabs2, rc. cbn [fst snd]. field. split; lra.
      transitivity (rsum n (fun _ => 1 / INR n * (1 / INR n))). rewrite rsum_const. field. lra. apply sum_ext. intros q Hq. rewrite steering_eq, transfer_eq, !cabs2_mul, !cabs2_cis by auto. unfold amplitude, cabs2, rc. cbn [fst snd].
      pose proof (away_pos _ _ _ A Hq). pose proof (away_ref _ _ A). fold n. field. repeat split; lra. }
    unfold das_value. rewrite V. destruct (Rlt_dec (P (i + b)%nat) 0); auto. specialize (P0 (i + b)%nat). lra.
  - apply rsum_nonneg. intros b Hb. apply Rmult_le_pos. left. now apply band_weight_pos'. unfold das_value. destruct (Rlt_dec _ 0); lra.
  - apply rsum_le. intros b Hb. apply Rmult_le_compat_l. left. now apply band_weight_pos'. set (k := wave f c (i + b)). unfold das_value. destruct (Rlt_dec _ 0); [auto|]. rewrite (removed_source _ _ _ _ (mic grid g) (P (i + b)%nat)) by (apply S; lia).
    fold n. rewrite C67_unit_gain by auto. set (q := rsum n _). assert (Q : 1 / INR n <= q).
    { (* the mean of squares is at least the square of the mean *)
      set (x := fun a => amplitude TruePower mics (mic grid g) a * (dist (mic grid g) (mic mics (center mics)) / dist (mic grid g) (mic mics a))).
      assert (X1 : rsum n x = 1). { pose proof (C67_unit_gain TruePower k mics (mic grid g) (or_intror eq_refl) A) as G. rewrite response_self in G by auto. apply (f_equal fst) in G. exact G. }
      assert (X2 : q = rsum n (fun a => x a * x a)). { unfold q. apply sum_ext. intros a Ha. rewrite steering_eq, transfer_eq, !cabs2_mul, !cabs2_cis by auto. unfold x, cabs2, rc. cbn [fst snd]. ring. }
      assert (X3 : 0 <= rsum n (fun a => (x a - 1 / INR n) * (x a - 1 / INR n))) by (apply rsum_nonneg; intros; apply Rle_0_sqr).
      assert (X4 : rsum n (fun a => (x a - 1 / INR n) * (x a - 1 / INR n)) = rsum n (fun a => x a * x a) + (- (2 / INR n)) * rsum n x + rsum n (fun _ => 1 / INR n * (1 / INR n))).
      { rewrite <- rsum_mul_l, <- !(sum_add (HA := CRing_R)). apply sum_ext. intros a Ha. change (@radd R CRing_R) with Rplus. field. lra. }
      rewrite X4, X1, rsum_const, <- X2 in X3. replace (INR n * (1 / INR n * (1 / INR n))) with (1 / INR n) in X3 by (field; lra). lra. }
    rewrite Hm. assert (M : INR n / (INR n - 1) * (cabs2 (rc 1) - q) <= 1).
    { apply (Rmult_le_reg_r (INR n - 1)); [lra|]. replace (INR n / (INR n - 1) * (cabs2 (rc 1) - q) * (INR n - 1)) with (INR n * (cabs2 (rc 1) - q)) by (field; lra). unfold cabs2, rc. cbn [fst snd].
      apply (Rmult_le_compat_l (INR n)) in Q; [|lra]. replace (INR n * (1 / INR n)) with 1 in Q by (field; lra). lra. }
    rewrite Rmult_assoc. rewrite <- (Rmult_1_r (P (i + b)%nat)) at 2. apply Rmult_le_compat_l; auto.
Qed.
Print Assumptions C68_removed_diagonal.

(** *** A case for the theorems above *)
Definition case_mics : list point := [(0, 0, 0); (2, 0, 0)].
Definition case_grid : list point := [(0, 0, 1); (0, 0, 1)].
Definition case_csm : list matrix := [mk 2 (fun i => mk 2 (fun j => source_matrix 3 (wave [100] 343 0) case_mics (0, 0, 1) i j))].
Lemma case_increasing : increasing [100].
Proof. intros i j Hij Hj. simpl in Hj. lia. Qed.
Lemma case_sources : sources [100] 343 case_mics (0, 0, 1) (fun _ => 3) case_csm.
Proof.
  intros b Hb. simpl in Hb. assert (b = 0%nat) as -> by lia. split. reflexivity. intros i j Hi Hj. unfold entry, case_csm. cbn [nth]. change (length case_mics) with 2%nat in *. rewrite nth_mk by auto. unfold cnth. now rewrite nth_mk by auto.
Qed.
Lemma case_band : band_bins [100] 100 0 = (0%nat, 1%nat).
Proof. unfold band_bins. assert (Z : forall p, nearest p [100] = 0%nat). { intros p. destruct (nearest_spec p [100] ltac:(discriminate)) as (A & _). simpl in A. lia. } now rewrite !Z. Qed.
Example C68_source_power_case : get (das_map TruePower case_mics case_grid [100] case_csm 100 0 343 false) 0 = 3.
Proof.
  destruct (C68_source_power TruePower case_mics case_grid [100] case_csm (fun _ => 3) 100 0 343 0 ltac:(auto) ltac:(discriminate) case_increasing ltac:(lra) ltac:(lra) ltac:(simpl; lia) away_case case_sources) as (i & j & E & V).
  rewrite case_band in E. injection E as <- <-. rewrite V. cbn [Nat.sub sum]. unfold band_weight. cbn. ring.
Qed.
Example C68_removed_diagonal_case : get (das_map Inverse case_mics case_grid [100] case_csm 100 0 343 true) 1 = 3.
Proof.
  destruct (C68_removed_diagonal case_mics case_grid [100] case_csm (fun _ => 3) 100 0 343 1 ltac:(simpl; lia) ltac:(discriminate) case_increasing ltac:(lra) ltac:(lra) ltac:(simpl; lia) away_case case_sources ltac:(intros; lra)) as (i & j & E & V & _).
  rewrite case_band in E. injection E as <- <-. rewrite V. cbn [Nat.sub sum]. unfold band_weight. cbn. ring.
Qed.
Example C68_nonnegative_case : 0 <= get (das_map Classic case_mics case_grid [100] case_csm 100 0 343 false) 1.
Proof.
  apply (C68_nonnegative Classic case_mics case_grid [100] case_csm 100 0 343 false); try lra; try (simpl; lia); try discriminate. apply case_increasing. intros b Hb v. destruct (case_sources b Hb) as [_ A]. rewrite (form2_ext _ _ _ _ A).
  unfold source_matrix. rewrite form2_rank_one. eexists. split; [|reflexivity]. apply Rmult_le_pos; [lra|]. apply cabs2_pos.
Qed.
Example C68_recording_nonnegative_case : exists m, csm_welch [repeat 1 20; repeat 2 20] 48 (repeat 1 8) 8 4 false false PowerSpectrum = Ok m /\
  0 <= get (das_map Classic case_mics case_grid [0; 6; 12; 18; 24] (mk (8 / 2 + 1) (bin_matrix 2 m)) 12 1 343 true) 1.
Proof.
  destruct (C68_recording_nonnegative Classic case_mics case_grid 48 (repeat 1 8) 8 4 false PowerSpectrum [repeat 1 20; repeat 2 20] 12 1 343 true [0; 6; 12; 18; 24] C49_example (or_introl eq_refl) eq_refl eq_refl) as (m & E & V); try lra.
  { intros i j Hij Hj. simpl in Hj. unfold get. destruct i as [|[|[|[|[|]]]]], j as [|[|[|[|[|]]]]]; try lia; cbn; lra. }
  exists m. split; [auto|]. apply V. simpl; lia.
Qed.
Example C68_linear_case : get (das_map Inverse case_mics case_grid [100] case_csm 100 0 343 false) 0 =
  1 / 3 * get (das_map Inverse case_mics case_grid [100] case_csm 100 0 343 false) 0 + 2 / 3 * get (das_map Inverse case_mics case_grid [100] case_csm 100 0 343 false) 0.
Proof.
  apply C68_linear; try lra; try discriminate; try (simpl; lia). apply case_increasing. intros b i j Hb Hi Hj. set (z := entry _ i j). apply c_ext; cbn; field.
Qed.
Example C68_source_location_case : get (das_map TrueLocation case_mics [(0, 0, 1); (1, 0, 0)] [100] case_csm 100 0 343 false) 1 <= get (das_map TrueLocation case_mics [(0, 0, 1); (1, 0, 0)] [100] case_csm 100 0 343 false) 0.
Proof.
  apply (C68_source_location TrueLocation case_mics [(0, 0, 1); (1, 0, 0)] [100] case_csm (fun _ => 3) 100 0 343 0); auto; try lra; try discriminate; try (simpl; lia). apply case_increasing.
  intros q Hq. simpl in Hq. destruct q as [|[|]]; [apply away_case| |lia]. split; [discriminate|]. intros i Hi E. simpl in Hi. destruct i as [|[|]]; [| |lia]; cbn in E; injection E; intros; lra.
  apply case_sources. intros; lra.
Qed.
Example C68_self_noise_case : get (das_map Inverse case_mics case_grid [100] [zero_diagonal (bin_of case_csm 0)] 100 0 343 true) 0 = get (das_map Inverse case_mics case_grid [100] case_csm 100 0 343 true) 0.
Proof.
  apply C68_self_noise; try lra; try discriminate; try (simpl; lia). apply case_increasing. intros b Hb. simpl in Hb. assert (b = 0%nat) as -> by lia. repeat split. intros i j Hi Hj D.
  cbn [nth]. unfold zero_diagonal, entry. rewrite nth_mk by auto. unfold cnth at 1. rewrite nth_mk by auto. destruct (Nat.eqb_spec i j); [lia|reflexivity].
Qed.
