(** C61: log-spectral distance and Itakura-Saito measure. *)
From Coq Require Import List Arith Lia ZArith Bool Reals Lra Psatz.
From Verif Require Import Alg Spec Dft M_arrays M_latency M_dynamics M_level P_realtime P_ar Claims_level M_distances Claims_distances Claims_room P_distances.
Import ListNotations.
Local Open Scope R_scope.

(** ** Specification *)
Definition dB (v : R) : R := 10 * (ln v / ln 10).
(** First bin that is closest to a frequency. *)
Definition closest (f : list R) (p : R) (k : nat) : Prop :=
  (k < length f)%nat /\ (forall j, (j < length f)%nat -> Rabs (p - get f k) <= Rabs (p - get f j)) /\ (forall j, (j < k)%nat -> Rabs (p - get f k) < Rabs (p - get f j)).
(** A request over the bins [a, b) of the frequencies f with spacing h. *)
Record request := mkReq { q_fs : Z; q_f : list R; q_h : R; q_lo : R; q_hi : R; q_a : nat; q_b : nat }.
Definition valid (q : request) : Prop :=
  0 < q_h q /\ 0 <= q_lo q <= q_hi q /\ q_hi q <= IZR (q_fs q / 2) /\ closest (q_f q) (q_lo q) (q_a q) /\ closest (q_f q) (q_hi q) (q_b q) /\ (q_a q < q_b q)%nat.
Definition spectrum_of (q : request) (p : list R) : Prop := length p = length (q_f q) /\ forall i, (i < length p)%nat -> 0 < get p i.
(** The distance of two one-channel spectra, as the function returns it. *)
Definition lsd (q : request) (norm : bool) (p1 p2 : list R) : result (list (option R)) :=
  log_spectral (q_fs q) (q_fs q) (q_f q) (q_h q) (q_lo q) (q_hi q) norm [p1] [p2].
Definition ism (q : request) (norm : bool) (p1 p2 : list R) : result (list (option R)) :=
  itakura_saito (q_fs q) (q_fs q) (q_f q) (q_h q) (q_lo q) (q_hi q) norm [p1] [p2].
Definition in_range (q : request) (i : nat) : Prop := (q_a q <= i < q_b q)%nat.

Lemma closest_nearest f p : f <> [] -> closest f p (nearest p f).
Proof.
  intros N. unfold nearest. destruct (argmax_spec (map (fun v => - Rabs (p - v)) f)) as (H1 & H2 & H3). { destruct f; [congruence|discriminate]. }
  set (r := argmax _) in *. rewrite map_length in *.
  assert (G : forall j, (j < length f)%nat -> nth j (map (fun v => - Rabs (p - v)) f) 0 = - Rabs (p - get f j)) by (intros; now rewrite (nth_map' _ f j 0)).
  split; auto. split; intros j Hj.
  - specialize (H2 j Hj). rewrite !G in H2 by auto. lra.
  - specialize (H3 j Hj). rewrite !G in H3 by lia. lra.
Qed.
Lemma closest_unique f p i j : closest f p i -> closest f p j -> i = j.
Proof.
  intros (A1 & A2 & A3) (B1 & B2 & B3). destruct (lt_eq_lt_dec i j) as [[H|H]|H]; auto.
  - specialize (B3 i H). specialize (A2 j B1). lra.
  - specialize (A3 j H). specialize (B2 i A1). lra.
Qed.
Lemma valid_select q : valid q -> range_ok (q_fs q) (q_lo q) (q_hi q) = true /\
  forall p, length p = length (q_f q) -> length (select (q_f q) (q_lo q) (q_hi q) p) = (q_b q - q_a q)%nat /\
    forall i, (i < q_b q - q_a q)%nat -> get (select (q_f q) (q_lo q) (q_hi q) p) i = get p (q_a q + i).
Proof.
  intros (Hh & Hlo & Hhi & Ca & Cb & Hab). assert (Nf : q_f q <> []) by (destruct Ca as [Ca _]; destruct (q_f q); [simpl in Ca; lia|discriminate]).
  assert (M1 : Rmax (q_lo q) (q_hi q) = q_hi q) by (apply Rmax_right; lra). assert (M2 : Rmin (q_lo q) (q_hi q) = q_lo q) by (apply Rmin_left; lra).
  split. { unfold range_ok. rewrite M1, M2. destruct (Rle_dec (q_hi q) (IZR (q_fs q / 2))); [|lra]. destruct (Rle_dec 0 (q_lo q)); [reflexivity|lra]. }
  intros p Lp. unfold select. rewrite M1, M2.
  rewrite (closest_unique _ _ _ _ (closest_nearest (q_f q) (q_lo q) Nf) Ca), (closest_unique _ _ _ _ (closest_nearest (q_f q) (q_hi q) Nf) Cb).
  destruct Cb as [Cb _]. split. rewrite firstn_length, skipn_length. lia.
  intros i Hi. rewrite get_first by auto. apply get_skip.
Qed.
Lemma total_pos x : x <> [] -> (forall i, (i < length x)%nat -> 0 < get x i) -> 0 < fold_right Rplus 0 x.
Proof.
  intros N H. assert (G : forall x, (forall i, (i < length x)%nat -> 0 < get x i) -> 0 <= fold_right Rplus 0 x).
  { induction x0 as [|a x0 IH]; intros K; simpl. lra. pose proof (K 0%nat ltac:(simpl; lia)) as K0. unfold get in K0. simpl in K0. assert (0 <= fold_right Rplus 0 x0) by (apply IH; intros i Hi; apply (K (S i)); simpl; lia). lra. }
  destruct x as [|a x]; [congruence|]. simpl. pose proof (H 0%nat ltac:(simpl; lia)) as K0. unfold get in K0. simpl in K0. assert (0 <= fold_right Rplus 0 x) by (apply G; intros i Hi; apply (H (S i)); simpl; lia). lra.
Qed.
Lemma positive_iff x : positive x = true <-> forall i, (i < length x)%nat -> 0 < get x i.
Proof.
  unfold positive. rewrite forallb_forall. split; intros H.
  - intros i Hi. specialize (H (get x i) ltac:(apply nth_In; auto)). destruct (Rlt_dec 0 (get x i)); [auto|discriminate].
  - intros v Hv. apply (In_nth x v 0) in Hv. destruct Hv as (i & Hi & E). specialize (H i Hi). unfold get in H. change (@r0 R CRing_R) with 0 in H. rewrite E in H. destruct (Rlt_dec 0 v); [auto|contradiction].
Qed.
Lemma get_div x s i : get (map (fun v => v / s) x) i = get x i / s.
Proof. unfold get. change (@r0 R CRing_R) with 0. replace 0 with (0 / s) at 1 by (unfold Rdiv; ring). apply (map_nth (fun v => v / s)). Qed.
(** What the selected and normalised values are: the values of the bins over one positive number. *)
Definition band_sum (q : request) (p : list R) : R := fold_right Rplus 0 (select (q_f q) (q_lo q) (q_hi q) p).
Definition unit_of (q : request) (norm : bool) (p : list R) : R := if norm then band_sum q p else 1.
Lemma band_values q norm p : valid q -> spectrum_of q p -> let x := normalise norm (select (q_f q) (q_lo q) (q_hi q) p) in
  0 < unit_of q norm p /\ length x = (q_b q - q_a q)%nat /\ forall i, (i < length x)%nat -> get x i = get p (q_a q + i) / unit_of q norm p /\ 0 < get x i.
Proof.
  intros Hq (Lp & Pp). destruct (valid_select q Hq) as [_ S]. destruct (S p Lp) as [S1 S2]. destruct Hq as (_ & _ & _ & _ & Cb & Hab). destruct Cb as [Cb _].
  assert (PS : forall i, (i < length (select (q_f q) (q_lo q) (q_hi q) p))%nat -> 0 < get (select (q_f q) (q_lo q) (q_hi q) p) i).
  { intros i Hi. rewrite S2 by lia. apply Pp. lia. }
  assert (U : 0 < unit_of q norm p). { destruct norm; simpl; [|lra]. apply total_pos; auto. intros E. rewrite E in S1. simpl in S1. lia. }
  cbv zeta. split; auto. unfold normalise. destruct norm; cbn [unit_of] in *.
  - rewrite map_length. split; auto. intros i Hi. rewrite get_div, S2 by lia. split; [reflexivity|]. apply Rdiv_lt_0_compat; auto. apply Pp. lia.
  - split; auto. intros i Hi. split. rewrite S2 by lia. field. now apply PS.
Qed.
Lemma spectral_one measure q norm p1 p2 : valid q -> spectral measure (q_fs q) (q_fs q) (q_f q) (q_h q) (q_lo q) (q_hi q) norm [p1] [p2] =
  Ok [measure (q_h q) (normalise norm (select (q_f q) (q_lo q) (q_hi q) p1)) (normalise norm (select (q_f q) (q_lo q) (q_hi q) p2))].
Proof.
  intros Hq. unfold spectral. rewrite Z.eqb_refl. cbn [negb length Nat.eqb]. destruct (valid_select q Hq) as [R S]. rewrite R. cbn [negb].
  destruct (S (q_f q) eq_refl) as [S1 _]. rewrite S1. destruct Hq as (_ & _ & _ & _ & _ & Hab). destruct (Nat.eqb_spec (q_b q - q_a q) 0); [lia|]. reflexivity.
Qed.
(** Distance as a weighted norm of level differences. *)
Definition weights (q : request) : nat -> R := simpson_weight (q_b q - q_a q) (q_h q).
Definition level (q : request) (norm : bool) (p : list R) (i : nat) : R := dB (get p (q_a q + i) / unit_of q norm p).
Lemma lsd_eq q norm p1 p2 : valid q -> spectrum_of q p1 -> spectrum_of q p2 ->
  lsd q norm p1 p2 = Ok [Some (sqrt (wip (q_b q - q_a q) (weights q) (fun i => level q norm p1 i - level q norm p2 i) (fun i => level q norm p1 i - level q norm p2 i)))].
Proof.
  intros Hq H1 H2. unfold lsd, log_spectral. rewrite spectral_one by auto. destruct (band_values q norm p1 Hq H1) as (U1 & L1 & V1). destruct (band_values q norm p2 Hq H2) as (U2 & L2 & V2).
  set (x := normalise norm (select (q_f q) (q_lo q) (q_hi q) p1)) in *. set (y := normalise norm (select (q_f q) (q_lo q) (q_hi q) p2)) in *.
  unfold log_spectral_distance. replace (positive x && positive y) with true.
  2:{ symmetry. apply andb_true_iff. split; apply positive_iff; intros i Hi; [now apply V1|now apply V2]. }
  do 4 f_equal. unfold simpson, wip. rewrite mk_length, L1. apply sum_ext. intros i Hi. unfold weights. f_equal. rewrite get_mk by auto.
  destruct (V1 i ltac:(lia)) as [E1 P1]. destruct (V2 i ltac:(lia)) as [E2 P2]. unfold log10. rewrite ln_quot by auto. unfold level, dB. rewrite <- E1, <- E2. pose proof ln10_pos. simpl. field. lra.
Qed.
Lemma weights_pos q : valid q -> (q_a q + 1 < q_b q)%nat -> forall i, (i < q_b q - q_a q)%nat -> 0 < weights q i.
Proof. intros (Hh & _) Hab i Hi. apply weight_pos; auto; lia. Qed.
Lemma weights_nonneg q : valid q -> forall i, (i < q_b q - q_a q)%nat -> 0 <= weights q i.
Proof.
  intros Hq i Hi. destruct (Nat.le_gt_cases 2 (q_b q - q_a q)). left. apply weights_pos; auto; lia.
  unfold weights. destruct (q_b q - q_a q)%nat as [|[|n]]; try lia. apply Rle_refl.
Qed.
Lemma dB_inj a b : 0 < a -> 0 < b -> dB a = dB b -> a = b.
Proof. intros Ha Hb E. unfold dB in E. pose proof ln10_pos. apply ln_inv; auto. apply (Rmult_eq_reg_r (10 / ln 10)). unfold Rdiv in *. lra. apply Rgt_not_eq. apply Rdiv_lt_0_compat; lra. Qed.

(** ** The log-spectral distance is a distance *)
Theorem C61_metric q norm p1 p2 p3 : valid q -> spectrum_of q p1 -> spectrum_of q p2 -> spectrum_of q p3 ->
  exists d12 d21 d13 d23, lsd q norm p1 p2 = Ok [Some d12] /\ lsd q norm p2 p1 = Ok [Some d21] /\ lsd q norm p1 p3 = Ok [Some d13] /\ lsd q norm p2 p3 = Ok [Some d23] /\
    0 <= d12 /\ d12 = d21 /\ d13 <= d12 + d23 /\ (p1 = p2 -> d12 = 0).
Proof.
  intros Hq H1 H2 H3. rewrite !lsd_eq by auto. do 4 eexists. do 4 (split; [reflexivity|]).
  split; [apply sqrt_pos|]. split; [|split].
  - f_equal. unfold wip. apply sum_ext. intros. simpl. ring.
  - set (a := fun i => level q norm p1 i - level q norm p2 i). set (b := fun i => level q norm p2 i - level q norm p3 i).
    replace (wip (q_b q - q_a q) (weights q) (fun i => level q norm p1 i - level q norm p3 i) (fun i => level q norm p1 i - level q norm p3 i))
      with (wip (q_b q - q_a q) (weights q) (fun i => a i + b i) (fun i => a i + b i)) by (unfold wip; apply sum_ext; intros; unfold a, b; simpl; ring).
    apply wip_triangle. now apply weights_nonneg.
  - intros ->. replace (wip _ _ _ _) with 0. apply sqrt_0. symmetry. unfold wip. apply (sum_zero' (HA := CRing_R)). intros. simpl. ring.
Qed.
Print Assumptions C61_metric.

(** Zero exactly for equal spectra (normalised: for spectra that are the same up to a factor), if at least two bins are in the range. *)
Theorem C61_zero q p1 p2 : valid q -> (q_a q + 1 < q_b q)%nat -> spectrum_of q p1 -> spectrum_of q p2 ->
  (lsd q false p1 p2 = Ok [Some 0] <-> forall i, in_range q i -> get p1 i = get p2 i) /\
  (lsd q true p1 p2 = Ok [Some 0] <-> exists c, 0 < c /\ forall i, in_range q i -> get p1 i = c * get p2 i).
Proof.
  intros Hq Hab H1 H2.
  assert (G : forall norm, lsd q norm p1 p2 = Ok [Some 0] <-> forall i, (i < q_b q - q_a q)%nat -> get p1 (q_a q + i) / unit_of q norm p1 = get p2 (q_a q + i) / unit_of q norm p2).
  { intros norm. rewrite lsd_eq by auto. destruct (band_values q norm p1 Hq H1) as (U1 & L1 & V1). destruct (band_values q norm p2 Hq H2) as (U2 & L2 & V2). split.
    - intros E i Hi. assert (E0 : sqrt (wip (q_b q - q_a q) (weights q) (fun i => level q norm p1 i - level q norm p2 i) (fun i => level q norm p1 i - level q norm p2 i)) = 0) by congruence.
      apply sqrt_eq_0 in E0; [|apply wip_nonneg; now apply weights_nonneg]. pose proof (wip_zero _ _ _ (weights_pos q Hq Hab) E0 i Hi) as Z. cbv beta in Z. unfold level in Z.
      destruct (V1 i ltac:(lia)) as [E1 P1]. destruct (V2 i ltac:(lia)) as [E2 P2]. rewrite E1 in P1. rewrite E2 in P2. apply dB_inj; auto. lra.
    - intros E. do 3 f_equal. replace (wip _ _ _ _) with 0. apply sqrt_0. symmetry. unfold wip. apply (sum_zero' (HA := CRing_R)). intros i Hi. unfold level. rewrite E by auto. simpl. ring. }
  split.
  - rewrite G. cbn [unit_of]. split; intros E i Hi.
    + specialize (E (i - q_a q)%nat ltac:(unfold in_range in Hi; lia)). replace (q_a q + (i - q_a q))%nat with i in E by (unfold in_range in Hi; lia). lra.
    + rewrite E by (unfold in_range; lia). reflexivity.
  - rewrite G. cbn [unit_of]. destruct (band_values q true p1 Hq H1) as (U1 & _ & V1). destruct (band_values q true p2 Hq H2) as (U2 & _ & _). cbn [unit_of] in *. split.
    + intros E. exists (band_sum q p1 / band_sum q p2). split; [now apply Rdiv_lt_0_compat|]. intros i Hi. specialize (E (i - q_a q)%nat ltac:(unfold in_range in Hi; lia)). replace (q_a q + (i - q_a q))%nat with i in E by (unfold in_range in Hi; lia).
      apply (f_equal (fun v => v * band_sum q p1)) in E. replace (get p1 i / band_sum q p1 * band_sum q p1) with (get p1 i) in E by (field; lra). rewrite E. field. lra.
    + intros (c & Pc & E) i Hi. assert (EB : band_sum q p1 = c * band_sum q p2).
      { unfold band_sum. destruct (valid_select q Hq) as [_ S]. destruct (S p1 (proj1 H1)) as [A1 A2]. destruct (S p2 (proj1 H2)) as [B1 B2].
        rewrite <- (Rmult_1_l (fold_right Rplus 0 (select (q_f q) (q_lo q) (q_hi q) p1))).
        assert (X : select (q_f q) (q_lo q) (q_hi q) p1 = map (fun v => v * c) (select (q_f q) (q_lo q) (q_hi q) p2)).
        { apply (get_ext (HA := CRing_R)). rewrite map_length. lia. intros k Hk. rewrite A1 in Hk. rewrite get_amp, A2, B2 by lia. rewrite E by (unfold in_range; lia). simpl. ring. }
        rewrite X. clear. induction (select (q_f q) (q_lo q) (q_hi q) p2) as [|a l IH]; simpl. ring. lra. }
      rewrite EB, E by (unfold in_range; lia). field. split; lra.
Qed.
Print Assumptions C61_zero.

(** With the normalisation the gains of the signals do not matter. *)
Theorem C61_gain q p1 p2 a b : valid q -> spectrum_of q p1 -> spectrum_of q p2 -> 0 < a -> 0 < b ->
  lsd q true (map (fun v => v * a) p1) (map (fun v => v * b) p2) = lsd q true p1 p2 /\ ism q true (map (fun v => v * a) p1) (map (fun v => v * b) p2) = ism q true p1 p2.
Proof.
  intros Hq H1 H2 Ha Hb.
  assert (G : forall p c, spectrum_of q p -> 0 < c -> normalise true (select (q_f q) (q_lo q) (q_hi q) (map (fun v => v * c) p)) = normalise true (select (q_f q) (q_lo q) (q_hi q) p)).
  { intros p c Hp Hc. destruct (band_values q true p Hq Hp) as (U & L & _). cbn [unit_of normalise] in *. unfold band_sum in U.
    assert (E : select (q_f q) (q_lo q) (q_hi q) (map (fun v => v * c) p) = map (fun v => v * c) (select (q_f q) (q_lo q) (q_hi q) p)) by (unfold select; now rewrite skipn_map, firstn_map).
    rewrite E. set (x := select _ _ _ p) in *.
    assert (T : forall l, fold_right Rplus 0 (map (fun v => v * c) l) = fold_right Rplus 0 l * c) by (induction l as [|v l IH]; simpl; [ring|rewrite IH; ring]).
    rewrite T, map_map. apply map_ext. intros v. field. split; lra. }
  unfold lsd, ism, log_spectral, itakura_saito. rewrite !spectral_one by auto. rewrite !G by auto. split; reflexivity.
Qed.
Print Assumptions C61_gain.

(** Without it, a level difference of g dB at all frequencies gives |g| times the square root of the bandwidth. *)
Theorem C61_level_difference q p c : valid q -> spectrum_of q p -> 0 < c ->
  lsd q false (map (fun v => v * c) p) p = Ok [Some (Rabs (dB c) * sqrt (INR (q_b q - q_a q - 1) * q_h q))].
Proof.
  intros Hq Hp Hc. assert (Hpc : spectrum_of q (map (fun v => v * c) p)).
  { destruct Hp as [L P]. split; rewrite map_length; auto. intros i Hi. rewrite get_amp. apply Rmult_lt_0_compat; auto. }
  rewrite lsd_eq by auto. do 3 f_equal. rewrite <- sqrt_Rsqr_abs, <- sqrt_mult_alt by apply Rle_0_sqr. f_equal.
  rewrite <- (weight_total (q_b q - q_a q) (q_h q)) by (destruct Hq as (_ & _ & _ & _ & _ & Hab); lia). rewrite <- (sum_scal_l (HA := CRing_R)). unfold wip. apply sum_ext. intros i Hi.
  unfold weights, level. cbn [unit_of]. rewrite get_amp. replace (get p (q_a q + i) * c / 1) with (get p (q_a q + i) * c) by field. replace (get p (q_a q + i) / 1) with (get p (q_a q + i)) by field.
  assert (P : 0 < get p (q_a q + i)). { destruct Hp as [L P]. destruct Hq as (_ & _ & _ & _ & [Cb _] & _). apply P. lia. }
  unfold dB, Rsqr. rewrite ln_mult by auto. pose proof ln10_pos. simpl. field. lra.
Qed.
Print Assumptions C61_level_difference.

(** ** What the range leaves out *)
(** The bin nearest to the upper limit is not compared: spectra that differ there and nowhere below have distance zero. *)
Theorem C61_upper_limit_refuted q p1 p2 : valid q -> spectrum_of q p1 -> spectrum_of q p2 ->
  (forall i, (i < q_b q)%nat -> get p1 i = get p2 i) -> lsd q false p1 p2 = Ok [Some 0] /\ lsd q true p1 p2 = Ok [Some 0].
Proof.
  intros Hq H1 H2 E.
  assert (S : select (q_f q) (q_lo q) (q_hi q) p1 = select (q_f q) (q_lo q) (q_hi q) p2).
  { destruct (valid_select q Hq) as [_ S]. destruct (S p1 (proj1 H1)) as [A1 A2]. destruct (S p2 (proj1 H2)) as [B1 B2]. apply (get_ext (HA := CRing_R)). lia. intros i Hi. rewrite A1 in Hi. rewrite A2, B2 by auto. apply E. lia. }
  assert (G : forall norm, lsd q norm p1 p2 = lsd q norm p2 p2) by (intros; unfold lsd, log_spectral; rewrite !spectral_one by auto; now rewrite S).
  rewrite !G. assert (Z : forall norm, lsd q norm p2 p2 = Ok [Some 0]).
  { intros norm. destruct (C61_metric q norm p2 p2 p2 Hq H2 H2 H2) as (d & _ & _ & _ & E1 & _ & _ & _ & _ & _ & _ & E0). now rewrite E1, E0. }
  split; apply Z.
Qed.
Print Assumptions C61_upper_limit_refuted.
(** A request for the bins 1, 2 and 3 Hz compares 1 and 2 Hz. *)
Definition example : request := mkReq 8 [0; 1; 2; 3; 4] 1 1 3 1 3.
Lemma close_grid k : (k < 5)%nat -> closest [0; 1; 2; 3; 4] (INR k) k.
Proof.
  intros Hk. assert (G : forall j, (j < 5)%nat -> get [0; 1; 2; 3; 4] j = INR j) by (intros [|[|[|[|[|j]]]]] Hj; try lia; unfold get; simpl; lra).
  split; [simpl; lia|]. rewrite (G k Hk). replace (INR k - INR k) with 0 by ring. rewrite Rabs_R0. split; intros j Hj.
  - apply Rabs_pos.
  - rewrite G by lia. apply Rabs_pos_lt. apply lt_INR in Hj. lra.
Qed.
Lemma example_valid : valid example.
Proof.
  unfold valid, example. cbn [q_h q_lo q_hi q_fs q_f q_a q_b]. pose proof (close_grid 1 ltac:(lia)) as C1. pose proof (close_grid 3 ltac:(lia)) as C3. simpl (INR 1) in C1. replace (INR 3) with 3 in C3 by (simpl; lra).
  change (8 / 2)%Z with 4%Z. repeat split; try lra; try apply C1; try apply C3; try lia.
Qed.
Lemma five (l : list R) a b c d e : l = [a; b; c; d; e] -> 0 < a -> 0 < b -> 0 < c -> 0 < d -> 0 < e -> spectrum_of example l.
Proof. intros -> A B C D E. split; [reflexivity|]. intros [|[|[|[|[|i]]]]] Hi; unfold get; simpl in *; auto; lia. Qed.
Example C61_upper_limit_case : lsd example false [1; 1; 1; 1; 1] [1; 1; 1; 100; 1] = Ok [Some 0].
Proof.
  apply C61_upper_limit_refuted. apply example_valid. eapply five; eauto; lra. eapply five; eauto; lra. simpl. intros [|[|[|i]]] Hi; try reflexivity. lia.
Qed.
Example C61_metric_case : exists d, lsd example false [1; 1; 1; 1; 1] [1; 10; 10; 1; 1] = Ok [Some d] /\ d <> 0.
Proof.
  assert (S1 : spectrum_of example [1; 1; 1; 1; 1]) by (eapply five; eauto; lra). assert (S2 : spectrum_of example [1; 10; 10; 1; 1]) by (eapply five; eauto; lra).
  destruct (C61_metric example false _ _ _ example_valid S1 S2 S2) as (d & _ & _ & _ & E & _). exists d. split; auto. intros ->.
  destruct (C61_zero example _ _ example_valid ltac:(simpl; lia) S1 S2) as [[Z _] _]. specialize (Z E 1%nat ltac:(unfold in_range; simpl; lia)). unfold get in Z. simpl in Z. lra.
Qed.
(** One bin in the range: the integral over a point is zero, whatever the spectra are. *)
Theorem C61_one_bin_refuted q norm p1 p2 : valid q -> q_b q = (q_a q + 1)%nat -> spectrum_of q p1 -> spectrum_of q p2 -> lsd q norm p1 p2 = Ok [Some 0].
Proof.
  intros Hq E H1 H2. rewrite lsd_eq by auto. replace (q_b q - q_a q)%nat with 1%nat by lia. do 3 f_equal. unfold wip. cbn [sum]. unfold weights. replace (q_b q - q_a q)%nat with 1%nat by lia. cbn [simpson_weight].
  transitivity (sqrt 0); [|apply sqrt_0]. f_equal. change (@radd R CRing_R) with Rplus. change (@r0 R CRing_R) with 0. ring.
Qed.
Print Assumptions C61_one_bin_refuted.
Example C61_one_bin_case : valid (mkReq 8 [0; 1; 2; 3; 4] 1 1 2 1 2).
Proof.
  unfold valid. cbn [q_h q_lo q_hi q_fs q_f q_a q_b]. pose proof (close_grid 1 ltac:(lia)) as C1. pose proof (close_grid 2 ltac:(lia)) as C3. simpl (INR 1) in C1. replace (INR 2) with 2 in C3 by (simpl; lra).
  change (8 / 2)%Z with 4%Z. repeat split; try lra; try apply C1; try apply C3; try lia.
Qed.

(** ** Itakura-Saito measure *)
(** The code takes the decimal logarithm where the measure has the natural one, and so differs from it by a multiple of the mean
    log ratio of the spectra. *)
Theorem C61_itakura_saito q norm p1 p2 : valid q -> spectrum_of q p1 -> spectrum_of q p2 ->
  let r i := get p1 (q_a q + i) / unit_of q norm p1 / (get p2 (q_a q + i) / unit_of q norm p2) in
  ism q norm p1 p2 = Ok [Some (rsum (q_b q - q_a q) (fun i => weights q i * (r i - ln (r i) - 1)) + (1 - 1 / ln 10) * rsum (q_b q - q_a q) (fun i => weights q i * ln (r i)))].
Proof.
  intros Hq H1 H2 r. unfold ism, itakura_saito. rewrite spectral_one by auto. destruct (band_values q norm p1 Hq H1) as (U1 & L1 & V1). destruct (band_values q norm p2 Hq H2) as (U2 & L2 & V2).
  set (x := normalise norm (select (q_f q) (q_lo q) (q_hi q) p1)) in *. set (y := normalise norm (select (q_f q) (q_lo q) (q_hi q) p2)) in *.
  unfold itakura_saito_measure. replace (positive x && positive y) with true.
  2:{ symmetry. apply andb_true_iff. split; apply positive_iff; intros i Hi; [now apply V1|now apply V2]. }
  do 3 f_equal. rewrite <- (sum_scal_l (HA := CRing_R)), <- (sum_add (HA := CRing_R)). unfold simpson. rewrite mk_length, L1. apply sum_ext. intros i Hi. rewrite get_mk by auto.
  destruct (V1 i ltac:(lia)) as [E1 P1]. destruct (V2 i ltac:(lia)) as [E2 P2]. unfold r, weights. rewrite <- E1, <- E2. unfold log10. pose proof ln10_pos. simpl. field. repeat split; lra.
Qed.
Print Assumptions C61_itakura_saito.
(** So it is not a distance: half the power everywhere gives a negative value, on every spectrum ... *)
Lemma log2_bounds : ln 2 / ln 10 < 1 / 3.
Proof.
  pose proof ln10_pos. assert (3 * ln 2 < ln 10). { replace (3 * ln 2) with (ln (2 * 2 * 2)). apply ln_increasing; lra. rewrite !ln_mult by lra. ring. }
  apply (Rmult_lt_reg_r (ln 10)); auto. unfold Rdiv. rewrite Rmult_assoc, Rinv_l by lra. lra.
Qed.
Theorem C61_negative_refuted q p : valid q -> spectrum_of q p ->
  exists v, ism q false (map (fun v => v * / 2) p) p = Ok [Some v] /\ v = - (1 / 2 - ln 2 / ln 10) * (INR (q_b q - q_a q - 1) * q_h q) /\ ((q_a q + 1 < q_b q)%nat -> v < 0).
Proof.
  intros Hq Hp. assert (Hpc : spectrum_of q (map (fun v => v * / 2) p)).
  { destruct Hp as [L P]. split; rewrite map_length; auto. intros i Hi. rewrite get_amp. apply Rmult_lt_0_compat; auto. lra. }
  eexists. split. rewrite C61_itakura_saito by auto. reflexivity. split.
  - pose proof ln10_pos. cbn [unit_of].
    assert (R : forall i, (i < q_b q - q_a q)%nat -> get (map (fun v => v * / 2) p) (q_a q + i) / 1 / (get p (q_a q + i) / 1) = / 2).
    { intros i Hi. rewrite get_amp. assert (P : 0 < get p (q_a q + i)) by (destruct Hp as [L P]; destruct Hq as (_ & _ & _ & _ & [Cb _] & _); apply P; lia). field. lra. }
    rewrite (sum_ext (HA := CRing_R) (q_b q - q_a q) _ (fun i => rmul (/ 2 - ln (/ 2) - 1) (weights q i))) by (intros; rewrite R by auto; simpl; ring).
    rewrite (sum_ext (HA := CRing_R) (q_b q - q_a q) (fun i => weights q i * ln (get (map (fun v => v * / 2) p) (q_a q + i) / 1 / (get p (q_a q + i) / 1))) (fun i => rmul (ln (/ 2)) (weights q i))) by (intros; rewrite R by auto; simpl; ring).
    rewrite !(sum_scal_l (HA := CRing_R)). unfold weights. rewrite weight_total by (destruct Hq as (_ & _ & _ & _ & _ & Hab); lia). rewrite ln_Rinv by lra. simpl. field. lra.
  - intros Hab. cbn [unit_of].
    assert (X : forall v, v = - (1 / 2 - ln 2 / ln 10) * (INR (q_b q - q_a q - 1) * q_h q) -> v < 0).
    { intros v ->. pose proof log2_bounds. destruct Hq as (Hh & _). assert (0 < INR (q_b q - q_a q - 1)) by (apply lt_0_INR; lia). assert (0 < INR (q_b q - q_a q - 1) * q_h q) by (apply Rmult_lt_0_compat; auto). nra. }
    apply X. pose proof ln10_pos. 
    assert (R : forall i, (i < q_b q - q_a q)%nat -> get (map (fun v => v * / 2) p) (q_a q + i) / 1 / (get p (q_a q + i) / 1) = / 2).
    { intros i Hi. rewrite get_amp. assert (P : 0 < get p (q_a q + i)) by (destruct Hp as [L P]; destruct Hq as (_ & _ & _ & _ & [Cb _] & _); apply P; lia). field. lra. }
    rewrite (sum_ext (HA := CRing_R) (q_b q - q_a q) _ (fun i => rmul (/ 2 - ln (/ 2) - 1) (weights q i))) by (intros; rewrite R by auto; simpl; ring).
    rewrite (sum_ext (HA := CRing_R) (q_b q - q_a q) (fun i => weights q i * ln (get (map (fun v => v * / 2) p) (q_a q + i) / 1 / (get p (q_a q + i) / 1))) (fun i => rmul (ln (/ 2)) (weights q i))) by (intros; rewrite R by auto; simpl; ring).
    rewrite !(sum_scal_l (HA := CRing_R)). unfold weights. rewrite weight_total by (destruct Hq as (_ & _ & _ & _ & _ & Hab'); lia). rewrite ln_Rinv by lra. simpl. field. lra.
Qed.
Print Assumptions C61_negative_refuted.
(** ... and the normalisation does not repair it: (1, 9) against (2, 8). *)
Theorem C61_negative_normalised_refuted : exists q p1 p2 v, valid q /\ spectrum_of q p1 /\ spectrum_of q p2 /\ ism q true p1 p2 = Ok [Some v] /\ v < 0.
Proof.
  assert (S1 : spectrum_of example [1; 1; 9; 1; 1]) by (eapply five; eauto; lra). assert (S2 : spectrum_of example [1; 2; 8; 1; 1]) by (eapply five; eauto; lra).
  exists example, [1; 1; 9; 1; 1], [1; 2; 8; 1; 1]. eexists. split; [apply example_valid|]. split; auto. split; auto. split.
  - rewrite C61_itakura_saito by (auto; apply example_valid). reflexivity.
  - destruct (valid_select example example_valid) as [_ S].
    assert (B1 : band_sum example [1; 1; 9; 1; 1] = 10).
    { unfold band_sum. destruct (S [1; 1; 9; 1; 1] eq_refl) as [A1 A2]. replace (select _ _ _ _) with [1; 9]. simpl; ring. symmetry. apply (get_ext (HA := CRing_R)). exact A1. intros i Hi. rewrite A1 in Hi. rewrite A2 by auto. simpl in Hi. destruct i as [|[|i]]; try reflexivity; lia. }
    assert (B2 : band_sum example [1; 2; 8; 1; 1] = 10).
    { unfold band_sum. destruct (S [1; 2; 8; 1; 1] eq_refl) as [A1 A2]. replace (select _ _ _ _) with [2; 8]. simpl; ring. symmetry. apply (get_ext (HA := CRing_R)). exact A1. intros i Hi. rewrite A1 in Hi. rewrite A2 by auto. simpl in Hi. destruct i as [|[|i]]; try reflexivity; lia. }
    cbn [unit_of]. rewrite B1, B2. unfold weights. cbn [q_b q_a q_h example Nat.sub Nat.add sum]. change (@radd R CRing_R) with Rplus. change (@r0 R CRing_R) with 0. unfold get. cbn [nth]. unfold simpson_weight.
    replace (1 / 10 / (2 / 10)) with (/ 2) by field. replace (9 / 10 / (8 / 10)) with (9 * (/ 2 * / 2 * / 2)) by field.
    pose proof ln10_pos as L10. assert (T : ln (9 * (/ 2 * / 2 * / 2)) = ln 9 - 3 * ln 2) by (rewrite !ln_mult by lra; rewrite !ln_Rinv by lra; ring). rewrite T, ln_Rinv by lra.
    assert (K : 32 * ln 2 - 8 * ln 9 < 3 * ln 10).
    { assert (E : 4 * ln 2 + ln 5 * 0 = ln 16) by (replace 16 with (2 * 2 * 2 * 2) by ring; rewrite !ln_mult by lra; ring).
      assert (E2 : ln 16 - ln 9 < ln 2). { rewrite <- ln_quot by lra. apply ln_increasing; lra. }
      assert (E3 : 3 * ln 2 < ln 10). { replace (3 * ln 2) with (ln (2 * 2 * 2)). apply ln_increasing; lra. rewrite !ln_mult by lra. ring. }
      lra. }
    assert (V : forall a b, b < 3 * a -> 0 < a -> - (3 / 8) + b / 8 / a < 0). { intros a b Hb Ha. assert (b / 8 / a < 3 / 8). { apply (Rmult_lt_reg_r a); auto. unfold Rdiv. rewrite (Rmult_assoc (b * / 8)), Rinv_l by lra. lra. } lra. }
    specialize (V (ln 10) (32 * ln 2 - 8 * ln 9) K L10).
    assert (Q : forall w, w = / 2 * (- (3 / 8) + (32 * ln 2 - 8 * ln 9) / 8 / ln 10) -> w < 0) by (intros; lra). apply Q. field. lra.
Qed.
Print Assumptions C61_negative_normalised_refuted.

(** The hypotheses of the theorems above are met. *)
Example C61_level_case : lsd example false (map (fun v => v * 100) [1; 2; 3; 4; 5]) [1; 2; 3; 4; 5] = Ok [Some (Rabs (dB 100) * sqrt (INR 1 * 1))].
Proof. apply (C61_level_difference example). apply example_valid. eapply five; eauto; lra. lra. Qed.
Example C61_gain_case : lsd example true (map (fun v => v * 3) [1; 2; 3; 4; 5]) (map (fun v => v * 7) [5; 4; 3; 2; 1]) = lsd example true [1; 2; 3; 4; 5] [5; 4; 3; 2; 1].
Proof. apply C61_gain; try lra. apply example_valid. all: eapply five; eauto; lra. Qed.
Example C61_negative_case : exists v, ism example false (map (fun v => v * / 2) [1; 2; 3; 4; 5]) [1; 2; 3; 4; 5] = Ok [Some v] /\ v < 0.
Proof. destruct (C61_negative_refuted example [1; 2; 3; 4; 5] example_valid ltac:(eapply five; eauto; lra)) as (v & E & _ & N). exists v. split; [exact E|]. apply N. simpl. lia. Qed.
