(** C75: group delays. *)
From Coq Require Import List Arith Lia ZArith Bool Reals Lra.
From Verif Require Import Alg Spec Dft M_arrays P_arrays M_signal M_block P_block M_latency M_tf M_ir M_scaling P_dft2 M_minphase P_minphase M_groupdelay P_groupdelay Claims_room Claims_deconv Claims_minphase.
Import ListNotations.
Local Open Scope R_scope.

Notation getr l t := (@get R CRing_R l t) (only parsing).
(** ** Specification *)
(** Frequency response of taps at the angular frequency w (radians per sample): sum of b_t e^(-jwt). *)
Definition freq_response (b : list R) (w : R) : C := csum (length b) (fun t => cmul (rc (getr b t)) (cis (- (w * INR t)))).
(** The function theta is a phase of the filter b / a around w: the response is a real amplitude times cis of the phase. *)
Definition phase_around (b a : list R) (theta : R -> R) (w : R) : Prop := exists d, 0 < d /\
  forall v, Rabs (v - w) < d -> exists rho, freq_response b v = cmul (freq_response a v) (cmul (rc rho) (cis (theta v))).

Lemma freq_response_eq b w : freq_response b w = response b w.
Proof. reflexivity. Qed.
Definition tau (b : list R) (w : R) : R := re_ratio (ramped b w) (response b w).
Lemma cmul_zero a b : cmul a b = rc 0 <-> a = rc 0 \/ b = rc 0.
Proof.
  rewrite <- !cabs2_zero, cabs2_mul'. split; [apply Rmult_integral|intros [->| ->]; ring].
Qed.
Lemma cis_nz w : cis w <> rc 0.
Proof. rewrite <- cabs2_zero, cis_abs. lra. Qed.
Lemma cconj_zero z : cconj z = rc 0 <-> z = rc 0.
Proof. rewrite <- !cabs2_zero. unfold cabs2, cconj. simpl. replace (fst z * fst z + - snd z * - snd z) with (fst z * fst z + snd z * snd z) by ring. reflexivity. Qed.
Lemma rev_some (a : list R) : a <> [] -> rev a <> [].
Proof. intros H E. apply (f_equal (@length R)) in E. rewrite rev_length in E. destruct a; [congruence|discriminate]. Qed.
Lemma tau_conv b x w : b <> [] -> x <> [] -> response b w <> rc 0 -> response x w <> rc 0 -> tau (conv_full (HA := CRing_R) x b) w = tau b w + tau x w.
Proof.
  intros Hb Hx Nb Nx. unfold tau. rewrite conv_response, conv_ramped by auto. unfold re_ratio. rewrite cabs2_mul'. rewrite <- cabs2_zero in Nb, Nx. unfold cabs2 in *. simpl. field. auto.
Qed.
Lemma tau_rev a w : a <> [] -> response a w <> rc 0 -> tau (rev a) w = INR (length a - 1) - tau a w.
Proof.
  intros Ha Na. unfold tau. rewrite rev_response, rev_ramped by auto. rewrite re_ratio_unit by apply cis_abs. unfold re_ratio. rewrite <- cabs2_zero in Na.
  unfold cabs2 in *. simpl. field. replace (fst (response a w) * fst (response a w) + - snd (response a w) * - snd (response a w)) with (fst (response a w) * fst (response a w) + snd (response a w) * snd (response a w)) by ring. auto.
Qed.
Lemma conv_zero_iff b a w : b <> [] -> a <> [] -> response (conv_full (HA := CRing_R) b (rev a)) w = rc 0 <-> response b w = rc 0 \/ response a w = rc 0.
Proof.
  intros Hb Ha. rewrite conv_response by auto using rev_some. rewrite rev_response by auto. rewrite !cmul_zero, cconj_zero. pose proof (cis_nz (- (w * INR (length a - 1)))). tauto.
Qed.
(** value of the model *)
Lemma gd_at_tau b a w : b <> [] -> a <> [] -> response b w <> rc 0 -> response a w <> rc 0 -> gd_at b a w = tau b w - tau a w.
Proof.
  intros Hb Ha Nb Na. destruct (gd_at_eq b a w) as (_ & E). rewrite E by (rewrite conv_zero_iff by auto; tauto).
  change (re_ratio _ _) with (tau (conv_full (HA := CRing_R) b (rev a)) w). rewrite tau_conv; auto using rev_some.
  2:{ rewrite rev_response by auto. rewrite cmul_zero, cconj_zero. intros [H|H]; auto. now apply cis_nz in H. }
  rewrite tau_rev by auto. rewrite minus_INR by (destruct a; [congruence|simpl; lia]). simpl. ring.
Qed.
Lemma gd_at_zero b a w : b <> [] -> a <> [] -> response b w = rc 0 \/ response a w = rc 0 -> gd_at b a w = 0.
Proof. intros Hb Ha H. destruct (gd_at_eq b a w) as (E & _). apply E. now rewrite conv_zero_iff. Qed.

(** ** Derivatives *)
Lemma dlim_const c x : derivable_pt_lim (fun _ => c) x 0.
Proof. apply derivable_pt_lim_const. Qed.
Lemma dlim_ext f g x l : (forall y, f y = g y) -> derivable_pt_lim f x l -> derivable_pt_lim g x l.
Proof. intros E H eps He. destruct (H eps He) as (d & Hd). exists d. intros h Hh Hl. rewrite <- !E. auto. Qed.
Lemma dlim_local f x : (exists d, 0 < d /\ forall v, Rabs (v - x) < d -> f v = 0) -> derivable_pt_lim f x 0.
Proof.
  intros (d & Hd & E) eps He. exists (mkposreal d Hd). intros h Hh Hl. simpl in Hl. rewrite !E.
  - replace ((0 - 0) / h - 0) with 0 by (field; auto). now rewrite Rabs_R0.
  - replace (x - x) with 0 by ring. now rewrite Rabs_R0.
  - now replace (x + h - x) with h by ring.
Qed.
Lemma dlim_lin k x : derivable_pt_lim (fun v => v * k) x k.
Proof. apply (dlim_ext (mult_real_fct k id)). intros; unfold mult_real_fct, id; ring. replace k with (k * 1) at 2 by ring. apply derivable_pt_lim_scal, derivable_pt_lim_id. Qed.
Lemma dlim_cos k w : derivable_pt_lim (fun v => cos (v * k)) w (- sin (w * k) * k).
Proof. apply (derivable_pt_lim_comp (fun v => v * k) cos). apply dlim_lin. apply derivable_pt_lim_cos. Qed.
Lemma dlim_sin k w : derivable_pt_lim (fun v => sin (v * k)) w (cos (w * k) * k).
Proof. apply (derivable_pt_lim_comp (fun v => v * k) sin). apply dlim_lin. apply derivable_pt_lim_sin. Qed.
Lemma wsum_fst m f w : fst (wsum m f w) = rsum m (fun t => f t * cos (w * INR t)).
Proof. unfold wsum. rewrite csum_fst. apply (sum_ext (HA := CRing_R)). intros t _. simpl. rewrite cos_neg. ring. Qed.
Lemma wsum_snd m f w : snd (wsum m f w) = rsum m (fun t => - (f t * sin (w * INR t))).
Proof. unfold wsum. rewrite csum_snd. apply (sum_ext (HA := CRing_R)). intros t _. simpl. rewrite sin_neg. ring. Qed.
Lemma dlim_sum m (f : nat -> R -> R) (l : nat -> R) w : (forall t, derivable_pt_lim (f t) w (l t)) -> derivable_pt_lim (fun v => rsum m (fun t => f t v)) w (rsum m l).
Proof. intros H. induction m; simpl. apply dlim_const. apply (derivable_pt_lim_plus (fun v => rsum m (fun t => f t v)) (f m)); auto. Qed.
Lemma d_fst b w : derivable_pt_lim (fun v => fst (response b v)) w (snd (ramped b w)).
Proof.
  apply (dlim_ext (fun v => rsum (length b) (fun t => getr b t * cos (v * INR t)))). intros; symmetry; apply wsum_fst.
  unfold ramped. rewrite wsum_snd. apply dlim_sum. intros t. replace (- (getr b t * INR t * sin (w * INR t))) with (getr b t * (- sin (w * INR t) * INR t)) by ring.
  apply (derivable_pt_lim_scal (fun v => cos (v * INR t))). apply dlim_cos.
Qed.
Lemma d_snd b w : derivable_pt_lim (fun v => snd (response b v)) w (- fst (ramped b w)).
Proof.
  apply (dlim_ext (fun v => rsum (length b) (fun t => - getr b t * sin (v * INR t)))). { intros. unfold response. rewrite wsum_snd. apply (sum_ext (HA := CRing_R)). intros; ring. }
  unfold ramped. rewrite wsum_fst. change Ropp with (@ropp R CRing_R) at 2. rewrite <- (sum_opp (HA := CRing_R)). apply dlim_sum. intros t. change (@ropp R CRing_R) with Ropp.
  replace (- (getr b t * INR t * cos (w * INR t))) with (- getr b t * (cos (w * INR t) * INR t)) by ring.
  apply (derivable_pt_lim_scal (fun v => sin (v * INR t))). apply dlim_sin.
Qed.
Lemma tau_phase b a w theta l : response b w <> rc 0 -> response a w <> rc 0 -> phase_around b a theta w -> derivable_pt_lim theta w l -> tau b w - tau a w = - l.
Proof.
  intros Nb Na (d & Hd & P) D.
  set (p1 := fun v => fst (response b v) * fst (response a v) + snd (response b v) * snd (response a v)).
  set (p2 := fun v => snd (response b v) * fst (response a v) - fst (response b v) * snd (response a v)).
  assert (D1 : derivable_pt_lim p1 w ((snd (ramped b w) * fst (response a w) + fst (response b w) * snd (ramped a w)) + (- fst (ramped b w) * snd (response a w) + snd (response b w) * - fst (ramped a w)))).
  { apply (derivable_pt_lim_plus (fun v => fst (response b v) * fst (response a v)) (fun v => snd (response b v) * snd (response a v)));
    [apply (derivable_pt_lim_mult (fun v => fst (response b v)) (fun v => fst (response a v)))|apply (derivable_pt_lim_mult (fun v => snd (response b v)) (fun v => snd (response a v)))]; auto using d_fst, d_snd. }
  assert (D2 : derivable_pt_lim p2 w ((- fst (ramped b w) * fst (response a w) + snd (response b w) * snd (ramped a w)) - (snd (ramped b w) * snd (response a w) + fst (response b w) * - fst (ramped a w)))).
  { apply (derivable_pt_lim_minus (fun v => snd (response b v) * fst (response a v)) (fun v => fst (response b v) * snd (response a v)));
    [apply (derivable_pt_lim_mult (fun v => snd (response b v)) (fun v => fst (response a v)))|apply (derivable_pt_lim_mult (fun v => fst (response b v)) (fun v => snd (response a v)))]; auto using d_fst, d_snd. }
  assert (Ds : derivable_pt_lim (fun v => sin (theta v)) w (cos (theta w) * l)) by (apply (derivable_pt_lim_comp theta sin); auto; apply derivable_pt_lim_sin).
  assert (Dc : derivable_pt_lim (fun v => cos (theta v)) w (- sin (theta w) * l)) by (apply (derivable_pt_lim_comp theta cos); auto; apply derivable_pt_lim_cos).
  assert (Z : derivable_pt_lim (fun v => p1 v * sin (theta v) - p2 v * cos (theta v)) w 0).
  { apply dlim_local. exists d. split; auto. intros v Hv. destruct (P v Hv) as (rho & E). rewrite (freq_response_eq a), (freq_response_eq b) in E. unfold p1, p2. rewrite E. destruct (response a v) as (x, y). unfold cmul, rc, cis. cbn [fst snd]. ring. }
  pose proof (derivable_pt_lim_minus _ _ _ _ _ (derivable_pt_lim_mult _ _ _ _ _ D1 Ds) (derivable_pt_lim_mult _ _ _ _ _ D2 Dc)) as Z'.
  assert (U := uniqueness_limite _ _ _ _ Z Z').
  destruct (P w) as (rho & E). { replace (w - w) with 0 by ring. now rewrite Rabs_R0. } rewrite (freq_response_eq a), (freq_response_eq b) in E.
  unfold tau, re_ratio. rewrite <- cabs2_zero in Nb, Na. unfold p1, p2 in U. clear Z Z' D1 D2 p1 p2 Ds Dc P D.
  set (c := cos (theta w)) in *. set (s := sin (theta w)) in *. assert (CS : c * c + s * s = 1). { unfold c, s. pose proof (sin2_cos2 (theta w)) as H. unfold Rsqr in H. lra. }
  assert (E1 : fst (response b w) = rho * (fst (response a w) * c - snd (response a w) * s)) by (rewrite E; simpl; fold c s; ring).
  assert (E2 : snd (response b w) = rho * (fst (response a w) * s + snd (response a w) * c)) by (rewrite E; simpl; fold c s; ring).
  assert (Hr : rho <> 0). { intros ->. apply Nb. unfold cabs2. rewrite E1, E2. ring. }
  unfold cabs2 in *. clear E. set (x := fst (response a w)) in *. set (y := snd (response a w)) in *. set (ra := fst (ramped a w)) in *. set (ia := snd (ramped a w)) in *.
  set (rb := fst (ramped b w)) in *. set (ib := snd (ramped b w)) in *. rewrite E1, E2 in *. clear E1 E2. clearbody c s x y ra ia rb ib.
  assert (Q : (rho * (x * c - y * s)) * (rho * (x * c - y * s)) + (rho * (x * s + y * c)) * (rho * (x * s + y * c)) = rho * rho * (x * x + y * y)).
  { transitivity (rho * rho * (x * x + y * y) * (c * c + s * s)); [ring|rewrite CS; ring]. }
  rewrite Q. clear Q Nb.
  apply (Rmult_eq_reg_r (rho * rho * (x * x + y * y))); [|apply Rmult_integral_contrapositive_currified; auto; nra].
  replace (((rb * (rho * (x * c - y * s)) + ib * (rho * (x * s + y * c))) / (rho * rho * (x * x + y * y)) - (ra * x + ia * y) / (x * x + y * y)) * (rho * rho * (x * x + y * y)))
    with (rb * (rho * (x * c - y * s)) + ib * (rho * (x * s + y * c)) - (ra * x + ia * y) * rho * rho) by (field; auto).
  assert (U' : rho * (x * x + y * y) * l * (c * c + s * s) = - ((rb * (x * c - y * s) + ib * (x * s + y * c)) - (ra * x + ia * y) * rho * (c * c + s * s))) by (clear - U; lra).
  rewrite CS in U'. replace (- l * (rho * rho * (x * x + y * y))) with (- rho * (rho * (x * x + y * y) * l * 1)) by ring. rewrite U'. ring.
Qed.

(** ** The analytic method *)
Lemma gdf_get b a L fs i : (i < L)%nat -> getr (snd (group_delay_filter b a L fs)) i = gd_at b a (omega L i) / fs.
Proof. intros. unfold group_delay_filter. cbn [snd]. now rewrite (get_mk (HA := CRing_R)). Qed.
Lemma gdf_freq b a L fs i : (i < L)%nat -> fs <> 0 -> 2 * PI * getr (fst (group_delay_filter b a L fs)) i / fs = omega L i.
Proof. intros. unfold group_delay_filter. cbn [fst]. rewrite (get_mk (HA := CRing_R)) by auto. field. split; auto using PI_neq0. Qed.
(** The reported delay is the negative derivative of the phase of the filter at the reported frequency, in seconds, for any numerator and
    denominator and any differentiable phase; the L frequencies go from 0 to half of the sampling rate in equal steps. *)
Theorem C75_analytic (b a : list R) L fs : b <> [] -> a <> [] -> (2 <= L)%nat -> 0 < fs -> let r := group_delay_filter b a L fs in
  length (fst r) = L /\ length (snd r) = L /\
  forall i, (i < L)%nat -> getr (fst r) i = fs / 2 * INR i / INR (L - 1) /\
    let w := 2 * PI * getr (fst r) i / fs in
    (freq_response b w <> rc 0 -> freq_response a w <> rc 0 -> forall theta l, phase_around b a theta w -> derivable_pt_lim theta w l -> getr (snd r) i = - l / fs) /\
    (freq_response b w = rc 0 \/ freq_response a w = rc 0 -> getr (snd r) i = 0).
Proof.
  intros Hb Ha HL Hf r. split; [apply mk_length|]. split; [apply mk_length|]. intros i Hi. split.
  - unfold r, group_delay_filter, omega. cbn [fst]. rewrite (get_mk (HA := CRing_R)) by auto. field. split; [|apply PI_neq0]. apply not_0_INR. lia.
  - unfold r. rewrite gdf_freq, gdf_get by (auto; lra). split.
    + intros Nb Na theta l P D. rewrite gd_at_tau by auto. now rewrite (tau_phase b a (omega L i) theta l).
    + intros Z. rewrite gd_at_zero by auto. unfold Rdiv. ring.
Qed.
Print Assumptions C75_analytic.

(** Symmetric (or antisymmetric) taps: the middle of the taps at every frequency where the response is not zero. *)
Lemma symmetric_phase (b : list R) (sg : R) v : sg = 1 \/ sg = -1 -> (forall t, (t < length b)%nat -> getr b (length b - 1 - t) = sg * getr b t) ->
  exists rho, response b v = cmul (rc rho) (cis ((if Req_EM_T sg 1 then 0 else PI / 2) - v * (INR (length b - 1) / 2))).
Proof.
  intros Hs Sy. set (m := INR (length b - 1) / 2).
  assert (Tw : cadd (response b v) (response b v) = csum (length b) (fun t => cmul (rc (getr b t)) (cadd (cis (- (v * INR t))) (cmul (rc sg) (cis (- (v * (INR (length b - 1) - INR t)))))))).
  { transitivity (cadd (response b v) (csum (length b) (fun t => cmul (rc (getr b (length b - 1 - t))) (cis (- (v * INR (length b - 1 - t))))))).
    - f_equal. unfold response, wsum. apply (sum_rev (HA := CRing_C) (length b) (fun t => cmul (rc (getr b t)) (cis (- (v * INR t))))).
    - unfold response, wsum. change cadd with (@radd C CRing_C) at 1. rewrite <- (sum_add (HA := CRing_C)). apply (sum_ext (HA := CRing_C)). intros t Ht. rewrite Sy by auto. rewrite minus_INR by lia.
      change (@radd C CRing_C) with cadd. set (e := cis (- (v * INR t))). set (f := cis _). clearbody e f. apply c_ext; simpl; ring. }
  set (rho := rsum (length b) (fun t => getr b t * (if Req_EM_T sg 1 then cos (v * (m - INR t)) else sin (v * (m - INR t))))).
  exists rho.
  assert (E : cadd (response b v) (response b v) = cmul (rc 2) (cmul (rc rho) (cis ((if Req_EM_T sg 1 then 0 else PI / 2) - v * m)))).
  { rewrite Tw. unfold rho. rewrite <- csum_rc. rewrite <- (sum_scal_r (HA := CRing_C)), <- (sum_scal_l (HA := CRing_C)). apply (sum_ext (HA := CRing_C)). intros t Ht. change (@rmul C CRing_C) with cmul.
    replace (- (v * INR t)) with (v * (m - INR t) + - (v * m)) by ring. replace (- (v * (INR (length b - 1) - INR t))) with (- (v * (m - INR t)) + - (v * m)) by (unfold m; field). rewrite !cis_add.
    set (u := v * (m - INR t)). set (e := v * m). destruct (Req_EM_T sg 1) as [->|Ns].
    - replace (0 - e) with (- e) by ring. unfold cis. rewrite !cos_neg, !sin_neg. apply c_ext; simpl; ring.
    - assert (sg = -1) as -> by tauto. unfold cis. rewrite !cos_minus, !sin_minus, !cos_neg, !sin_neg, cos_PI2, sin_PI2. apply c_ext; simpl; ring. }
  clear Tw. revert E. set (z := response b v). set (y := cmul (rc rho) _). clearbody z y. intros E. apply c_ext.
  - apply (f_equal fst) in E. simpl in E. lra.
  - apply (f_equal snd) in E. simpl in E. lra.
Qed.
Lemma response_one v : response [1] v = rc 1.
Proof. unfold response, wsum, get. cbn [length sum nth INR]. rewrite Rmult_0_r, Ropp_0, cis_0. apply c_ext; simpl; ring. Qed.
Theorem C75_linear_phase (b : list R) sg L fs i : b <> [] -> (2 <= L)%nat -> 0 < fs -> (i < L)%nat -> sg = 1 \/ sg = -1 ->
  (forall t, (t < length b)%nat -> getr b (length b - 1 - t) = sg * getr b t) ->
  let r := group_delay_filter b [1] L fs in freq_response b (2 * PI * getr (fst r) i / fs) <> rc 0 -> getr (snd r) i = INR (length b - 1) / 2 / fs.
Proof.
  intros Hb HL Hf Hi Hs Sy r N. destruct (C75_analytic b [1] L fs Hb ltac:(discriminate) HL Hf) as (_ & _ & V). fold r in V. destruct (V i Hi) as (_ & A & _).
  set (w := 2 * PI * getr (fst r) i / fs) in *.
  rewrite (A N) with (theta := fun v => (if Req_EM_T sg 1 then 0 else PI / 2) - v * (INR (length b - 1) / 2)) (l := 0 - INR (length b - 1) / 2). field; lra.
  - rewrite freq_response_eq, response_one. intros E. apply (f_equal fst) in E. simpl in E. lra.
  - exists 1. split; [lra|]. intros v _. destruct (symmetric_phase b sg v Hs Sy) as (rho & E). exists rho. rewrite (freq_response_eq b), (freq_response_eq [1]), response_one, E. apply c_ext; simpl; ring.
  - apply (derivable_pt_lim_minus (fun _ => if Req_EM_T sg 1 then 0 else PI / 2) (fun v => v * (INR (length b - 1) / 2))). apply dlim_const. apply dlim_lin.
Qed.
Print Assumptions C75_linear_phase.
Example C75_linear_phase_example : getr (snd (group_delay_filter [1; 2; 2; 1] [1] 5 48000)) 0 = 3 / 2 / 48000.
Proof.
  replace (3 / 2 / 48000) with (INR (length [1; 2; 2; 1] - 1) / 2 / 48000) by (simpl; lra).
  apply (C75_linear_phase [1; 2; 2; 1] 1); try lra; try lia; auto. discriminate.
  - intros t Ht. simpl in Ht. do 4 (destruct t; [unfold get; simpl; lra|]). lia.
  - rewrite gdf_freq by (try lia; lra). unfold omega. rewrite freq_response_eq. intros E. apply (f_equal fst) in E. unfold response in E. rewrite wsum_fst in E.
    simpl in E. unfold get in E. simpl in E. replace (PI * 0 / (1 + 1 + 1 + 1)) with 0 in E by lra. rewrite !Rmult_0_l, cos_0 in E. lra.
Qed.

(** Cascades add their delays. *)
Lemma conv_full_some_ne (b x : list R) : b <> [] -> x <> [] -> conv_full (HA := CRing_R) x b <> [].
Proof. intros Hb Hx E. apply (f_equal (@length R)) in E. rewrite conv_full_some, mk_length in E by auto. destruct b; [congruence|]. destruct x; [congruence|]. simpl in E. lia. Qed.
Theorem C75_cascade (b1 a1 b2 a2 : list R) L fs i : b1 <> [] -> a1 <> [] -> b2 <> [] -> a2 <> [] -> (2 <= L)%nat -> 0 < fs -> (i < L)%nat ->
  let w := PI * INR i / INR (L - 1) in
  freq_response b1 w <> rc 0 -> freq_response a1 w <> rc 0 -> freq_response b2 w <> rc 0 -> freq_response a2 w <> rc 0 ->
  getr (snd (group_delay_filter (conv_full (HA := CRing_R) b1 b2) (conv_full (HA := CRing_R) a1 a2) L fs)) i =
  getr (snd (group_delay_filter b1 a1 L fs)) i + getr (snd (group_delay_filter b2 a2 L fs)) i.
Proof.
  intros Hb1 Ha1 Hb2 Ha2 HL Hf Hi w N1 M1 N2 M2. rewrite !freq_response_eq in *. rewrite !gdf_get by auto. fold (omega L i) in w. change (omega L i) with w.
  rewrite !gd_at_tau; auto using conv_full_some_ne. rewrite !tau_conv by auto. field. lra.
  rewrite conv_response, cmul_zero by auto; tauto. rewrite conv_response, cmul_zero by auto; tauto.
Qed.
Print Assumptions C75_cascade.

(** A delay of s samples adds s samples; reversing the taps mirrors the delay. *)
Lemma delayed_conv (s : nat) (b : list R) w : response (repeat 0 s ++ b) w = cmul (cis (- (w * INR s))) (response b w) /\
  ramped (repeat 0 s ++ b) w = cmul (cis (- (w * INR s))) (cadd (ramped b w) (cmul (rc (INR s)) (response b w))).
Proof.
  assert (G : forall f : nat -> R, wsum (length (repeat 0 s ++ b)) (fun t => getr (repeat 0 s ++ b) t * f t) w = cmul (cis (- (w * INR s))) (wsum (length b) (fun t => getr b t * f (s + t)%nat) w)).
  { intros f. unfold wsum. rewrite app_length, repeat_length. rewrite (sum_drop (HA := CRing_C) s) by (first [lia|intros j Hj; rewrite (get_app_l (HA := CRing_R)) by (rewrite repeat_length; auto);
      rewrite (get_repeat0 (HA := CRing_R)); change (@r0 R CRing_R) with 0; rewrite Rmult_0_l; apply cmul_rc0]).
    replace (s + length b - s)%nat with (length b) by lia. rewrite <- (sum_scal_l (HA := CRing_C)). apply (sum_ext (HA := CRing_C)). intros t Ht. change (@rmul C CRing_C) with cmul.
    rewrite (get_app_r (HA := CRing_R)) by (rewrite repeat_length; lia). rewrite repeat_length. replace (s + t - s)%nat with t by lia. rewrite cis_split. set (e := cis _). set (g := cis _). clearbody e g. apply c_ext; simpl; ring. }
  split.
  - unfold response. specialize (G (fun _ => 1)). cbv beta in G.
    assert (X : forall l : list R, wsum (length l) (fun t => getr l t) w = wsum (length l) (fun t => getr l t * 1) w) by (intros l; unfold wsum; apply (sum_ext (HA := CRing_C)); intros t _; now rewrite Rmult_1_r).
    rewrite !X. exact G.
  - unfold ramped. rewrite (G INR). f_equal. unfold response, wsum. rewrite <- (sum_scal_l (HA := CRing_C)). change cadd with (@radd C CRing_C). rewrite <- (sum_add (HA := CRing_C)). apply (sum_ext (HA := CRing_C)).
    intros t _. change (@rmul C CRing_C) with cmul. change (@radd C CRing_C) with cadd. rewrite plus_INR. set (e := cis _). clearbody e. apply c_ext; simpl; ring.
Qed.
Lemma tau_delayed s b w : response b w <> rc 0 -> tau (repeat 0 s ++ b) w = tau b w + INR s.
Proof.
  intros N. destruct (delayed_conv s b w) as (E1 & E2). unfold tau. rewrite E1, E2, re_ratio_unit by apply cis_abs. unfold re_ratio. rewrite <- cabs2_zero in N. unfold cabs2 in *. simpl. field. auto.
Qed.
Theorem C75_delay (b a : list R) s L fs i : b <> [] -> a <> [] -> (2 <= L)%nat -> 0 < fs -> (i < L)%nat -> let w := PI * INR i / INR (L - 1) in
  freq_response b w <> rc 0 -> freq_response a w <> rc 0 ->
  getr (snd (group_delay_filter (repeat 0 s ++ b) a L fs)) i = getr (snd (group_delay_filter b a L fs)) i + INR s / fs.
Proof.
  intros Hb Ha HL Hf Hi w N M. rewrite (freq_response_eq a), (freq_response_eq b) in *. rewrite !gdf_get by auto. fold (omega L i) in w. change (omega L i) with w.
  assert (Ne : repeat 0 s ++ b <> []) by (destruct s; simpl; auto; discriminate).
  rewrite !gd_at_tau; auto. rewrite tau_delayed by auto. field. lra.
  destruct (delayed_conv s b w) as (E1 & _). rewrite E1, cmul_zero. intros [H|H]; auto. now apply cis_nz in H.
Qed.
Print Assumptions C75_delay.
Theorem C75_reversed (b : list R) L fs i : b <> [] -> (2 <= L)%nat -> 0 < fs -> (i < L)%nat -> freq_response b (PI * INR i / INR (L - 1)) <> rc 0 ->
  getr (snd (group_delay_filter (rev b) [1] L fs)) i = INR (length b - 1) / fs - getr (snd (group_delay_filter b [1] L fs)) i.
Proof.
  intros Hb HL Hf Hi N. rewrite freq_response_eq in *. rewrite !gdf_get by auto. fold (omega L i) in N. set (w := omega L i) in *.
  assert (N1 : response [1] w <> rc 0). { rewrite response_one. intros E. apply (f_equal fst) in E. simpl in E. lra. }
  assert (T1 : tau [1] w = 0). { unfold tau, ramped, wsum, re_ratio. simpl. unfold get. simpl. unfold Rdiv. ring. }
  rewrite !gd_at_tau; auto using rev_some; try discriminate. rewrite tau_rev by auto. rewrite T1. field. lra.
  rewrite rev_response by auto. rewrite cmul_zero, cconj_zero. intros [H|H]; auto. now apply cis_nz in H.
Qed.
Print Assumptions C75_reversed.
Example C75_delay_example : getr (snd (group_delay_filter (repeat 0 5 ++ [1]) [1] 9 1000)) 3 = 5 / 1000.
Proof.
  assert (N1 : freq_response [1] (PI * INR 3 / INR (9 - 1)) <> rc 0). { rewrite freq_response_eq, response_one. intros E. apply (f_equal fst) in E. simpl in E. lra. }
  rewrite C75_delay; try lia; try lra; try discriminate; auto.
  rewrite gdf_get by lia. rewrite gd_at_tau; try discriminate; auto. simpl. field.
Qed.

(** ** group_delay of a signal, analytic method *)
Lemma pad_same (x : list R) : pad_trim_col (HA := CRing_R) (length x) true x = x.
Proof. unfold pad_trim_col. now rewrite Nat.eqb_refl. Qed.
(** For an even number of samples every value belongs to the reported frequency. *)
Theorem C75_group_delay (x : list R) fs : x <> [] -> 0 < fs -> Nat.even (length x) = true -> let r := group_delay_analytic x fs false in let n := length x in
  length (fst r) = (n / 2 + 1)%nat /\ length (snd r) = (n / 2 + 1)%nat /\
  forall k, (k <= n / 2)%nat -> getr (fst r) k = INR k * fs / INR n /\ let w := 2 * PI * getr (fst r) k / fs in
    (freq_response x w <> rc 0 -> forall theta l, phase_around x [1] theta w -> derivable_pt_lim theta w l -> getr (snd r) k = - l / fs) /\
    (freq_response x w = rc 0 -> getr (snd r) k = 0).
Proof.
  intros Hx Hf Ev r n. unfold r, group_delay_analytic. cbv zeta iota. cbn [fst snd]. rewrite pad_same, rfftfreq_length. fold n.
  assert (Hn : (0 < n)%nat) by (unfold n; destruct x; [congruence|simpl; lia]). apply Nat.even_spec in Ev. destruct Ev as (h & Eh). fold n in Eh. assert (E2 : (n / 2 = h)%nat) by (rewrite Eh, Nat.mul_comm; apply Nat.div_mul; lia).
  split; [auto|]. split; [apply mk_length|]. intros k Hk.
  destruct (C75_analytic x [1] (n / 2 + 1) fs Hx ltac:(discriminate) ltac:(lia) Hf) as (_ & _ & V). destruct (V k ltac:(lia)) as (F & V'). clear V.
  rewrite rfftfreq_get by auto. unfold bin_freq. split; auto. cbv zeta in *.
  assert (Fk : getr (fst (group_delay_filter x [1] (n / 2 + 1) fs)) k = INR k * fs / INR n). { rewrite F. replace (n / 2 + 1 - 1)%nat with h by lia. rewrite Eh. rewrite mult_INR. simpl (INR 2). field. apply not_0_INR. lia. }
  rewrite Fk in V'. destruct V' as (V1 & V2). split.
  - intros N. apply V1; auto. rewrite freq_response_eq, response_one. intros E. apply (f_equal fst) in E. simpl in E. lra.
  - auto.
Qed.
Print Assumptions C75_group_delay.
(** For an odd number of samples the values are computed at multiples of fs / (n - 1), but reported at multiples of fs / n. *)
Theorem C75_odd_length (x : list R) fs k : 0 < fs -> Nat.even (length x) = false -> (2 <= length x)%nat -> (k <= length x / 2)%nat -> let n := length x in let r := group_delay_analytic x fs false in
  getr (fst r) k = INR k * fs / INR n /\
  let w := 2 * PI * (INR k * fs / INR (n - 1)) / fs in
  freq_response x w <> rc 0 -> forall theta l, phase_around x [1] theta w -> derivable_pt_lim theta w l -> getr (snd r) k = - l / fs.
Proof.
  intros Hf Ev Hn Hk n r. assert (Hx : x <> []) by (intros ->; simpl in Hn; lia). unfold r, group_delay_analytic. cbv zeta iota. cbn [fst snd]. rewrite pad_same, rfftfreq_length. fold n.
  assert (Od : Nat.odd n = true) by (unfold Nat.odd, n; now rewrite Ev). apply Nat.odd_spec in Od. destruct Od as (h & Eh). assert (E2 : (n / 2 = h)%nat). { symmetry. apply (Nat.div_unique n 2 h 1); lia. }
  rewrite rfftfreq_get by auto. split; [reflexivity|].
  destruct (C75_analytic x [1] (n / 2 + 1) fs Hx ltac:(discriminate) ltac:(unfold n in *; lia) Hf) as (_ & _ & V). destruct (V k ltac:(unfold n in *; lia)) as (F & V'). clear V. cbv zeta in *.
  assert (Fk : getr (fst (group_delay_filter x [1] (n / 2 + 1) fs)) k = INR k * fs / INR (n - 1)). { rewrite F. replace (n / 2 + 1 - 1)%nat with h by lia. replace (n - 1)%nat with (2 * h)%nat by lia. rewrite mult_INR. simpl (INR 2). field. apply not_0_INR. unfold n in *; lia. }
  rewrite Fk in V'. destruct V' as (V1 & _). intros N. apply V1; auto. rewrite freq_response_eq, response_one. intros E. apply (f_equal fst) in E. simpl in E. lra.
Qed.
Print Assumptions C75_odd_length.
(** So for an odd length the value need not be the group delay at the reported frequency: x = [1; 1/2; 0] has group delay 0 at fs / 3, while
    group_delay reports -1 / fs there. *)
Lemma tau_single_value w : tau [1; 1 / 2; 0] w = (cos w / 2 + 1 / 4) / (5 / 4 + cos w).
Proof.
  unfold tau, re_ratio, ramped, response, wsum. unfold get. cbn [length sum nth INR]. unfold cabs2, cis. simpl. rewrite !cos_neg, !sin_neg, !Rmult_0_r, cos_0, sin_0, !Rmult_1_r.
  assert (cos w * cos w + sin w * sin w = 1). { pose proof (sin2_cos2 w) as H. unfold Rsqr in H. lra. }
  set (c := cos w) in *. set (s := sin w) in *. apply f_equal2; nra.
Qed.
Theorem C75_odd_length_refuted fs : 0 < fs -> let x := [1; 1 / 2; 0] in let r := group_delay_analytic x fs false in
  getr (fst r) 1 = fs / 3 /\ getr (snd r) 1 = - 1 / fs /\
  forall theta l, let w := 2 * PI * getr (fst r) 1 / fs in phase_around x [1] theta w -> derivable_pt_lim theta w l -> - l / fs = 0.
Proof.
  intros Hf x r. assert (F : getr (fst r) 1 = fs / 3). { unfold r, group_delay_analytic. cbv zeta iota. cbn [fst]. rewrite rfftfreq_get by (simpl; lia). unfold bin_freq. simpl. field. }
  assert (N1 : forall w, response [1] w <> rc 0). { intros w. rewrite response_one. intros E. apply (f_equal fst) in E. simpl in E. lra. }
  assert (T1 : forall w, tau [1] w = 0). { intros w. unfold tau, ramped, wsum, re_ratio. simpl. unfold get. simpl. unfold Rdiv. ring. }
  assert (Nx : forall w, response x w <> rc 0).
  { intros w E. apply cabs2_zero in E. unfold x, response, wsum, get in E. cbn [length sum nth INR] in E. unfold cabs2, cis in E. simpl in E. rewrite !cos_neg, !sin_neg, !Rmult_0_r, cos_0, sin_0, !Rmult_1_r in E.
    pose proof (sin2_cos2 w) as H. unfold Rsqr in H. pose proof (COS_bound w). nra. }
  split; auto. split.
  - unfold r, group_delay_analytic. cbv zeta iota. cbn [snd]. rewrite pad_same, rfftfreq_length. rewrite gdf_get by (simpl; lia). rewrite gd_at_tau; auto; try discriminate.
    unfold x. rewrite T1, tau_single_value. unfold omega. simpl. replace (PI * 1 / 1) with PI by field. rewrite cos_PI. field. lra.
  - intros theta l w P D. rewrite <- (tau_phase x [1] w theta l); auto. unfold x. rewrite T1, tau_single_value. unfold w. rewrite F.
    replace (2 * PI * (fs / 3) / fs) with (PI - PI / 3) by (field; lra). rewrite cos_minus, cos_PI, sin_PI, cos_PI3. field. lra.
Qed.
Print Assumptions C75_odd_length_refuted.

(** Removing the latency: when everything ahead of the sample before the peak is zero, its position is taken off the delays of the padded
    response. *)
Theorem C75_latency (x : list R) fs k : x <> [] -> 0 < fs -> let N := next_fast_len (length x * 8) in let td := pad_trim_col (HA := CRing_R) N true x in let p := argmax (map Rabs td) in
  (forall t, (t < p - 1)%nat -> getr td t = 0) -> let r := group_delay_analytic x fs true in
  length (snd r) = (N / 2 + 1)%nat /\
  ((k <= N / 2)%nat -> freq_response td (PI * INR k / INR (N / 2)) <> rc 0 ->
   getr (snd r) k = getr (snd (group_delay_filter td [1] (N / 2 + 1) fs)) k - INR (p - 1) / fs).
Proof.
  intros Hx Hf N td p Z r. unfold r, group_delay_analytic. cbv zeta iota. cbn [snd]. fold N. fold td. fold p. rewrite rfftfreq_length. split; [apply mk_length|]. intros Hk Nz.
  assert (Sp : td = repeat 0 (p - 1) ++ skipn (p - 1) td).
  { destruct (Nat.le_ge_cases (p - 1) (length td)) as [Hl|Hl].
    - rewrite <- (firstn_skipn (p - 1) td) at 1. f_equal. apply list_ext_R with (N := (p - 1)%nat). rewrite firstn_length; lia. apply repeat_length. intros t Ht.
      rewrite (get_repeat0 (HA := CRing_R)). change (@r0 R CRing_R) with 0. rewrite <- (Z t) by lia. unfold get. rewrite <- (firstn_skipn (p - 1) td) at 2. rewrite app_nth1; auto. rewrite firstn_length; lia.
    - exfalso. apply Nz. unfold freq_response. apply (sum_zero' (HA := CRing_C)). intros t Ht. rewrite Z by lia. apply cmul_rc0. }
  assert (Sk : skipn (p - 1) td <> []).
  { intros E. rewrite E, app_nil_r in Sp. apply Nz. unfold freq_response. apply (sum_zero' (HA := CRing_C)). intros t Ht. rewrite Sp. rewrite (get_repeat0 (HA := CRing_R)). apply cmul_rc0. }
  assert (HN : (2 <= N / 2 + 1)%nat).
  { assert (length x * 8 <= N)%nat by apply next_fast_len_ge. assert (0 < length x)%nat by (destruct x; [congruence|simpl; lia]). pose proof (Nat.div_le_mono 2 N 2 ltac:(lia) ltac:(lia)). simpl in *. lia. }
  assert (Nz' : freq_response (skipn (p - 1) td) (PI * INR k / INR (N / 2 + 1 - 1)) <> rc 0).
  { replace (N / 2 + 1 - 1)%nat with (N / 2)%nat by lia. intros E. apply Nz. rewrite Sp. rewrite freq_response_eq in *. destruct (delayed_conv (p - 1) (skipn (p - 1) td) (PI * INR k / INR (N / 2))) as (E1 & _). rewrite E1, E. apply cmul_zero. auto. }
  assert (N1 : forall w, freq_response [1] w <> rc 0). { intros w. rewrite freq_response_eq, response_one. intros E. apply (f_equal fst) in E. simpl in E. lra. }
  pose proof (C75_delay (skipn (p - 1) td) [1] (p - 1) (N / 2 + 1) fs k Sk ltac:(discriminate) HN Hf ltac:(lia) Nz' (N1 _)) as D. rewrite <- Sp in D. rewrite D. ring.
Qed.
Print Assumptions C75_latency.
Lemma first_peak_padded : argmax (map Rabs (pad_trim_col (HA := CRing_R) 32 true [0; 0; 0; 1])) = 3%nat.
Proof.
  set (l := map Rabs (pad_trim_col 32 true [0; 0; 0; 1])). destruct (argmax_spec l ltac:(discriminate)) as (A & B & D). set (r := argmax l) in *.
  assert (V : forall j, nth j l 0 = if (j =? 3)%nat then 1 else 0).
  { intros j. unfold l. cbv [pad_trim_col length Nat.eqb Nat.ltb Nat.leb Nat.sub repeat app map]. rewrite !Rabs_R0, Rabs_R1. do 4 (destruct j; [reflexivity|]). cbn [nth Nat.eqb].
    change (@r0 R CRing_R) with 0. rewrite ?Rabs_R0. do 29 (destruct j; [reflexivity|]). reflexivity. }
  destruct (Nat.eq_dec r 3) as [E|N]; auto. exfalso. specialize (B 3%nat ltac:(unfold l; rewrite map_length; simpl; lia)). rewrite !V in B. apply Nat.eqb_neq in N. rewrite N in B. simpl in B. lra.
Qed.
Example C75_latency_example : getr (snd (group_delay_analytic [0; 0; 0; 1] 1000 true)) 5 = 1 / 1000.
Proof.
  set (x := [0; 0; 0; 1]).
  assert (EN : next_fast_len (length x * 8) = 32%nat) by (vm_compute; reflexivity).
  assert (Etd : pad_trim_col (HA := CRing_R) 32 true x = repeat 0 3 ++ ([1] ++ repeat 0 28)) by reflexivity.
  pose proof (C75_latency x 1000 5 ltac:(discriminate) ltac:(lra)) as L. cbv zeta in L. rewrite EN in L. rewrite (first_peak_padded : argmax (map Rabs (pad_trim_col (HA := CRing_R) 32 true x)) = 3%nat) in L.
  destruct L as (_ & L). { intros t Ht. rewrite Etd. assert (t = 0 \/ t = 1)%nat as [-> | ->] by lia; reflexivity. }
  change (32 / 2)%nat with 16%nat in L.
  assert (N1 : forall w, freq_response ([1] ++ repeat 0 28) w = rc 1).
  { intros w. unfold freq_response. rewrite (sum_trunc (HA := CRing_C) 1). unfold get. cbn [sum nth app INR]. rewrite Rmult_0_r, Ropp_0, cis_0. apply c_ext; simpl; ring. simpl; lia.
    intros t Ht. rewrite (get_app_r (HA := CRing_R)) by (simpl; lia). rewrite (get_repeat0 (HA := CRing_R)). apply cmul_rc0. }
  assert (Z1 : rc 1 <> rc 0). { intros E. apply (f_equal fst) in E. simpl in E. lra. }
  rewrite L by (try lia; rewrite Etd, freq_response_eq; destruct (delayed_conv 3 ([1] ++ repeat 0 28) (PI * INR 5 / INR 16)) as (E1 & _); rewrite E1, <- freq_response_eq, N1, cmul_zero; intros [H|H]; auto; now apply cis_nz in H).
  rewrite Etd. rewrite C75_delay; try lia; try lra; try discriminate.
  2:{ rewrite N1; auto. } 2:{ rewrite freq_response_eq, response_one; auto. }
  rewrite gdf_get by lia. rewrite gd_at_tau; try discriminate. 2:{ rewrite <- freq_response_eq, N1. auto. } 2:{ rewrite response_one; auto. }
  assert (T : forall l w, tau ([1] ++ repeat 0 l) w = 0).
  { intros l w. unfold tau, re_ratio. assert (Zr : ramped ([1] ++ repeat 0 l) w = rc 0). { unfold ramped, wsum. apply (sum_zero' (HA := CRing_C)). intros t Ht. destruct t. simpl. rewrite Rmult_0_r. apply cmul_rc0.
      rewrite (get_app_r (HA := CRing_R)) by (simpl; lia). rewrite (get_repeat0 (HA := CRing_R)). change (@r0 R CRing_R) with 0. rewrite Rmult_0_l. apply cmul_rc0. }
    rewrite Zr. simpl. unfold Rdiv. ring. }
  rewrite (T 28%nat). change [1] with ([1] ++ repeat 0 0). rewrite (T 0%nat). simpl. field.
Qed.

(** ** The numerical method *)
Lemma cis_eq a b : cis a = cis b -> exists m : Z, a = b + 2 * PI * IZR m.
Proof.
  intros E. assert (E' : cis (a - b) = rc 1). { replace (a - b) with (a + - b) by ring. rewrite cis_add, E, <- cis_add. replace (b + - b) with 0 by ring. apply cis_0. }
  pose proof (f_equal snd E') as S. unfold cis in S. simpl in S. apply sin_eq_0_0 in S. destruct S as (k & Ek). destruct (Z.Even_or_Odd k) as [(j & ->)|(j & ->)].
  - exists j. rewrite mult_IZR in Ek. simpl in Ek. lra.
  - exfalso. rewrite Ek in E'. rewrite plus_IZR, mult_IZR in E'. replace ((2 * IZR j + 1) * PI) with (2 * PI * IZR j + PI) in E' by ring. rewrite cis_add, cis_2pi in E'.
    apply (f_equal fst) in E'. unfold cis in E'. simpl in E'. rewrite cos_PI, sin_PI in E'. lra.
Qed.
Lemma rmod_unique x y q r : 0 < y -> 0 <= r < y -> x = y * IZR q + r -> rmod x y = r.
Proof.
  intros Hy Hr E. unfold rmod. assert (I : Int_part (x / y) = q).
  { unfold Int_part. assert (U : (q + 1)%Z = Rdefinitions.up (x / y)). { apply tech_up; rewrite plus_IZR; rewrite E; replace ((y * IZR q + r) / y) with (IZR q + r / y) by (field; lra).
      - assert (r / y < 1) by (apply (Rmult_lt_reg_r y); auto; unfold Rdiv; rewrite Rmult_assoc, Rinv_l by lra; lra). lra.
      - assert (0 <= r / y) by (apply Rmult_le_pos; [lra|left; now apply Rinv_0_lt_compat]). lra. }
    rewrite <- U. lia. }
  rewrite I, E. ring.
Qed.
Lemma jump_small d (m : Z) : Rabs d < PI -> unwrap_jump (d + 2 * PI * IZR m) = d.
Proof.
  intros H. pose proof PI_RGT_0 as P. apply Rabs_def2 in H. unfold unwrap_jump.
  assert (E : rmod (d + 2 * PI * IZR m + PI) (2 * PI) = d + PI) by (apply (rmod_unique _ _ m); [lra|lra|ring]). rewrite E. replace (d + PI - PI) with d by ring.
  destruct (Req_EM_T d (- PI)); [lra|]. destruct (Rlt_dec (Rabs (d + 2 * PI * IZR m)) PI) as [L|L]; auto.
  apply Rabs_def2 in L. assert (m = 0)%Z as ->; [|simpl; lra]. assert (IZR m < 1 /\ -1 < IZR m) as (A & B) by (split; nra). apply lt_IZR in A. apply (lt_IZR (-1)) in B. lia.
Qed.
Lemma unwrap_length l : length (unwrap l) = length l.
Proof.
  destruct l as [|v t]; auto. cbn [unwrap length]. f_equal. assert (G : forall t a p, length (unwrap_from a p t) = length t) by (induction t0; intros; simpl; auto). apply G.
Qed.
Lemma unwrap_phases (theta : nat -> R) (l : list R) : (forall k, (k < length l)%nat -> exists m : Z, getr l k = theta k + 2 * PI * IZR m) ->
  (forall k, (k + 1 < length l)%nat -> Rabs (theta (k + 1)%nat - theta k) < PI) -> forall k, (k < length l)%nat -> getr (unwrap l) k = getr l 0 + theta k - theta 0%nat.
Proof.
  intros M J.
  assert (G : forall l (theta : nat -> R) acc prev, (exists m : Z, prev = theta 0%nat + 2 * PI * IZR m) -> (forall k, (k < length l)%nat -> exists m : Z, getr l k = theta (S k) + 2 * PI * IZR m) ->
    (forall k, (k < length l)%nat -> Rabs (theta (S k) - theta k) < PI) -> forall k, (k < length l)%nat -> getr (unwrap_from acc prev l) k = acc + theta (S k) - theta 0%nat).
  { clear. induction l as [|v t IH]; intros theta acc prev Hp M J k Hk; simpl in Hk; [lia|]. cbn [unwrap_from].
    destruct Hp as (mp & Ep). destruct (M 0%nat ltac:(simpl; lia)) as (mv & Ev). unfold get in Ev. cbn [nth] in Ev.
    assert (Ej : unwrap_jump (v - prev) = theta 1%nat - theta 0%nat). { rewrite <- (jump_small (theta 1%nat - theta 0%nat) (mv - mp)%Z). f_equal. rewrite Ev, Ep, minus_IZR. ring. apply J. simpl; lia. }
    rewrite Ej. destruct k as [|k]. unfold get; cbn [nth]; ring. unfold get. cbn [nth]. change (nth k ?l r0) with (getr l k).
    rewrite (IH (fun i => theta (S i)) _ v); [ring|exists mv; auto| | |lia].
    - intros j Hj. apply (M (S j)). simpl; lia.
    - intros j Hj. apply (J (S j)). simpl; lia. }
  intros k Hk. destruct l as [|v t]; [simpl in Hk; lia|]. cbn [unwrap]. destruct k as [|k]. unfold get; cbn [nth]; ring. unfold get at 1. cbn [nth]. change (nth k ?l r0) with (getr l k).
  rewrite (G t theta v v). reflexivity.
  - destruct (M 0%nat ltac:(simpl; lia)) as (m & E). exists m. exact E.
  - intros j Hj. apply (M (S j)). simpl; lia.
  - intros j Hj. specialize (J j). replace (j + 1)%nat with (S j) in J by lia. apply J. simpl; lia.
  - simpl in Hk; lia.
Qed.
(** Difference quotient of the phases over the bins 0 .. m: one-sided at the ends. *)
Definition phase_slope (theta : nat -> R) (m k : nat) : R :=
  if (k =? 0)%nat then theta 1%nat - theta 0%nat else if (k =? m)%nat then theta m - theta (m - 1)%nat else (theta (k + 1)%nat - theta (k - 1)%nat) / 2.
Lemma direct_value (theta : nat -> R) (l : list R) df : (2 <= length l)%nat -> (forall k, (k < length l)%nat -> exists m : Z, getr l k = theta k + 2 * PI * IZR m) ->
  (forall k, (k + 1 < length l)%nat -> Rabs (theta (k + 1)%nat - theta k) < PI) -> df <> 0 ->
  exists g, group_delay_direct l df = Ok g /\ length g = length l /\ forall k, (k < length l)%nat -> getr g k = if Req_EM_T df 1 then - phase_slope theta (length l - 1) k else - phase_slope theta (length l - 1) k / df / (2 * PI).
Proof.
  intros Hl M J Hd. pose proof (unwrap_phases theta l M J) as U. pose proof (unwrap_length l) as UL. set (n := length l) in *.
  assert (G : forall d, d <> 0 -> exists g, gradient (unwrap l) d = Ok g /\ length g = n /\ forall k, (k < n)%nat -> getr g k = phase_slope theta (n - 1) k / d).
  { intros d Nd. unfold gradient. rewrite UL. destruct (Nat.ltb_spec n 2); [lia|]. eexists. split; [reflexivity|]. split; [apply mk_length|]. intros k Hk. rewrite (get_mk (HA := CRing_R)) by auto. unfold phase_slope.
    destruct (Nat.eqb_spec k 0). rewrite !U by lia. f_equal. ring. destruct (Nat.eqb_spec k (n - 1)). rewrite !U by lia. replace (n - 1 - 1)%nat with (n - 2)%nat by lia. f_equal. ring.
    rewrite !U by lia. field. auto. }
  assert (Gm : forall (f : R -> R) (g : list R) k, (k < length g)%nat -> getr (map f g) k = f (getr g k)).
  { intros f g k Hk. unfold get. rewrite (nth_indep _ _ (f r0)) by now rewrite map_length. apply map_nth. }
  unfold group_delay_direct. destruct (Req_EM_T df 1).
  - destruct (G 1 ltac:(lra)) as (g & E & Lg & V). exists (map Ropp g). rewrite E. split; [reflexivity|]. split; [now rewrite map_length|]. intros k Hk. rewrite Gm by lia. rewrite V by auto. field.
  - destruct (G df Hd) as (g & E & Lg & V). eexists. rewrite E. split; [reflexivity|]. split; [now rewrite map_length|]. intros k Hk. rewrite Gm by lia. rewrite V by auto. field. auto using PI_neq0.
Qed.
(** Numerical group delay of a signal of n >= 2 samples: for every phase theta of the n / 2 + 1 bins whose steps stay below half a turn, the difference quotient of
    theta, divided by 2 pi and the bin spacing (unless the spacing is exactly 1 Hz, see below). *)
Theorem C75_numeric (x : list R) fs (theta : nat -> R) : let n := length x in (2 <= n)%nat -> 0 < fs -> fs <> INR n ->
  (forall k, (k <= n / 2)%nat -> exists rho, 0 < rho /\ dft n x k = cmul (rc rho) (cis (theta k))) -> (forall k, (k < n / 2)%nat -> Rabs (theta (k + 1)%nat - theta k) < PI) ->
  exists f g, group_delay_numeric x fs = Ok (f, g) /\ length f = (n / 2 + 1)%nat /\ length g = (n / 2 + 1)%nat /\
  forall k, (k <= n / 2)%nat -> getr f k = INR k * fs / INR n /\ getr g k = - phase_slope theta (n / 2) k / (fs / INR n) / (2 * PI).
Proof.
  intros n Hn Hf Nf Ph J. unfold group_delay_numeric. fold n. rewrite rfftfreq_length. assert (Hh : (1 <= n / 2)%nat) by (change 1%nat with (2 / 2)%nat; apply Nat.div_le_mono; lia).
  destruct (Nat.ltb_spec (n / 2 + 1) 2); [lia|]. set (l := map angle (rfft n x)).
  assert (Ll : length l = (n / 2 + 1)%nat) by (unfold l, rfft; now rewrite map_length, mk_length).
  assert (Df : getr (rfftfreq n fs) 1 - getr (rfftfreq n fs) 0 = fs / INR n). { rewrite !rfftfreq_get by lia. unfold bin_freq. simpl. field. apply not_0_INR. lia. }
  assert (Pn : 0 < INR n) by (apply INR_pos; lia).
  destruct (direct_value theta l (fs / INR n)) as (g & E & Lg & V). lia.
  - intros k Hk. destruct (Ph k ltac:(lia)) as (rho & Hr & Ez). assert (Nz : dft n x k <> rc 0). { rewrite Ez, cmul_zero. intros [H0|H0]. apply (f_equal fst) in H0. simpl in H0. lra. now apply cis_nz in H0. }
    assert (El : getr l k = angle (dft n x k)). { unfold l, get, rfft. rewrite (nth_indep _ _ (angle (rc 0))) by (rewrite map_length, mk_length; lia). rewrite map_nth. f_equal. apply nth_mk. lia. }
    destruct (angle_spec _ Nz) as (Ea & _). rewrite El. apply cis_eq. assert (Em : cmod (dft n x k) = rho).
    { unfold cmod. rewrite Ez, cabs2_mul', cis_abs. replace (cabs2 (rc rho) * 1) with (rho * rho) by (unfold cabs2; simpl; ring). apply sqrt_square. lra. }
    rewrite Em in Ea. rewrite Ez in Ea at 1. unfold cmulr in Ea. apply c_ext; [apply (f_equal fst) in Ea|apply (f_equal snd) in Ea]; revert Ea; cbn [fst snd cmul rc cmulr]; set (aa := angle _); intros Ea; apply (Rmult_eq_reg_r rho); try lra; rewrite <- Ea; unfold cmul, rc; cbn [fst snd]; ring.
  - intros k Hk. apply J. lia.
  - intros H0. apply (Rmult_eq_compat_r (INR n)) in H0. unfold Rdiv in H0. rewrite Rmult_assoc, Rinv_l in H0 by lra. lra.
  - exists (rfftfreq n fs), g. rewrite Df, E. split; [reflexivity|]. split; [apply rfftfreq_length|]. split; [lia|]. intros k Hk. split; [now apply rfftfreq_get|]. rewrite V by lia.
    destruct (Req_EM_T (fs / INR n) 1) as [E1|_]. { exfalso. apply Nf. apply (Rmult_eq_compat_r (INR n)) in E1. unfold Rdiv in E1. rewrite Rmult_assoc, Rinv_l in E1 by lra. lra. }
    replace (length l - 1)%nat with (n / 2)%nat by lia. reflexivity.
Qed.
Print Assumptions C75_numeric.
(** A unit impulse at sample s. *)
Lemma unit_bins n s k : (s < n)%nat -> dft n (unit_at n s) k = cis (- (2 * PI * INR s / INR n) * INR k).
Proof.
  intros Hs. rewrite unit_dft by auto. unfold root. f_equal. rewrite opp_IZR, mult_IZR, <- !INR_IZR_INZ. unfold Rdiv. ring.
Qed.
Lemma linear_slope c m k : (1 <= m)%nat -> (k <= m)%nat -> phase_slope (fun k => c * INR k) m k = c.
Proof.
  intros Hm Hk. unfold phase_slope. destruct (Nat.eqb_spec k 0). simpl; ring. destruct (Nat.eqb_spec k m). rewrite minus_INR by lia. simpl; ring.
  rewrite plus_INR, minus_INR by lia. simpl. field.
Qed.
Lemma unit_numeric n s (c : R) fs : (2 <= n)%nat -> 0 < fs -> fs <> INR n -> (s < n)%nat -> (exists m : Z, c = - (2 * PI * INR s / INR n) + 2 * PI * IZR m) -> Rabs c < PI ->
  exists f g, group_delay_numeric (unit_at n s) fs = Ok (f, g) /\ length g = (n / 2 + 1)%nat /\ forall k, (k <= n / 2)%nat -> getr f k = INR k * fs / INR n /\ getr g k = - c / (fs / INR n) / (2 * PI).
Proof.
  intros Hn Hf Nf Hs (m & Ec) Hc. assert (Lu : length (unit_at n s) = n) by apply mk_length.
  destruct (C75_numeric (unit_at n s) fs (fun k => c * INR k)) as (f & g & E & _ & Lg & V); rewrite ?Lu in *; auto.
  - intros k Hk. exists 1. split; [lra|]. rewrite unit_bins by auto. rewrite Ec. rewrite Rmult_plus_distr_r. rewrite cis_add. replace (2 * PI * IZR m * INR k) with (2 * PI * IZR (m * Z.of_nat k)) by (rewrite mult_IZR, <- INR_IZR_INZ; ring).
    rewrite cis_2pi. apply c_ext; simpl; ring.
  - intros k Hk. replace (c * INR (k + 1) - c * INR k) with c by (rewrite plus_INR; simpl; ring). auto.
  - exists f, g. split; auto. split; auto. intros k Hk. destruct (V k Hk) as (V1 & V2). split; auto. rewrite V2. rewrite linear_slope; auto. change 1%nat with (2 / 2)%nat. apply Nat.div_le_mono; lia.
Qed.
(** An impulse in the first half of the signal: its time at every bin. *)
Theorem C75_numeric_delay n s fs : (2 * s < n)%nat -> (2 <= n)%nat -> 0 < fs -> fs <> INR n ->
  exists f g, group_delay_numeric (unit_at n s) fs = Ok (f, g) /\ length g = (n / 2 + 1)%nat /\ forall k, (k <= n / 2)%nat -> getr f k = INR k * fs / INR n /\ getr g k = INR s / fs.
Proof.
  intros Hs Hn Hf Nf. assert (Pn : 0 < INR n) by (apply INR_pos; lia). pose proof PI_RGT_0.
  assert (Hb : 0 <= INR s / INR n < 1 / 2).
  { apply lt_INR in Hs. rewrite mult_INR in Hs. simpl in Hs. split. apply Rmult_le_pos; [apply pos_INR|left; now apply Rinv_0_lt_compat].
    apply (Rmult_lt_reg_r (INR n)); auto. unfold Rdiv at 1. rewrite Rmult_assoc, Rinv_l by lra. lra. }
  destruct (unit_numeric n s (- (2 * PI * INR s / INR n)) fs) as (f & g & E & Lg & V); auto. lia. exists 0%Z; lra.
  - rewrite Rabs_Ropp. replace (2 * PI * INR s / INR n) with (2 * PI * (INR s / INR n)) by (unfold Rdiv; ring). rewrite Rabs_right by nra. nra.
  - exists f, g. split; auto. split; auto. intros k Hk. destruct (V k Hk) as (V1 & V2). split; auto. rewrite V2. field. repeat split; try lra; auto using PI_neq0.
Qed.
Print Assumptions C75_numeric_delay.
Example C75_numeric_delay_example : exists f g, group_delay_numeric (unit_at 8 3) 48000 = Ok (f, g) /\ getr g 2 = 3 / 48000.
Proof.
  destruct (C75_numeric_delay 8 3 48000) as (f & g & E & _ & V); try lia; try lra. simpl; lra. exists f, g. split; auto. destruct (V 2%nat) as (_ & ->). simpl; lia. simpl; lra.
Qed.
(** An impulse in the second half is reported as arriving early, before time 0. *)
Theorem C75_numeric_late_refuted n s fs : (n < 2 * s)%nat -> (s < n)%nat -> 0 < fs -> fs <> INR n ->
  exists f g, group_delay_numeric (unit_at n s) fs = Ok (f, g) /\ length g = (n / 2 + 1)%nat /\ forall k, (k <= n / 2)%nat -> getr g k = (INR s - INR n) / fs /\ getr g k < 0.
Proof.
  intros Hs Hn Hf Nf. assert (Pn : 0 < INR n) by (apply INR_pos; lia). pose proof PI_RGT_0.
  assert (Hb : 1 / 2 < INR s / INR n < 1).
  { apply lt_INR in Hs. rewrite mult_INR in Hs. simpl in Hs. apply lt_INR in Hn. split; apply (Rmult_lt_reg_r (INR n)); auto; unfold Rdiv; rewrite ?Rmult_assoc, ?Rinv_l by lra; lra. }
  destruct (unit_numeric n s (2 * PI * (1 - INR s / INR n)) fs) as (f & g & E & Lg & V); auto. lia. exists 1%Z. unfold Rdiv. ring.
  - rewrite Rabs_right by nra. nra.
  - exists f, g. split; auto. split; auto. intros k Hk. destruct (V k Hk) as (V1 & V2). assert (EV : getr g k = (INR s - INR n) / fs) by (rewrite V2; field; repeat split; try lra; auto using PI_neq0).
    split; auto. rewrite EV. apply lt_INR in Hn. unfold Rdiv. assert (0 < / fs) by now apply Rinv_0_lt_compat. nra.
Qed.
Print Assumptions C75_numeric_late_refuted.
(** A signal of exactly one second has bins 1 Hz apart, which the code takes for "no frequency step": the delays come out 2 pi times too large. *)
Theorem C75_one_second_refuted n s : (2 <= n)%nat -> (2 * s < n)%nat -> let fs := INR n in
  exists f g, group_delay_numeric (unit_at n s) fs = Ok (f, g) /\ length g = (n / 2 + 1)%nat /\ forall k, (k <= n / 2)%nat -> getr g k = 2 * PI * (INR s / fs).
Proof.
  intros Hn Hs fs. assert (Pn : 0 < INR n) by (apply INR_pos; lia). pose proof PI_RGT_0. unfold group_delay_numeric.
  assert (Lu : length (unit_at n s) = n) by apply mk_length. rewrite Lu, rfftfreq_length. assert (Hh : (1 <= n / 2)%nat) by (change 1%nat with (2 / 2)%nat; apply Nat.div_le_mono; lia).
  destruct (Nat.ltb_spec (n / 2 + 1) 2); [lia|]. set (l := map angle (rfft n (unit_at n s))).
  assert (Ll : length l = (n / 2 + 1)%nat) by (unfold l, rfft; now rewrite map_length, mk_length).
  assert (Df : getr (rfftfreq n fs) 1 - getr (rfftfreq n fs) 0 = 1). { rewrite !rfftfreq_get by lia. unfold bin_freq, fs. simpl. field. lra. }
  assert (Hb : 0 <= INR s / INR n < 1 / 2).
  { apply lt_INR in Hs. rewrite mult_INR in Hs. simpl in Hs. split. apply Rmult_le_pos; [apply pos_INR|left; now apply Rinv_0_lt_compat].
    apply (Rmult_lt_reg_r (INR n)); auto. unfold Rdiv at 1. rewrite Rmult_assoc, Rinv_l by lra. lra. }
  set (c := - (2 * PI * INR s / INR n)).
  destruct (direct_value (fun k => c * INR k) l 1) as (g & E & Lg & V); [lia| | |lra|].
  - intros k Hk. assert (El : getr l k = angle (dft n (unit_at n s) k)). { unfold l, get, rfft. rewrite (nth_indep _ _ (angle (rc 0))) by (rewrite map_length, mk_length; lia). rewrite map_nth. f_equal. apply nth_mk. lia. }
    assert (Ez : dft n (unit_at n s) k = cis (c * INR k)) by (apply unit_bins; lia).
    assert (Nz : dft n (unit_at n s) k <> rc 0) by (rewrite Ez; apply cis_nz). destruct (angle_spec _ Nz) as (Ea & _). rewrite El. apply cis_eq.
    assert (Em : cmod (dft n (unit_at n s) k) = 1) by (unfold cmod; rewrite Ez, cis_abs; apply sqrt_1). rewrite Em in Ea. rewrite Ez in Ea at 1. rewrite Ea. unfold cmulr. apply c_ext; simpl; ring.
  - intros k Hk. replace (c * INR (k + 1) - c * INR k) with c by (rewrite plus_INR; simpl; ring). unfold c. rewrite Rabs_Ropp. replace (2 * PI * INR s / INR n) with (2 * PI * (INR s / INR n)) by (unfold Rdiv; ring). rewrite Rabs_right by nra. nra.
  - exists (rfftfreq n fs), g. rewrite Df, E. split; [reflexivity|]. split; [lia|]. intros k Hk. rewrite V by lia. destruct (Req_EM_T 1 1); [|lra]. rewrite linear_slope by lia. unfold c, fs. field. lra.
Qed.
Print Assumptions C75_one_second_refuted.
Example C75_one_second_example : exists f g, group_delay_numeric (unit_at 8 1) 8 = Ok (f, g) /\ getr g 2 = PI / 4.
Proof.
  destruct (C75_one_second_refuted 8 1) as (f & g & E & _ & V); try lia. replace (INR 8) with 8 in * by (simpl; lra). exists f, g. split; auto. rewrite V by (simpl; lia). simpl. field.
Qed.
(** ** Further instances *)
Lemma half_tap_nz c w : c * c = 1 / 4 -> freq_response [1; c] w <> rc 0.
Proof.
  intros Hc E. apply cabs2_zero in E. unfold freq_response, get in E. cbn [length sum nth INR] in E. unfold cabs2, cis in E. simpl in E. rewrite !cos_neg, !sin_neg, !Rmult_0_r, cos_0, sin_0, !Rmult_1_r in E.
  pose proof (sin2_cos2 w) as H. unfold Rsqr in H. pose proof (COS_bound w). assert (c = 1 / 2 \/ c = - (1 / 2)) as [-> | ->] by (assert (Z : (c - 1 / 2) * (c + 1 / 2) = 0) by lra; apply Rmult_integral in Z; lra); nra.
Qed.
Example C75_cascade_example : getr (snd (group_delay_filter (conv_full (HA := CRing_R) [1; 1 / 2] [1; - (1 / 2)]) (conv_full (HA := CRing_R) [1; - (1 / 2)] [1; 1 / 2]) 9 1000)) 3 =
  getr (snd (group_delay_filter [1; 1 / 2] [1; - (1 / 2)] 9 1000)) 3 + getr (snd (group_delay_filter [1; - (1 / 2)] [1; 1 / 2] 9 1000)) 3.
Proof. apply C75_cascade; try lia; try lra; try discriminate; apply half_tap_nz; lra. Qed.
Example C75_reversed_example : getr (snd (group_delay_filter [1 / 2; 1] [1] 9 1000)) 3 = 1 / 1000 - getr (snd (group_delay_filter [1; 1 / 2] [1] 9 1000)) 3.
Proof. change [1 / 2; 1] with (rev [1; 1 / 2]). rewrite C75_reversed; try lia; try lra; try discriminate. reflexivity. apply half_tap_nz; lra. Qed.
Lemma delay_phase s l w : (s < l)%nat -> phase_around (unit_at l s) [1] (fun v => v * - INR s) w.
Proof.
  intros Hs. exists 1. split; [lra|]. intros v _. exists 1. rewrite (freq_response_eq [1]), response_one. unfold freq_response. unfold unit_at at 1. rewrite mk_length.
  rewrite (sum_ext (HA := CRing_C) l _ (fun t => if (t =? s)%nat then cis (- (v * INR t)) else @r0 C CRing_C)).
  2:{ intros t Ht. rewrite unit_get by auto. destruct (t =? s)%nat. apply c_ext; simpl; ring. apply cmul_rc0. }
  rewrite (sum_delta (HA := CRing_C) l s (fun t => cis (- (v * INR t)))) by auto. replace (v * - INR s) with (- (v * INR s)) by ring. apply c_ext; simpl; ring.
Qed.
Lemma unit_nz s l w : (s < l)%nat -> freq_response (unit_at l s) w <> rc 0.
Proof.
  intros Hs E. destruct (delay_phase s l w Hs) as (d & Hd & P). destruct (P w) as (rho & E'). { replace (w - w) with 0 by ring. now rewrite Rabs_R0. }
  revert E. unfold freq_response. unfold unit_at at 1. rewrite mk_length.
  rewrite (sum_ext (HA := CRing_C) l _ (fun t => if (t =? s)%nat then cis (- (w * INR t)) else @r0 C CRing_C)).
  2:{ intros t Ht. rewrite unit_get by auto. destruct (t =? s)%nat. apply c_ext; simpl; ring. apply cmul_rc0. }
  rewrite (sum_delta (HA := CRing_C) l s (fun t => cis (- (w * INR t)))) by auto. apply cis_nz.
Qed.
Example C75_group_delay_example : getr (fst (group_delay_analytic (unit_at 6 4) 1000 false)) 2 = 1000 / 3 /\ getr (snd (group_delay_analytic (unit_at 6 4) 1000 false)) 2 = 4 / 1000.
Proof.
  destruct (C75_group_delay (unit_at 6 4) 1000 ltac:(discriminate) ltac:(lra) eq_refl) as (_ & _ & V). destruct (V 2%nat ltac:(simpl; lia)) as (F & V1 & _). split. rewrite F. simpl. lra.
  rewrite (V1 (unit_nz 4 6 _ ltac:(lia)) (fun v => v * - INR 4) (- INR 4)). simpl. lra. apply delay_phase. lia. apply dlim_lin.
Qed.
Example C75_odd_length_example : getr (fst (group_delay_analytic (unit_at 7 4) 1000 false)) 2 = 2000 / 7 /\ getr (snd (group_delay_analytic (unit_at 7 4) 1000 false)) 2 = 4 / 1000.
Proof.
  destruct (C75_odd_length (unit_at 7 4) 1000 2 ltac:(lra) eq_refl ltac:(simpl; lia) ltac:(simpl; lia)) as (F & V1). split. rewrite F. simpl. lra.
  rewrite (V1 (unit_nz 4 7 _ ltac:(lia)) (fun v => v * - INR 4) (- INR 4)). simpl. lra. apply delay_phase. lia. apply dlim_lin.
Qed.
