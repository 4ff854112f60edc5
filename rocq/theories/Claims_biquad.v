(** C55: the biquad filters of Filter.biquad have the gains their names and arguments promise, at the frequency asked for and
    at both ends of the frequency axis, and are stable for every admissible frequency, gain and quality factor. *)
From Coq Require Import List Arith Lia ZArith Bool Reals Lra.
From Verif Require Import Alg Spec Dft M_arrays M_filter M_biquad P_filter P_conv P_biquad.
Import ListNotations.
Local Open Scope R_scope.

(** ** Specification *)
(** An admissible design: 0 < frequency < fs / 2 and a positive quality factor. The gain is arbitrary. *)
Definition design (fs f0 q : R) : Prop := 0 < f0 < fs / 2 /\ 0 < q.
(** The transfer function of the filter at f is the complex number h. *)
Definition response (ty : eq_type) (fs f0 g q f : R) (h : C) : Prop :=
  get_transfer_function (biquad_filter ty fs f0 g q) fs [f] = Ok [Some h].
(** The linear gain asked for: g decibels. *)
Definition linear (g : R) : R := Rpower 10 (g / 20).
(** The polynomial with coefficients c, highest power first, at z. *)
Definition polyval (c : list R) (z : C) : C := fold_left (fun acc v => cadd (cmul acc z) (rc v)) c (rc 0).

(** ** Auxiliary facts *)
Lemma linear_pos g : 0 < linear g.
Proof. apply exp_pos. Qed.
Lemma half_gain g : Rpower 10 (g / 40) * Rpower 10 (g / 40) = linear g.
Proof. unfold linear. rewrite <- Rpower_plus. f_equal. field. Qed.
Lemma angle0 fs f0 : 0 < f0 < fs / 2 -> 0 < 2 * PI * (f0 / fs) < PI.
Proof.
  intros [H1 H2]. pose proof PI_RGT_0. assert (0 < fs) by lra. assert (0 < f0 / fs) by (apply Rdiv_lt_0_compat; lra).
  assert (f0 / fs < 1 / 2). { apply Rmult_lt_reg_r with fs; auto. unfold Rdiv. rewrite Rmult_assoc, Rinv_l; lra. }
  nra.
Qed.
Lemma angle1 fs f : 0 < fs -> 0 <= f <= fs / 2 -> 0 <= 2 * PI * f / fs <= PI.
Proof.
  intros HF [H1 H2]. pose proof PI_RGT_0. assert (0 <= f / fs) by (apply Rmult_le_pos; [lra|apply Rlt_le, Rinv_0_lt_compat; lra]).
  assert (f / fs <= 1 / 2). { apply Rmult_le_reg_r with fs; auto. unfold Rdiv. rewrite Rmult_assoc, Rinv_l; lra. }
  unfold Rdiv in *. rewrite Rmult_assoc. nra.
Qed.
Lemma trig_facts om : 0 < om < PI -> 0 < sin om /\ -1 < cos om < 1 /\ sin om * sin om = 1 - cos om * cos om /\
  0 < 1 / tan (om / 2) /\ (1 / tan (om / 2)) * (1 / tan (om / 2)) * (1 - cos om) = 1 + cos om.
Proof.
  intros H. assert (S : 0 < sin om) by (apply sin_gt_0; lra).
  pose proof (sin2_cos2 om) as E. unfold Rsqr in E. assert (C : -1 < cos om < 1) by nra.
  assert (S2 : 0 < sin (om / 2)) by (apply sin_gt_0; lra). assert (C2 : 0 < cos (om / 2)) by (apply cos_gt_0; lra).
  split; [auto|]. split; [auto|]. split; [lra|].
  assert (T : 1 / tan (om / 2) = cos (om / 2) / sin (om / 2)) by (unfold tan; field; split; lra).
  rewrite T. split. { now apply Rdiv_lt_0_compat. }
  assert (EC : cos om = cos (om / 2) * cos (om / 2) - sin (om / 2) * sin (om / 2)).
  { replace om with (2 * (om / 2)) at 1 by field. apply cos_2a. }
  pose proof (sin2_cos2 (om / 2)) as E2. unfold Rsqr in E2. rewrite EC.
  replace (1 - (cos (om / 2) * cos (om / 2) - sin (om / 2) * sin (om / 2))) with (2 * (sin (om / 2) * sin (om / 2))) by lra.
  replace (1 + (cos (om / 2) * cos (om / 2) - sin (om / 2) * sin (om / 2))) with (2 * (cos (om / 2) * cos (om / 2))) by lra.
  field. lra.
Qed.
Lemma jury_simple a c : 0 < a -> -1 < c < 1 -> jury (1 + a) (-2 * c) (1 - a).
Proof. intros. unfold jury. repeat split; try lra. apply Rabs_def1; lra. Qed.
Lemma jury_first K : 0 < K -> jury (1 + K) (1 - K) 0.
Proof. intros. unfold jury. rewrite Rabs_R0. repeat split; lra. Qed.
Lemma jury_shelf A c al : 0 < A -> 0 < al -> -1 < c < 1 ->
  jury ((A + 1) + (A - 1) * c + 2 * sqrt A * al) (-2 * ((A - 1) + (A + 1) * c)) ((A + 1) + (A - 1) * c - 2 * sqrt A * al) /\
  jury ((A + 1) - (A - 1) * c + 2 * sqrt A * al) (2 * ((A - 1) - (A + 1) * c)) ((A + 1) - (A - 1) * c - 2 * sqrt A * al).
Proof.
  intros HA Hal Hc. assert (P : 0 < 2 * sqrt A * al). { apply Rmult_lt_0_compat; auto. apply Rmult_lt_0_compat; [lra|]. now apply sqrt_lt_R0. }
  set (e := 2 * sqrt A * al) in *.
  assert (P1 : 0 < (A + 1) + (A - 1) * c) by nra. assert (P2 : 0 < (A + 1) - (A - 1) * c) by nra.
  unfold jury. repeat split; try (apply Rabs_def1; lra); nra.
Qed.
Lemma coeffs3 ty fs f0 g q : design fs f0 q -> exists b0 b1 b2 a0 a1 a2,
  biquad_coefficients ty fs f0 g q = ([b0; b1; b2], [a0; a1; a2]) /\ jury a0 a1 a2.
Proof.
  intros [HF HQ]. destruct (trig_facts _ (angle0 _ _ HF)) as (S & C & _ & K & _).
  assert (P : 0 < sin (2 * PI * (f0 / fs)) / (2 * q)) by (apply Rdiv_lt_0_compat; lra).
  assert (PG : 0 < bq_gain ty g) by (destruct ty; apply exp_pos).
  destruct ty; unfold biquad_coefficients; do 6 eexists; (split; [reflexivity|]);
    try (apply jury_simple; auto; fail); try (apply jury_first; auto; fail); try (apply jury_shelf; auto; fail).
  - apply jury_simple; auto. now apply Rdiv_lt_0_compat.
  - unfold jury. rewrite Rabs_R0. lra.
Qed.
Lemma num3_nonzero a0 a1 a2 th : jury a0 a1 a2 -> 0 < cabs2 (num3 a0 a1 a2 th).
Proof.
  intros J. destruct (Req_dec (cabs2 (num3 a0 a1 a2 th)) 0) as [E|N]; [|pose proof (cabs2_pos (num3 a0 a1 a2 th)); lra].
  apply c_norm_zero in E. exfalso.
  assert (Q : quad a0 a1 a2 (cis th) = rc 0).
  { transitivity (cmul (cis th) (num3 a0 a1 a2 th)).
    - unfold quad, num3, cis, cmul, cadd, rc. pose proof (sin2_cos2 th) as S. unfold Rsqr in S.
      set (c := cos th) in *. set (s := sin th) in *. apply c_ext; simpl.
      + replace a2 with (a2 * (s * s + c * c)) at 1 by (rewrite S; ring). ring.
      + ring.
    - rewrite E. apply c_ext; simpl; ring. }
  apply (jury_poles _ _ _ _ J) in Q. unfold cabs in Q. rewrite cabs2_cis, sqrt_1 in Q. lra.
Qed.
Lemma resp_ex ty fs f0 g q f b0 b1 b2 a0 a1 a2 : biquad_coefficients ty fs f0 g q = ([b0; b1; b2], [a0; a1; a2]) -> jury a0 a1 a2 ->
  f <= fs / 2 -> exists h, response ty fs f0 g q f h /\
    cmul h (num3 a0 a1 a2 (2 * PI * f / fs)) = num3 b0 b1 b2 (2 * PI * f / fs).
Proof.
  intros E J Hf. pose proof (jury_a0 _ _ _ J). pose proof (num3_nonzero _ _ _ (2 * PI * f / fs) J) as N.
  destruct (freqz3 b0 b1 b2 a0 a1 a2 (2 * PI * f / fs)) as (h & Eh & M); try lra.
  exists h. split; auto. unfold response, get_transfer_function, biquad_filter. rewrite E. cbn [fold_left].
  destruct (Rle_dec f (fs / 2)); [|contradiction]. cbn [map]. now rewrite Eh.
Qed.
Lemma resp_fun ty fs f0 g q f h h' : response ty fs f0 g q f h -> response ty fs f0 g q f h' -> h = h'.
Proof. unfold response. intros H H'. rewrite H in H'. congruence. Qed.
(** What every claim below starts from. *)
Lemma resp_num ty fs f0 g q f h b0 b1 b2 a0 a1 a2 : design fs f0 q -> biquad_coefficients ty fs f0 g q = ([b0; b1; b2], [a0; a1; a2]) ->
  0 <= f <= fs / 2 -> response ty fs f0 g q f h ->
  cmul h (num3 a0 a1 a2 (2 * PI * f / fs)) = num3 b0 b1 b2 (2 * PI * f / fs) /\ 0 < cabs2 (num3 a0 a1 a2 (2 * PI * f / fs)).
Proof.
  intros D E Hf R. destruct (coeffs3 ty fs f0 g q D) as (? & ? & ? & ? & ? & ? & E' & J). rewrite E in E'. injection E'; intros; subst.
  split; [|now apply num3_nonzero]. destruct (resp_ex _ _ _ _ _ f _ _ _ _ _ _ E J) as (h' & R' & M). lra.
  now rewrite (resp_fun _ _ _ _ _ _ _ _ R R').
Qed.
(** Reading a value or a magnitude off numerator and denominator. *)
Lemma read_value h n d : 0 < cabs2 d -> cmul h d = n -> forall v, cmul v d = n -> h = v.
Proof.
  intros P E v Ev. assert (Z : cmul (csub h v) d = rc 0).
  { transitivity (csub (cmul h d) (cmul v d)). apply c_ext; simpl; ring. rewrite E, Ev. apply c_ext; simpl; ring. }
  apply (f_equal cabs2) in Z. rewrite cabs2_mul in Z. unfold cabs2 at 3 in Z. simpl in Z.
  assert (Z0 : cabs2 (csub h v) = 0). { destruct (Rmult_integral (cabs2 (csub h v)) (cabs2 d)); lra. }
  apply c_norm_zero in Z0. apply (f_equal fst) in Z0 as Z1. apply (f_equal snd) in Z0 as Z2. simpl in Z1, Z2. apply c_ext; lra.
Qed.
Lemma read_mag h n d : cmul h d = n -> cabs2 h * cabs2 d = cabs2 n.
Proof. intros <-. symmetry. apply cabs2_mul. Qed.
Lemma mag_le h d m : 0 < cabs2 d -> 0 <= m -> cabs2 h * cabs2 d <= m * m * cabs2 d -> cabs h <= m.
Proof. intros P M L. apply cabs_le; auto. now apply Rmult_le_reg_r with (cabs2 d). Qed.
Lemma mag_ge h d m : 0 < cabs2 d -> 0 <= m -> m * m * cabs2 d <= cabs2 h * cabs2 d -> m <= cabs h.
Proof. intros P M L. apply cabs_ge; auto. now apply Rmult_le_reg_r with (cabs2 d). Qed.
Lemma mag_eq h d m : 0 < cabs2 d -> 0 <= m -> cabs2 h * cabs2 d = m * m * cabs2 d -> cabs h = m.
Proof. intros P M L. apply cabs_eq; auto. apply Rmult_eq_reg_r with (cabs2 d); auto. lra. Qed.

Definition om0 (fs f0 : R) := 2 * PI * (f0 / fs).
Lemma om_f0 fs f0 : 2 * PI * f0 / fs = om0 fs f0.
Proof. unfold om0, Rdiv. ring. Qed.
Lemma om_dc fs : 2 * PI * 0 / fs = 0.
Proof. unfold Rdiv. ring. Qed.
Lemma om_ny fs : 0 < fs -> 2 * PI * (fs / 2) / fs = PI.
Proof. intros. field. lra. Qed.
Lemma design_fs fs f0 q : design fs f0 q -> 0 < fs.
Proof. intros [[? ?] _]. lra. Qed.

(** ** Every frequency vector up to half the sampling rate has a response, taken point by point *)
Theorem C55_pointwise ty fs f0 g q freqs : design fs f0 q -> freqs <> [] -> Forall (fun f => f <= fs / 2) freqs ->
  exists hs, get_transfer_function (biquad_filter ty fs f0 g q) fs freqs = Ok (map Some hs) /\
    Forall2 (response ty fs f0 g q) freqs hs.
Proof.
  intros D N F. destruct (coeffs3 ty fs f0 g q D) as (b0 & b1 & b2 & a0 & a1 & a2 & E & J).
  assert (G : exists hs, map (fun f => freqz1 (fst (biquad_filter ty fs f0 g q)) (snd (biquad_filter ty fs f0 g q)) (2 * PI * f / fs)) freqs = map Some hs /\
    Forall2 (response ty fs f0 g q) freqs hs).
  { clear N. induction F as [|f t Hf Ht (hs & IH1 & IH2)]. exists []. split; [reflexivity|constructor].
    destruct (resp_ex _ _ _ _ _ f _ _ _ _ _ _ E J Hf) as (h & R & _). exists (h :: hs). split; [|now constructor].
    cbn [map]. rewrite IH1. f_equal. unfold response, get_transfer_function in R. destruct (Rle_dec _ _); [|discriminate R].
    cbn [map] in R. congruence. }
  destruct G as (hs & G1 & G2). exists hs. split; auto. unfold get_transfer_function. destruct freqs as [|f t]; [congruence|].
  assert (M : fold_left Rmax t f <= fs / 2).
  { clear G1 G2 N. inversion F as [|? ? H1 H2]; subst. revert f F H1. induction H2 as [|x l Hx Hl IH]; intros f F H1; cbn [fold_left]; auto.
    apply IH; [|now apply Rmax_lub]. constructor; [now apply Rmax_lub|auto]. }
  destruct (Rle_dec _ _); [|contradiction]. now rewrite G1.
Qed.
Print Assumptions C55_pointwise.
Example C55_pointwise_example : design 48000 1000 2 /\ Forall (fun f => f <= 48000 / 2) [0; 1000; 24000].
Proof. split. unfold design; lra. repeat constructor; lra. Qed.

(** ** Poles inside the unit circle, bounded output for bounded input *)
Theorem C55_stable ty fs f0 g q : design fs f0 q ->
  forall z, polyval (snd (biquad_filter ty fs f0 g q)) z = rc 0 -> cabs z < 1.
Proof.
  intros D z. destruct (coeffs3 ty fs f0 g q D) as (b0 & b1 & b2 & a0 & a1 & a2 & E & J). pose proof (jury_a0 _ _ _ J) as P0.
  unfold biquad_filter. rewrite E. destruct (set_ba3 b0 b1 b2 a0 a1 a2) as [->|(-> & -> & ->)]; [lra| |]; cbn [snd].
  - intros Z. apply (jury_poles a0 a1 a2 z J). rewrite <- Z. unfold polyval, quad. cbn [fold_left]. apply c_ext; simpl; ring.
  - intros Z. exfalso. unfold polyval in Z. cbn [fold_left] in Z. apply (f_equal fst) in Z. simpl in Z.
    assert (a0 / a0 = 1) by (field; lra). lra.
Qed.
Print Assumptions C55_stable.

(** One constant bounds every output by the largest input, whatever the length of the input. *)
Theorem C55_bounded ty fs f0 g q : design fs f0 q -> exists B, forall x M, Forall (fun v => Rabs v <= M) x ->
  exists y, lfilter_rest (biquad_filter ty fs f0 g q) x = Ok y /\ length y = length x /\ Forall (fun v => Rabs v <= B * M) y.
Proof.
  intros D. destruct (coeffs3 ty fs f0 g q D) as (b0 & b1 & b2 & a0 & a1 & a2 & E & J). pose proof (jury_a0 _ _ _ J) as P0.
  destruct (second_order_bound a0 a1 a2 J) as (B & PB & HB). exists (B * (Rabs b0 + Rabs b1 + Rabs b2)).
  intros x M HM. unfold biquad_filter. rewrite E. destruct (lfilter_rest3 b0 b1 b2 a0 a1 a2 x) as (y & Ey & L & DE). lra.
  exists y. split; auto. split; auto. destruct x as [|x0 xt]. { destruct y; [constructor|discriminate L]. }
  assert (PM : 0 <= M). { inversion HM; subst. pose proof (Rabs_pos x0). lra. }
  set (xx := x0 :: xt) in *. clearbody xx.
  assert (GX : forall k, Rabs (get xx k) <= M).
  { intros k. destruct (Nat.lt_ge_cases k (length xx)) as [H|H].
    - rewrite Forall_forall in HM. apply HM. unfold get. now apply nth_In.
    - rewrite (get_out (HA := CRing_R)) by auto. simpl. rewrite Rabs_R0. auto. }
  assert (P1 : forall k, Rabs (prev 0 (get xx) k) <= M) by (intros [|k]; simpl; [now rewrite Rabs_R0|apply GX]).
  assert (P2 : forall k, Rabs (prev 0 (prev 0 (get xx)) k) <= M) by (intros [|k]; simpl; [now rewrite Rabs_R0|apply P1]).
  pose proof (HB (get y) (fun n => conv [b0; b1; b2] xx n) (length xx) ((Rabs b0 + Rabs b1 + Rabs b2) * M)) as G.
  rewrite Forall_forall. intros v Hv. apply (In_nth _ _ 0) in Hv. destruct Hv as (n & Hn & <-). rewrite L in Hn.
  rewrite Rmult_assoc. apply G; auto.
  - apply Rmult_le_pos; auto. pose proof (Rabs_pos b0). pose proof (Rabs_pos b1). pose proof (Rabs_pos b2). lra.
  - intros k Hk. rewrite <- conv3. now apply DE.
  - intros k Hk. rewrite conv3. specialize (GX k). specialize (P1 k). specialize (P2 k).
    eapply Rle_trans. apply Rabs_triang. eapply Rle_trans. apply Rplus_le_compat_r. apply Rabs_triang. rewrite !Rabs_mult.
    pose proof (Rabs_pos b0). pose proof (Rabs_pos b1). pose proof (Rabs_pos b2). nra.
Qed.
Print Assumptions C55_bounded.
Example C55_stable_example : design 44100 22049 (1/100).
Proof. unfold design. lra. Qed.

(** ** Gains *)
(** Everything at f comes from its cosine and sine. *)
Tactic Notation "start" hyp(H) ident(N) ident(P) :=
  match type of H with response ?ty ?fs ?f0 ?g ?q ?f ?h =>
    destruct (resp_num ty fs f0 g q f h _ _ _ _ _ _ ltac:(eassumption) eq_refl ltac:(eassumption || lra) H) as [N P];
    fold (om0 fs f0) in N, P; cbv [bq_gain] in N, P
  end.
Lemma in_range fs f0 q : design fs f0 q -> 0 <= f0 <= fs / 2.
Proof. intros [[? ?] _]. lra. Qed.
Lemma dc_range fs f0 q : design fs f0 q -> 0 <= 0 <= fs / 2.
Proof. intros [[? ?] _]. lra. Qed.
Lemma ny_range fs f0 q : design fs f0 q -> 0 <= fs / 2 <= fs / 2.
Proof. intros [[? ?] _]. lra. Qed.
Lemma facts0 fs f0 q : design fs f0 q -> 0 < sin (om0 fs f0) /\ -1 < cos (om0 fs f0) < 1 /\
  sin (om0 fs f0) * sin (om0 fs f0) = 1 - cos (om0 fs f0) * cos (om0 fs f0) /\ 0 < 1 / tan (om0 fs f0 / 2) /\
  1 / tan (om0 fs f0 / 2) * (1 / tan (om0 fs f0 / 2)) * (1 - cos (om0 fs f0)) = 1 + cos (om0 fs f0) /\ 0 < sin (om0 fs f0) / (2 * q) /\
  sin (om0 fs f0) = 2 * q * (sin (om0 fs f0) / (2 * q)).
Proof.
  intros [HF HQ]. destruct (trig_facts _ (angle0 _ _ HF)) as (S & C & E & K & EK). fold (om0 fs f0) in *.
  repeat (split; [assumption|]). split. apply Rdiv_lt_0_compat; lra. field. lra.
Qed.
Lemma sin_range fs f0 q f : design fs f0 q -> 0 <= f <= fs / 2 -> 0 <= sin (2 * PI * f / fs).
Proof. intros D H. destruct (angle1 fs f (design_fs _ _ _ D) H). now apply sin_ge_0. Qed.
Lemma sq1 t : sin t * sin t + cos t * cos t = 1.
Proof. pose proof (sin2_cos2 t) as S. unfold Rsqr in S. lra. Qed.

(** Peaking: the gain asked for at the centre frequency, unity at both ends, and everything else in between. *)
Theorem C55_peaking fs f0 g q f h : design fs f0 q -> 0 <= f <= fs / 2 -> response Peaking fs f0 g q f h ->
  Rmin 1 (linear g) <= cabs h <= Rmax 1 (linear g) /\ (f = f0 -> h = rc (linear g)) /\ (f = 0 \/ f = fs / 2 -> h = rc 1).
Proof.
  intros D Hf H. start H N P. destruct (facts0 _ _ _ D) as (S0 & C0 & E0 & _ & _ & AL & _).
  assert (PA : 0 < Rpower 10 (g / 40)) by apply exp_pos. pose proof (half_gain g) as HG. pose proof (linear_pos g) as LP.
  set (A := Rpower 10 (g / 40)) in *. set (al := sin (om0 fs f0) / (2 * q)) in *. set (c0 := cos (om0 fs f0)) in *.
  pose proof (read_mag _ _ _ N) as MG. repeat split.
  - apply (mag_ge h _ _ P). { apply Rmin_glb; lra. } rewrite MG. unfold cabs2, num3. simpl.
    set (c := cos (2 * PI * f / fs)). set (s := sin (2 * PI * f / fs)).
    replace ((1 + al / A + (1 - al / A)) * c + -2 * c0) with (2 * (c - c0)) by ring.
    replace ((1 + al * A + (1 - al * A)) * c + -2 * c0) with (2 * (c - c0)) by ring.
    replace ((1 + al / A - (1 - al / A)) * s) with (2 * (al / A * s)) by ring.
    replace ((1 + al * A - (1 - al * A)) * s) with (2 * (A * A * (al / A * s))) by (field; lra).
    rewrite HG. set (t := al / A * s). set (G := linear g) in *.
    assert (M1 : Rmin 1 G * Rmin 1 G <= 1). { pose proof (Rmin_l 1 G). assert (0 < Rmin 1 G) by (apply Rmin_glb_lt; lra). nra. }
    assert (M2 : Rmin 1 G * Rmin 1 G <= G * G). { pose proof (Rmin_r 1 G). assert (0 < Rmin 1 G) by (apply Rmin_glb_lt; lra). nra. }
    pose proof (Rle_0_sqr (c - c0)) as Q1. pose proof (Rle_0_sqr t) as Q2. unfold Rsqr in Q1, Q2. nra.
  - apply (mag_le h _ _ P). { eapply Rle_trans; [|apply Rmax_l]. lra. } rewrite MG. unfold cabs2, num3. simpl.
    set (c := cos (2 * PI * f / fs)). set (s := sin (2 * PI * f / fs)).
    replace ((1 + al / A + (1 - al / A)) * c + -2 * c0) with (2 * (c - c0)) by ring.
    replace ((1 + al * A + (1 - al * A)) * c + -2 * c0) with (2 * (c - c0)) by ring.
    replace ((1 + al / A - (1 - al / A)) * s) with (2 * (al / A * s)) by ring.
    replace ((1 + al * A - (1 - al * A)) * s) with (2 * (A * A * (al / A * s))) by (field; lra).
    rewrite HG. set (t := al / A * s). set (G := linear g) in *.
    assert (M1 : 1 <= Rmax 1 G * Rmax 1 G). { pose proof (Rmax_l 1 G). nra. }
    assert (M2 : G * G <= Rmax 1 G * Rmax 1 G). { pose proof (Rmax_r 1 G). nra. }
    pose proof (Rle_0_sqr (c - c0)) as Q1. pose proof (Rle_0_sqr t) as Q2. unfold Rsqr in Q1, Q2. nra.
  - intros ->. apply (read_value _ _ _ P N). rewrite om_f0. rewrite <- HG. unfold num3, cmul, rc. fold c0. apply c_ext; simpl; field; lra.
  - intros [->| ->]; apply (read_value _ _ _ P N); [rewrite om_dc|rewrite (om_ny _ (design_fs _ _ _ D))];
      unfold num3, cmul, rc; rewrite ?cos_0, ?sin_0, ?cos_PI, ?sin_PI; apply c_ext; simpl; ring.
Qed.
Print Assumptions C55_peaking.

(** Low and high pass: the gain asked for in the pass band end, zero at the other, q times the gain at the corner. *)
Theorem C55_lowpass fs f0 g q f h : design fs f0 q -> 0 <= f <= fs / 2 -> response Lowpass fs f0 g q f h ->
  (f = 0 -> h = rc (linear g)) /\ (f = fs / 2 -> h = rc 0) /\ (f = f0 -> h = (0, - (q * linear g))).
Proof.
  intros D Hf H. start H N P. destruct (facts0 _ _ _ D) as (S0 & C0 & E0 & _ & _ & AL & SQ). fold (linear g) in *.
  set (A := linear g) in *. set (al := sin (om0 fs f0) / (2 * q)) in *. set (c0 := cos (om0 fs f0)) in *. set (s0 := sin (om0 fs f0)) in *.
  repeat split; intros ->; apply (read_value _ _ _ P N).
  - rewrite om_dc. unfold num3, cmul, rc. rewrite cos_0, sin_0. apply c_ext; simpl; field.
  - rewrite (om_ny _ (design_fs _ _ _ D)). unfold num3, cmul, rc. rewrite cos_PI, sin_PI. apply c_ext; simpl; field.
  - rewrite om_f0. unfold num3, cmul. fold c0 s0. apply c_ext; simpl; [|ring].
    replace ((0 * ((1 + al + (1 - al)) * c0 + -2 * c0) - - (q * A) * ((1 + al - (1 - al)) * s0))) with (A * ((2 * q * al) * s0)) by ring.
    rewrite <- SQ, E0. field.
Qed.
Print Assumptions C55_lowpass.
Theorem C55_highpass fs f0 g q f h : design fs f0 q -> 0 <= f <= fs / 2 -> response Highpass fs f0 g q f h ->
  (f = 0 -> h = rc 0) /\ (f = fs / 2 -> h = rc (linear g)) /\ (f = f0 -> h = (0, q * linear g)).
Proof.
  intros D Hf H. start H N P. destruct (facts0 _ _ _ D) as (S0 & C0 & E0 & _ & _ & AL & SQ). fold (linear g) in *.
  set (A := linear g) in *. set (al := sin (om0 fs f0) / (2 * q)) in *. set (c0 := cos (om0 fs f0)) in *. set (s0 := sin (om0 fs f0)) in *.
  repeat split; intros ->; apply (read_value _ _ _ P N).
  - rewrite om_dc. unfold num3, cmul, rc. rewrite cos_0, sin_0. apply c_ext; simpl; field.
  - rewrite (om_ny _ (design_fs _ _ _ D)). unfold num3, cmul, rc. rewrite cos_PI, sin_PI. apply c_ext; simpl; field.
  - rewrite om_f0. unfold num3, cmul. fold c0 s0. apply c_ext; simpl; [|ring].
    replace ((0 * ((1 + al + (1 - al)) * c0 + -2 * c0) - q * A * ((1 + al - (1 - al)) * s0))) with (- (A * ((2 * q * al) * s0))) by ring.
    rewrite <- SQ, E0. field.
Qed.
Print Assumptions C55_highpass.

(** Band passes: zero at both ends, largest at the centre frequency. *)
Theorem C55_bandpass fs f0 g q f h ty : design fs f0 q -> 0 <= f <= fs / 2 -> ty = BandpassSkirt \/ ty = BandpassPeak ->
  response ty fs f0 g q f h ->
  let top := match ty with BandpassSkirt => q * linear g | _ => linear g end in
  (f = 0 \/ f = fs / 2 -> h = rc 0) /\ (f = f0 -> h = rc top) /\ cabs h <= top.
Proof.
  intros D Hf T H. pose proof (linear_pos g) as LP. assert (PQ : 0 < q) by apply D.
  destruct (facts0 _ _ _ D) as (S0 & C0 & E0 & _ & _ & AL & SQ).
  destruct T as [-> | ->]; cbv zeta; start H N P; fold (linear g) in *; set (A := linear g) in *;
    set (al := sin (om0 fs f0) / (2 * q)) in *; set (c0 := cos (om0 fs f0)) in *; set (s0 := sin (om0 fs f0)) in *; repeat split.
  - intros [->| ->]; apply (read_value _ _ _ P N); [rewrite om_dc|rewrite (om_ny _ (design_fs _ _ _ D))];
      unfold num3, cmul, rc; rewrite ?cos_0, ?sin_0, ?cos_PI, ?sin_PI; apply c_ext; simpl; ring.
  - intros ->. apply (read_value _ _ _ P N). rewrite om_f0. unfold num3, cmul, rc. fold c0 s0. apply c_ext; simpl; [field|].
    transitivity (2 * q * al * A * s0); [ring|]. rewrite <- SQ. field.
  - apply (mag_le h _ _ P). nra. rewrite (read_mag _ _ _ N). unfold cabs2, num3. simpl. set (c := cos (2 * PI * f / fs)). set (s := sin (2 * PI * f / fs)).
    replace ((s0 / 2 * A - - (s0 / 2 * A)) * s) with (s0 * A * s) by field. rewrite SQ.
    pose proof (Rle_0_sqr (q * A * (c - c0))) as Q1. unfold Rsqr in Q1. nra.
  - intros [->| ->]; apply (read_value _ _ _ P N); [rewrite om_dc|rewrite (om_ny _ (design_fs _ _ _ D))];
      unfold num3, cmul, rc; rewrite ?cos_0, ?sin_0, ?cos_PI, ?sin_PI; apply c_ext; simpl; ring.
  - intros ->. apply (read_value _ _ _ P N). rewrite om_f0. unfold num3, cmul, rc. fold c0 s0. apply c_ext; simpl; field.
  - apply (mag_le h _ _ P). lra. rewrite (read_mag _ _ _ N). unfold cabs2, num3. simpl. set (c := cos (2 * PI * f / fs)). set (s := sin (2 * PI * f / fs)).
    pose proof (Rle_0_sqr (A * (c - c0))) as Q1. unfold Rsqr in Q1. nra.
Qed.
Print Assumptions C55_bandpass.

(** Notch: nothing at the centre frequency, the gain asked for at both ends and never more. *)
Theorem C55_notch fs f0 g q f h : design fs f0 q -> 0 <= f <= fs / 2 -> response Notch fs f0 g q f h ->
  (f = f0 -> h = rc 0) /\ (f = 0 \/ f = fs / 2 -> h = rc (linear g)) /\ cabs h <= linear g.
Proof.
  intros D Hf H. start H N P. pose proof (linear_pos g) as LP. fold (linear g) in *.
  set (A := linear g) in *. set (al := sin (om0 fs f0) / (2 * q)) in *. set (c0 := cos (om0 fs f0)) in *. repeat split.
  - intros ->. apply (read_value _ _ _ P N). rewrite om_f0. unfold num3, cmul, rc. fold c0. apply c_ext; simpl; ring.
  - intros [->| ->]; apply (read_value _ _ _ P N); [rewrite om_dc|rewrite (om_ny _ (design_fs _ _ _ D))];
      unfold num3, cmul, rc; rewrite ?cos_0, ?sin_0, ?cos_PI, ?sin_PI; apply c_ext; simpl; ring.
  - apply (mag_le h _ _ P). lra. rewrite (read_mag _ _ _ N). unfold cabs2, num3. simpl. set (c := cos (2 * PI * f / fs)). set (s := sin (2 * PI * f / fs)).
    pose proof (Rle_0_sqr (A * al * s)) as Q1. unfold Rsqr in Q1. nra.
Qed.
Print Assumptions C55_notch.

(** All passes: the same magnitude at every frequency. *)
Theorem C55_allpass ty fs f0 g q f h : design fs f0 q -> 0 <= f <= fs / 2 -> ty = Allpass \/ ty = AllpassFirstOrder ->
  response ty fs f0 g q f h -> cabs h = linear g.
Proof.
  intros D Hf T H. pose proof (linear_pos g) as LP. destruct T as [-> | ->]; start H N P; fold (linear g) in *;
    apply (mag_eq h _ _ P); try lra; rewrite (read_mag _ _ _ N); unfold cabs2, num3; simpl.
  - ring.
  - fold (om0 fs f0). pose proof (sq1 (2 * PI * f / fs)) as Q. set (K := 1 / tan (om0 fs f0 / 2)). set (c := cos (2 * PI * f / fs)) in *. set (s := sin (2 * PI * f / fs)) in *.
    set (A := linear g) in *. replace (((1 - K) * A + 0) * c + (1 + K) * A) with (A * ((1 - K) * c + (1 + K))) by ring.
    replace (((1 - K) * A - 0) * s) with (A * ((1 - K) * s)) by ring.
    assert (X : ((1 - K) * c + (1 + K)) * ((1 - K) * c + (1 + K)) + ((1 - K) * s) * ((1 - K) * s) =
                ((1 + K + 0) * c + (1 - K)) * ((1 + K + 0) * c + (1 - K)) + ((1 + K - 0) * s) * ((1 + K - 0) * s)).
    { replace (((1 - K) * c + (1 + K)) * ((1 - K) * c + (1 + K)) + ((1 - K) * s) * ((1 - K) * s)) with
        ((1 - K) * (1 - K) * (s * s + c * c) + 2 * (1 - K) * (1 + K) * c + (1 + K) * (1 + K)) by ring.
      replace (((1 + K + 0) * c + (1 - K)) * ((1 + K + 0) * c + (1 - K)) + ((1 + K - 0) * s) * ((1 + K - 0) * s)) with
        ((1 + K) * (1 + K) * (s * s + c * c) + 2 * (1 - K) * (1 + K) * c + (1 - K) * (1 - K)) by ring. rewrite Q. ring. }
    rewrite <- X. ring.
Qed.
Print Assumptions C55_allpass.

(** Shelves: the gain asked for on the shelf, unity on the other side, half of it (in dB) at the frequency. *)
Theorem C55_shelf ty fs f0 g q f h : design fs f0 q -> 0 <= f <= fs / 2 -> ty = Lowshelf \/ ty = Highshelf ->
  response ty fs f0 g q f h ->
  (f = match ty with Lowshelf => 0 | _ => fs / 2 end -> h = rc (linear g)) /\
  (f = match ty with Lowshelf => fs / 2 | _ => 0 end -> h = rc 1) /\
  (f = f0 -> cabs h = linear (g / 2)).
Proof.
  intros D Hf T H. pose proof (half_gain g) as HG. assert (PA : 0 < Rpower 10 (g / 40)) by apply exp_pos.
  assert (HH : linear (g / 2) = Rpower 10 (g / 40)) by (unfold linear; f_equal; field). rewrite HH, <- HG.
  pose proof (design_fs _ _ _ D) as PF. destruct (facts0 _ _ _ D) as (S0 & C0 & E0 & _).
  destruct T as [-> | ->]; start H N P; set (A := Rpower 10 (g / 40)) in *; set (al := sin (om0 fs f0) / (2 * q)) in *;
    set (e := 2 * sqrt A * al) in *; set (c0 := cos (om0 fs f0)) in *; set (s0 := sin (om0 fs f0)) in *; repeat split; intros ->.
  - apply (read_value _ _ _ P N). rewrite om_dc. unfold num3, cmul, rc. rewrite cos_0, sin_0. apply c_ext; simpl; ring.
  - apply (read_value _ _ _ P N). rewrite om_ny by auto. unfold num3, cmul, rc. rewrite cos_PI, sin_PI. apply c_ext; simpl; ring.
  - apply (mag_eq h _ _ P). lra. rewrite (read_mag _ _ _ N). rewrite om_f0. unfold cabs2, num3. simpl. fold c0 s0. ring.
  - apply (read_value _ _ _ P N). rewrite om_ny by auto. unfold num3, cmul, rc. rewrite cos_PI, sin_PI. apply c_ext; simpl; ring.
  - apply (read_value _ _ _ P N). rewrite om_dc. unfold num3, cmul, rc. rewrite cos_0, sin_0. apply c_ext; simpl; ring.
  - apply (mag_eq h _ _ P). lra. rewrite (read_mag _ _ _ N). rewrite om_f0. unfold cabs2, num3. simpl. fold c0 s0. ring.
Qed.
Print Assumptions C55_shelf.

(** First-order passes: the gain in the pass band end, zero at the other, 3 dB less (half the power) at the frequency, and
    never more than the gain asked for. *)
Theorem C55_first_order ty fs f0 g q f h : design fs f0 q -> 0 <= f <= fs / 2 -> ty = LowpassFirstOrder \/ ty = HighpassFirstOrder ->
  response ty fs f0 g q f h ->
  (f = match ty with LowpassFirstOrder => 0 | _ => fs / 2 end -> h = rc (linear g)) /\
  (f = match ty with LowpassFirstOrder => fs / 2 | _ => 0 end -> h = rc 0) /\
  (f = f0 -> cabs h = linear g / sqrt 2) /\ cabs h <= linear g.
Proof.
  intros D Hf T H. pose proof (linear_pos g) as LP. pose proof (design_fs _ _ _ D) as PF.
  destruct (facts0 _ _ _ D) as (S0 & C0 & E0 & PK & EK & _).
  assert (HS : linear g / sqrt 2 * (linear g / sqrt 2) = linear g * linear g / 2).
  { assert (0 < sqrt 2) by (apply sqrt_lt_R0; lra). assert (Q : sqrt 2 * sqrt 2 = 2) by (apply sqrt_sqrt; lra).
    transitivity (linear g * linear g / (sqrt 2 * sqrt 2)). field; lra. now rewrite Q. }
  assert (HP : 0 <= linear g / sqrt 2) by (apply Rlt_le, Rdiv_lt_0_compat; [auto|apply sqrt_lt_R0; lra]).
  pose proof (sq1 (2 * PI * f / fs)) as Q. pose proof (COS_bound (2 * PI * f / fs)) as CB.
  destruct T as [-> | ->]; start H N P; fold (linear g) in *; set (A := linear g) in *; fold (om0 fs f0) in *;
    set (K := 1 / tan (om0 fs f0 / 2)) in *.
  - assert (DD : cabs2 (num3 (1 + K) (1 - K) 0 (2 * PI * f / fs)) = 2 * (1 + cos (2 * PI * f / fs)) + 2 * (K * K * (1 - cos (2 * PI * f / fs)))).
    { unfold cabs2, num3. simpl. set (c := cos (2 * PI * f / fs)) in *. set (s := sin (2 * PI * f / fs)) in *.
      transitivity ((1 + K) * (1 + K) * (s * s + c * c) + 2 * (1 + K) * (1 - K) * c + (1 - K) * (1 - K)); [ring|]. rewrite Q. ring. }
    assert (NN : cabs2 (num3 A A 0 (2 * PI * f / fs)) = A * A * (2 * (1 + cos (2 * PI * f / fs)))).
    { unfold cabs2, num3. simpl. set (c := cos (2 * PI * f / fs)) in *. set (s := sin (2 * PI * f / fs)) in *.
      transitivity (A * A * ((s * s + c * c) + 2 * c + 1)); [ring|]. rewrite Q. ring. }
    repeat split.
    + intros ->. apply (read_value _ _ _ P N). rewrite om_dc. unfold num3, cmul, rc. rewrite cos_0, sin_0. apply c_ext; simpl; ring.
    + intros ->. apply (read_value _ _ _ P N). rewrite om_ny by auto. unfold num3, cmul, rc. rewrite cos_PI, sin_PI. apply c_ext; simpl; ring.
    + intros ->. apply (mag_eq h _ _ P); auto. rewrite (read_mag _ _ _ N), NN, DD, om_f0, EK, HS. field.
    + apply (mag_le h _ _ P). lra. rewrite (read_mag _ _ _ N), NN, DD. assert (0 <= K * K * (1 - cos (2 * PI * f / fs))) by (apply Rmult_le_pos; nra).
      assert (0 <= A * A) by nra. nra.
  - assert (DD : cabs2 (num3 (1 + K) (1 - K) 0 (2 * PI * f / fs)) = 2 * (1 + cos (2 * PI * f / fs)) + 2 * (K * K * (1 - cos (2 * PI * f / fs)))).
    { unfold cabs2, num3. simpl. set (c := cos (2 * PI * f / fs)) in *. set (s := sin (2 * PI * f / fs)) in *.
      transitivity ((1 + K) * (1 + K) * (s * s + c * c) + 2 * (1 + K) * (1 - K) * c + (1 - K) * (1 - K)); [ring|]. rewrite Q. ring. }
    assert (NN : cabs2 (num3 (K * A) (- K * A) 0 (2 * PI * f / fs)) = A * A * (2 * (K * K * (1 - cos (2 * PI * f / fs))))).
    { unfold cabs2, num3. simpl. set (c := cos (2 * PI * f / fs)) in *. set (s := sin (2 * PI * f / fs)) in *.
      transitivity (A * A * (K * K) * ((s * s + c * c) - 2 * c + 1)); [ring|]. rewrite Q. ring. }
    repeat split.
    + intros ->. apply (read_value _ _ _ P N). rewrite om_ny by auto. unfold num3, cmul, rc. rewrite cos_PI, sin_PI. apply c_ext; simpl; ring.
    + intros ->. apply (read_value _ _ _ P N). rewrite om_dc. unfold num3, cmul, rc. rewrite cos_0, sin_0. apply c_ext; simpl; ring.
    + intros ->. apply (mag_eq h _ _ P); auto. rewrite (read_mag _ _ _ N), NN, DD, om_f0, EK, HS. field.
    + apply (mag_le h _ _ P). lra. rewrite (read_mag _ _ _ N), NN, DD. assert (0 <= K * K * (1 - cos (2 * PI * f / fs))) by (apply Rmult_le_pos; nra).
      assert (0 <= A * A) by nra. nra.
Qed.
Print Assumptions C55_first_order.

(** A cut undoes the boost of the same size. *)
Theorem C55_cut_undoes_boost ty fs f0 g q f h h' : design fs f0 q -> 0 <= f <= fs / 2 ->
  ty = Peaking \/ ty = Lowshelf \/ ty = Highshelf ->
  response ty fs f0 g q f h -> response ty fs f0 (- g) q f h' -> cmul h h' = rc 1.
Proof.
  intros D Hf T H H'. assert (PA : 0 < Rpower 10 (g / 40)) by apply exp_pos.
  assert (HI : Rpower 10 (- g / 40) = / Rpower 10 (g / 40)) by (unfold Rdiv; rewrite Ropp_mult_distr_l_reverse; apply Rpower_Ropp).
  assert (G : forall d n d' n' k, 0 < cabs2 d -> 0 < cabs2 d' -> k <> 0 -> cmul h d = n -> cmul h' d' = n' -> cmul (rc k) d' = n -> cmul (rc k) n' = d -> cmul h h' = rc 1).
  { intros d n d' n' k Pd Pd' Hk E1 E2 E3 E4. apply (read_value (cmul h h') (cmul (rc k) d') (cmul (rc k) d')).
    - rewrite cabs2_mul. apply Rmult_lt_0_compat; auto. unfold cabs2, rc. simpl. nra.
    - transitivity (cmul h (cmul (rc k) (cmul h' d'))). apply c_ext; simpl; ring. rewrite E2, E4, E1, E3. reflexivity.
    - apply c_ext; simpl; ring. }
  assert (SI : sqrt (/ Rpower 10 (g / 40)) = sqrt (Rpower 10 (g / 40)) / Rpower 10 (g / 40)).
  { rewrite sqrt_inv. assert (0 < sqrt (Rpower 10 (g / 40))) by now apply sqrt_lt_R0.
    rewrite <- (sqrt_sqrt (Rpower 10 (g / 40))) at 3 by lra. field. lra. }
  destruct T as [-> | [-> | ->]]; start H N P; start H' N' P'; rewrite HI in N', P'; rewrite ?SI in N', P'; set (A := Rpower 10 (g / 40)) in *.
  - refine (G _ _ _ _ 1 P P' _ N N' _ _). lra.
    { unfold num3, cmul, rc. destruct D as [? ?]. apply c_ext; simpl; field; repeat split; lra. }
    { unfold num3, cmul, rc. destruct D as [? ?]. apply c_ext; simpl; field; repeat split; lra. }
  - refine (G _ _ _ _ (A * A) P P' _ N N' _ _). nra.
    { unfold num3, cmul, rc. set (r := sqrt A). destruct D as [? ?]. apply c_ext; simpl; field; repeat split; lra. }
    { unfold num3, cmul, rc. set (r := sqrt A). destruct D as [? ?]. apply c_ext; simpl; field; repeat split; lra. }
  - refine (G _ _ _ _ (A * A) P P' _ N N' _ _). nra.
    { unfold num3, cmul, rc. set (r := sqrt A). destruct D as [? ?]. apply c_ext; simpl; field; repeat split; lra. }
    { unfold num3, cmul, rc. set (r := sqrt A). destruct D as [? ?]. apply c_ext; simpl; field; repeat split; lra. }
Qed.
Print Assumptions C55_cut_undoes_boost.

(** The inverter does not invert: every output is the input times the positive gain, and at 0 dB the input itself. *)
Theorem C55_inverter_refuted : forall fs f0 g q x, lfilter_rest (biquad_filter Inverter fs f0 g q) x = Ok (map (fun v => linear g * v) x) /\
  lfilter_rest (biquad_filter Inverter fs f0 0 q) x = Ok x.
Proof.
  assert (G : forall fs f0 g q x, lfilter_rest (biquad_filter Inverter fs f0 g q) x = Ok (map (fun v => linear g * v) x)).
  { intros fs f0 g q x. unfold biquad_filter. cbv [biquad_coefficients bq_gain]. fold (linear g).
    destruct (lfilter_rest3 (linear g) 0 0 1 0 0 x) as (y & -> & L & DE). lra. f_equal. apply (nth_ext _ _ 0 0); rewrite ?map_length; auto.
    intros n Hn. rewrite L in Hn. specialize (DE n Hn). rewrite !conv3 in DE. change (nth n y 0) with (get y n).
    rewrite (nth_indep _ 0 (linear g * 0)) by (rewrite map_length; auto). rewrite (map_nth (fun v => linear g * v)). change (nth n x 0) with (get x n). lra. }
  intros. split; auto. rewrite G. f_equal. rewrite <- (map_id x) at 2. apply map_ext. intros v. unfold linear.
  replace (0 / 20) with 0 by field. rewrite Rpower_O by lra. ring.
Qed.
Print Assumptions C55_inverter_refuted.
Example C55_example : exists h, response Peaking 48000 1000 6 2 1000 h /\ h = rc (linear 6).
Proof.
  assert (D : design 48000 1000 2) by (unfold design; lra).
  destruct (C55_pointwise Peaking 48000 1000 6 2 [1000] D) as (hs & E & F). discriminate. repeat constructor; lra.
  inversion F as [|? h ? l R N]; subst. exists h. split; auto. apply (C55_peaking 48000 1000 6 2 1000 h); auto. lra.
Qed.
