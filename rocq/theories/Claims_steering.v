(** C67: steering vectors. *)
From Coq Require Import List Arith Lia ZArith Bool Reals Lra Psatz.
From Verif Require Import Alg Spec Dft M_arrays M_scaling M_latency M_distances P_ar P_biquad P_parseval Claims_room Claims_tf M_beam Claims_grid.
Import ListNotations.
Local Open Scope R_scope.
Add Ring crcst : (@rth C CRing_C).
Ltac cring := change cmul with (@rmul C CRing_C); change cadd with (@radd C CRing_C); change copp with (@ropp C CRing_C); change csub with (@rsub C CRing_C); ring.

(** ** Specification: the sound field of a monopole *)
Definition green (k : R) (s p : point) : C := cmul (rc (1 / euclid s p)) (cis (- (k * euclid s p))).
Notation mic mics i := (@nth point i mics o3).
(** The pressures at the microphones relative to that at the central microphone. *)
Definition transfer (k : R) (mics : list point) (s : point) (i : nat) : C :=
  cmul (green k s (mic mics i)) (cinv (green k s (mic mics (center mics)))).
(** Output of the beamformer focused on [t] for a source at [s]. *)
Definition response (form : formulation) (k : R) (mics : list point) (t s : point) : C :=
  csum (length mics) (fun i => cmul (cconj (cnth (steering form k mics t) i)) (transfer k mics s i)).
Definition away (mics : list point) (t : point) : Prop := mics <> [] /\ forall i, (i < length mics)%nat -> t <> mic mics i.

(** ** Lemmas *)
Lemma center_lt mics : mics <> [] -> (center mics < length mics)%nat.
Proof. intros N. destruct (C66_nearest_point mics (mean3 mics) N) as (i & E & Hi & _). unfold find_nearest_point in E. destruct mics; [congruence|]. injection E as E _. rewrite <- E in Hi. exact Hi. Qed.
Lemma away_pos mics t i : away mics t -> (i < length mics)%nat -> 0 < dist t (mic mics i).
Proof. intros [_ A] Hi. destruct (Rle_lt_or_eq_dec _ _ (dist_nonneg t (mic mics i))) as [P|Z]; auto. symmetry in Z. apply dist_zero in Z. now apply A in Z. Qed.
Lemma away_ref mics t : away mics t -> 0 < dist t (mic mics (center mics)).
Proof. intros A. apply away_pos; auto. apply center_lt. apply A. Qed.
Lemma cis_abs a : cmul (cconj (cis a)) (cis a) = rc 1.
Proof. rewrite cabs2_conj, cabs2_cis. reflexivity. Qed.
Lemma cinv_green k s p : 0 < dist s p -> cinv (green k s p) = cmul (rc (dist s p)) (cis (k * dist s p)).
Proof.
  intros P. unfold green. rewrite <- dist_euclid. set (r := dist s p) in *. pose proof (cabs2_cis (k * r)) as Q. unfold cabs2, cis in Q. cbn [fst snd] in Q.
  unfold cinv, cmul, rc, cis. cbn [fst snd]. rewrite cos_neg, sin_neg. set (c := cos (k * r)) in *. set (d := sin (k * r)) in *.
  match goal with |- (?a / ?x, ?b / ?y) = _ => assert (E : x = / r * / r * (c * c + d * d)) by (field; lra); try rewrite E; replace y with (/ r * / r * (c * c + d * d)) by (field; lra) end.
  rewrite Q. apply c_ext; cbn [fst snd]; field; lra.
Qed.
Lemma transfer_eq k mics s i : away mics s -> (i < length mics)%nat ->
  transfer k mics s i = cmul (rc (dist s (mic mics (center mics)) / dist s (mic mics i))) (cis (- (k * (dist s (mic mics i) - dist s (mic mics (center mics)))))).
Proof.
  intros A Hi. unfold transfer. rewrite cinv_green by now apply away_ref. unfold green. rewrite <- dist_euclid. pose proof (away_pos _ _ _ A Hi).
  set (r := dist s (mic mics i)) in *. set (q := dist s (mic mics (center mics))). replace (- (k * (r - q))) with (- (k * r) + k * q) by ring. rewrite cis_add.
  replace (q / r) with (1 / r * q) by (field; lra). rewrite rc_mul. cring.
Qed.
Definition amplitude (form : formulation) (mics : list point) (t : point) (i : nat) : R :=
  let N := INR (length mics) in let r := dist t (mic mics i) in let r0 := dist t (mic mics (center mics)) in
  let s := rsum (length mics) (fun j => 1 / (dist (mic mics j) t * dist (mic mics j) t)) in
  match form with Classic => 1 / N | Inverse => r / N / r0 | TruePower => 1 / r0 / r / s | TrueLocation => 1 / r / sqrt (N * s) end.
Lemma steering_eq form k mics t i : (i < length mics)%nat ->
  cnth (steering form k mics t) i = cmul (rc (amplitude form mics t i)) (cis (- (k * (dist t (mic mics i) - dist t (mic mics (center mics)))))).
Proof. intros Hi. unfold cnth, steering. rewrite nth_mk by auto. destruct form; reflexivity. Qed.
Lemma steering_length form k mics t : length (steering form k mics t) = length mics.
Proof. apply mk_length. Qed.
(** With equal phases the response is a real sum. *)
Lemma response_real form k mics t s : away mics s ->
  (forall i, (i < length mics)%nat -> dist t (mic mics i) - dist t (mic mics (center mics)) = dist s (mic mics i) - dist s (mic mics (center mics))) ->
  response form k mics t s = rc (rsum (length mics) (fun i => amplitude form mics t i * (dist s (mic mics (center mics)) / dist s (mic mics i)))).
Proof.
  intros A E. unfold response. rewrite <- csum_rc. apply sum_ext. intros i Hi. rewrite steering_eq, transfer_eq by auto. rewrite (E i Hi). set (u := cis _). rewrite cconj_mul, rc_mul.
  assert (X : cmul (cconj u) u = rc 1) by apply cis_abs. replace (cconj (rc (amplitude form mics t i))) with (rc (amplitude form mics t i)) by (apply c_ext; cbn; ring).
  transitivity (cmul (cmul (rc (amplitude form mics t i)) (rc (dist s (mic mics (center mics)) / dist s (mic mics i)))) (cmul (cconj u) u)); [cring|]. rewrite X. apply c_ext; cbn; ring.
Qed.
Lemma response_self form k mics t : away mics t ->
  response form k mics t t = rc (rsum (length mics) (fun i => amplitude form mics t i * (dist t (mic mics (center mics)) / dist t (mic mics i)))).
Proof. intros A. now apply response_real. Qed.
Lemma length_pos mics t : away mics t -> 0 < INR (length mics).
Proof. intros [N _]. apply lt_0_INR. destruct mics; [congruence|simpl; lia]. Qed.
Lemma rsum_const n (c : R) : rsum n (fun _ => c) = INR n * c.
Proof. induction n; cbn [sum]. simpl; ring. rewrite IHn, S_INR. change (@radd R CRing_R) with Rplus. ring. Qed.
Lemma rsum_mul_l n c (f : nat -> R) : rsum n (fun i => c * f i) = c * rsum n f.
Proof. apply (sum_scal_l (HA := CRing_R)). Qed.
Lemma rsum_div n c (f : nat -> R) : rsum n f / c = rsum n (fun i => / c * f i).
Proof. rewrite rsum_mul_l. unfold Rdiv. ring. Qed.
Lemma rsum_pos n (f : nat -> R) : (0 < n)%nat -> (forall i, (i < n)%nat -> 0 < f i) -> 0 < rsum n f.
Proof.
  induction n; intros Hn P. lia. cbn [sum]. change (@radd R CRing_R) with Rplus. specialize (P n ltac:(lia)) as Pn. destruct n. simpl; lra.
  assert (0 < rsum (S n) f) by (apply IHn; [lia|intros; apply P; lia]). lra.
Qed.
Definition inv_squares (mics : list point) (t : point) : R := rsum (length mics) (fun j => 1 / (dist (mic mics j) t * dist (mic mics j) t)).
Lemma inv_squares_pos mics t : away mics t -> 0 < inv_squares mics t.
Proof.
  intros A. apply rsum_pos. destruct A as [N _]. destruct mics; [congruence|simpl; lia]. intros i Hi. rewrite dist_sym. pose proof (away_pos _ _ _ A Hi) as P.
  apply Rdiv_lt_0_compat; [lra|]. now apply Rmult_lt_0_compat.
Qed.

(** ** Power and location *)
(** The inverse and the true power formulation pass the focused source with gain one. *)
Theorem C67_unit_gain :
  forall form k mics t, form = Inverse \/ form = TruePower -> away mics t -> response form k mics t t = rc 1.
Proof.
  intros form k mics t F A. rewrite response_self by auto. f_equal. pose proof (length_pos _ _ A) as L. pose proof (away_ref _ _ A) as R0. destruct F as [-> | ->]; unfold amplitude.
  - transitivity (rsum (length mics) (fun _ => 1 / INR (length mics))). { apply sum_ext. intros i Hi. pose proof (away_pos _ _ _ A Hi). field. repeat split; lra. }
    rewrite rsum_const. field. lra.
  - fold (inv_squares mics t). pose proof (inv_squares_pos _ _ A) as S.
    transitivity (rsum (length mics) (fun i => / inv_squares mics t * (1 / (dist (mic mics i) t * dist (mic mics i) t)))).
    { apply sum_ext. intros i Hi. pose proof (away_pos _ _ _ A Hi). rewrite (dist_sym (mic mics i)). field. repeat split; lra. }
    rewrite rsum_mul_l. fold (inv_squares mics t). field. lra.
Qed.
Print Assumptions C67_unit_gain.
Lemma away_case : away [(0, 0, 0); (2, 0, 0)] (0, 0, 1).
Proof. split; [discriminate|]. intros i Hi E. simpl in Hi. destruct i as [|[|]]; [| |lia]; cbn in E; injection E; intros; lra. Qed.
Example C67_unit_gain_case : response Inverse 5 [(0, 0, 0); (2, 0, 0)] (0, 0, 1) (0, 0, 1) = rc 1.
Proof. apply C67_unit_gain; auto. apply away_case. Qed.
(** The classic and the true location formulation do not: their gains. *)
Theorem C67_gain :
  forall k mics t, away mics t ->
  response Classic k mics t t = rc (rsum (length mics) (fun i => euclid t (mic mics (center mics)) / euclid t (mic mics i)) / INR (length mics)) /\
  response TrueLocation k mics t t = rc (sqrt (rsum (length mics) (fun i => Rsqr (euclid t (mic mics (center mics)) / euclid t (mic mics i))) / INR (length mics))).
Proof.
  intros k mics t A. pose proof (length_pos _ _ A) as L. pose proof (away_ref _ _ A) as R0. rewrite !response_self by auto. split; f_equal; unfold amplitude.
  - rewrite <- dist_euclid. rewrite rsum_div. apply sum_ext. intros i Hi. rewrite <- dist_euclid. pose proof (away_pos _ _ _ A Hi). field. split; lra.
  - fold (inv_squares mics t). pose proof (inv_squares_pos _ _ A) as S. rewrite <- dist_euclid. set (q := dist t (mic mics (center mics))) in *.
    assert (E : rsum (length mics) (fun i => Rsqr (q / euclid t (mic mics i))) = q * q * inv_squares mics t).
    { unfold inv_squares. rewrite <- rsum_mul_l. apply sum_ext. intros i Hi. rewrite <- dist_euclid, (dist_sym (mic mics i)). pose proof (away_pos _ _ _ A Hi). unfold Rsqr. field. lra. }
    rewrite E. set (s := inv_squares mics t) in *. transitivity (rsum (length mics) (fun i => q / sqrt (INR (length mics) * s) * (1 / (dist (mic mics i) t * dist (mic mics i) t)))).
    { apply sum_ext. intros i Hi. rewrite (dist_sym (mic mics i)). pose proof (away_pos _ _ _ A Hi). assert (0 < sqrt (INR (length mics) * s)) by (apply sqrt_lt_R0; now apply Rmult_lt_0_compat). field. split; lra. }
    rewrite rsum_mul_l. fold (inv_squares mics t). fold s. set (N := INR (length mics)) in *. replace (q * q * s / N) with (q * q * (s / N)) by (field; lra). rewrite (sqrt_mult_alt (q * q) (s / N)) by nra. rewrite (sqrt_square q) by lra.
    rewrite (sqrt_mult N s), sqrt_div_alt by lra. rewrite <- (sqrt_sqrt s) at 2 by lra. assert (0 < sqrt N) by now apply sqrt_lt_R0. assert (0 < sqrt s) by now apply sqrt_lt_R0. field. split; lra.
Qed.
Print Assumptions C67_gain.
Example C67_gain_case : exists g, response Classic 5 [(0, 0, 0); (2, 0, 0)] (0, 0, 1) (0, 0, 1) = rc g.
Proof. eexists. apply C67_gain, away_case. Qed.
Lemma energy form k mics t : Sxx (length mics) (cnth (steering form k mics t)) = rsum (length mics) (fun i => amplitude form mics t i * amplitude form mics t i).
Proof. unfold Sxx. apply sum_ext. intros i Hi. rewrite steering_eq, cabs2_mul, cabs2_cis by auto. unfold cabs2, rc. cbn [fst snd]. ring. Qed.
(** Their vectors all have the same length: uncorrelated noise adds the same power to every point of the map. *)
Theorem C67_norm :
  forall k mics t, away mics t -> Sxx (length mics) (cnth (steering Classic k mics t)) = 1 / INR (length mics) /\ Sxx (length mics) (cnth (steering TrueLocation k mics t)) = 1 / INR (length mics).
Proof.
  intros k mics t A. pose proof (length_pos _ _ A) as L. rewrite !energy. unfold amplitude. split.
  - rewrite rsum_const. field. lra.
  - fold (inv_squares mics t). pose proof (inv_squares_pos _ _ A) as S. assert (SN : 0 < INR (length mics) * inv_squares mics t) by now apply Rmult_lt_0_compat.
    transitivity (rsum (length mics) (fun i => / (INR (length mics) * inv_squares mics t) * (1 / (dist (mic mics i) t * dist (mic mics i) t)))).
    { apply sum_ext. intros i Hi. rewrite (dist_sym (mic mics i)). pose proof (away_pos _ _ _ A Hi). assert (0 < sqrt (INR (length mics) * inv_squares mics t)) by now apply sqrt_lt_R0.
      rewrite <- (sqrt_sqrt (INR (length mics) * inv_squares mics t)) at 3 by lra. field. split; lra. }
    rewrite rsum_mul_l. fold (inv_squares mics t). field. split; lra.
Qed.
Print Assumptions C67_norm.
Example C67_norm_case : Sxx 2 (cnth (steering TrueLocation 5 [(0, 0, 0); (2, 0, 0)] (0, 0, 1))) = 1 / INR 2.
Proof. apply (C67_norm 5 [(0, 0, 0); (2, 0, 0)]). apply away_case. Qed.

Lemma response_Sxy form k mics t s : response form k mics t s = Sxy (length mics) (cnth (steering form k mics t)) (transfer k mics s).
Proof. reflexivity. Qed.
Lemma transfer_energy k mics s : away mics s -> Sxx (length mics) (transfer k mics s) = Rsqr (dist s (mic mics (center mics))) * inv_squares mics s.
Proof.
  intros A. unfold Sxx, inv_squares. rewrite <- rsum_mul_l. apply sum_ext. intros i Hi. rewrite transfer_eq, cabs2_mul, cabs2_cis by auto. rewrite (dist_sym (mic mics i)). pose proof (away_pos _ _ _ A Hi).
  unfold cabs2, rc, Rsqr. cbn [fst snd]. field. lra.
Qed.
(** Among all weights with gain one, those of the true power formulation let the least uncorrelated noise through. *)
Theorem C67_true_power_least_noise :
  forall k mics t (w : nat -> C), away mics t -> Sxy (length mics) w (transfer k mics t) = rc 1 ->
  Sxx (length mics) (cnth (steering TruePower k mics t)) <= Sxx (length mics) w.
Proof.
  intros k mics t w A U. pose proof (schwarz (length mics) w (transfer k mics t)) as CS. rewrite U, transfer_energy in CS by auto. unfold cabs2, rc in CS. cbn [fst snd] in CS.
  rewrite energy. unfold amplitude. fold (inv_squares mics t). pose proof (inv_squares_pos _ _ A) as S. pose proof (away_ref _ _ A) as R0. set (q := dist t (mic mics (center mics))) in *. set (s := inv_squares mics t) in *.
  assert (E : rsum (length mics) (fun i => 1 / q / dist t (mic mics i) / s * (1 / q / dist t (mic mics i) / s)) = / (q * q * s)).
  { transitivity (rsum (length mics) (fun i => / (q * q * s * s) * (1 / (dist (mic mics i) t * dist (mic mics i) t)))).
    - apply sum_ext. intros i Hi. rewrite (dist_sym (mic mics i)). pose proof (away_pos _ _ _ A Hi). field. repeat split; lra.
    - rewrite rsum_mul_l. fold (inv_squares mics t). fold s. field. repeat split; lra. }
  rewrite E. assert (P : 0 < q * q * s) by (apply Rmult_lt_0_compat; auto; now apply Rmult_lt_0_compat). apply (Rmult_le_reg_r (q * q * s)); auto. rewrite Rinv_l by lra. unfold Rsqr in CS. lra.
Qed.
Print Assumptions C67_true_power_least_noise.
Example C67_true_power_least_noise_case : Sxx 2 (cnth (steering TruePower 5 [(0, 0, 0); (2, 0, 0)] (0, 0, 1))) <= Sxx 2 (cnth (steering Inverse 5 [(0, 0, 0); (2, 0, 0)] (0, 0, 1))).
Proof. apply (C67_true_power_least_noise 5 [(0, 0, 0); (2, 0, 0)] (0, 0, 1)). apply away_case. apply C67_unit_gain; auto. apply away_case. Qed.

Lemma csum_abs n (f : nat -> C) : cabs (csum n f) <= rsum n (fun i => cabs (f i)).
Proof.
  induction n; cbn [sum]. change (cabs (rc 0) <= 0). rewrite cabs_rc, Rabs_R0. lra.
  change (@radd R CRing_R) with Rplus. eapply Rle_trans; [apply cabs_add|]. lra.
Qed.
(** For a single source the maps of the classic and the true location formulation are largest at the source. *)
Theorem C67_peak_at_source :
  forall form k mics t s, form = Classic \/ form = TrueLocation -> away mics t -> away mics s ->
  cabs (response form k mics t s) <= cabs (response form k mics s s).
Proof.
  intros form k mics t s F At As. destruct F as [-> | ->].
  - destruct (C67_gain k mics s As) as [-> _]. rewrite cabs_rc. eapply Rle_trans; [|apply Rle_abs]. pose proof (length_pos _ _ As) as L. unfold response. eapply Rle_trans; [apply csum_abs|].
    rewrite rsum_div. apply Req_le. apply sum_ext. intros i Hi. rewrite steering_eq, transfer_eq by auto. pose proof (away_pos _ _ _ As Hi). pose proof (away_ref _ _ As).
    rewrite <- !dist_euclid. apply cabs_eq. apply Rmult_le_pos; [left; now apply Rinv_0_lt_compat|]. left. now apply Rdiv_lt_0_compat. rewrite cabs2_mul, cabs2_cconj, !cabs2_mul, !cabs2_cis. unfold amplitude, cabs2, rc. cbn [fst snd]. field. split; lra.
  - apply cabs_le; [apply cabs_pos|]. rewrite cabs_sq. destruct (C67_gain k mics s As) as [_ ->]. rewrite response_Sxy. eapply Rle_trans; [apply schwarz|]. destruct (C67_norm k mics t At) as [_ ->]. pose proof (length_pos _ _ As) as L.
    unfold cabs2 at 1, rc. cbn [fst snd]. rewrite sqrt_sqrt. rewrite transfer_energy by auto. apply Req_le. unfold inv_squares. rewrite <- rsum_mul_l, rsum_div, Rmult_0_l, Rplus_0_r, <- rsum_mul_l.
    apply sum_ext. intros i Hi. rewrite (dist_sym (mic mics i)). pose proof (away_pos _ _ _ As Hi). rewrite <- !dist_euclid. unfold Rsqr. field. split; lra.
    apply Rmult_le_pos; [|left; now apply Rinv_0_lt_compat]. apply rsum_nonneg. intros i Hi. apply Rle_0_sqr.
Qed.
Print Assumptions C67_peak_at_source.
Example C67_peak_at_source_case : cabs (response TrueLocation 5 [(0, 0, 0); (2, 0, 0)] (1, 0, 0) (0, 0, 1)) <= cabs (response TrueLocation 5 [(0, 0, 0); (2, 0, 0)] (0, 0, 1) (0, 0, 1)).
Proof.
  apply C67_peak_at_source; auto; try apply away_case. split; [discriminate|]. intros i Hi E. simpl in Hi. destruct i as [|[|]]; [| |lia]; cbn in E; injection E; intros; lra.
Qed.

(** Those of the inverse and the true power formulation need not be, at any frequency. *)
Lemma dist_value p q r : 0 <= r -> dot3 p p + dot3 q q - 2 * dot3 p q = r * r -> dist p q = r.
Proof. intros P E. unfold dist. rewrite E. now apply sqrt_square. Qed.
Theorem C67_peak_at_source_refuted :
  exists mics t s, away mics t /\ away mics s /\ forall k form, form = Inverse \/ form = TruePower -> cabs (response form k mics s s) < cabs (response form k mics t s).
Proof.
  set (m := [(0, 0, 0); (2, 0, 0)] : list point). set (t := (1 / 4, sqrt 15 / 4, 0) : point). set (s := (- 1 / 4, sqrt 63 / 4, 0) : point). exists m, t, s.
  assert (S15 : sqrt 15 * sqrt 15 = 15) by (apply sqrt_sqrt; lra). assert (S63 : sqrt 63 * sqrt 63 = 63) by (apply sqrt_sqrt; lra).
  assert (T0 : dist t (0, 0, 0) = 1) by (apply dist_value; [lra|]; unfold dot3, t; cbn [coord fst snd]; nra). assert (T1 : dist t (2, 0, 0) = 2) by (apply dist_value; [lra|]; unfold dot3, t; cbn [coord fst snd]; nra).
  assert (X0 : dist s (0, 0, 0) = 2) by (apply dist_value; [lra|]; unfold dot3, s; cbn [coord fst snd]; nra). assert (X1 : dist s (2, 0, 0) = 3) by (apply dist_value; [lra|]; unfold dot3, s; cbn [coord fst snd]; nra).
  assert (CE : center m = 0%nat).
  { unfold center. set (l := map _ m). destruct (argmin_spec l ltac:(discriminate)) as (A & _ & D). change (length l) with 2%nat in A. destruct (argmin l) as [|[|]]; [reflexivity| |lia]. specialize (D 0%nat ltac:(lia)).
    unfold l, m in D. cbn [map nth] in D. unfold mean3 in D. cbn [map fold_right length coord fst snd] in D. exfalso. apply (Rlt_not_eq _ _ D). unfold dist, dot3. cbn [coord fst snd INR]. f_equal. lra. }
  assert (At : away m t). { split; [discriminate|]. intros i Hi E. apply dist_zero in E. simpl in Hi. destruct i as [|[|]]; [| |lia]; unfold m in E; cbn [nth] in E; lra. }
  assert (As : away m s). { split; [discriminate|]. intros i Hi E. apply dist_zero in E. simpl in Hi. destruct i as [|[|]]; [| |lia]; unfold m in E; cbn [nth] in E; lra. }
  repeat split; try apply At; try apply As. intros k form F. rewrite C67_unit_gain by auto. rewrite cabs_rc, Rabs_R1. rewrite response_real; auto.
  2: { intros i Hi. rewrite CE. simpl in Hi. destruct i as [|[|]]; [| |lia]; unfold m; cbn [nth]; rewrite ?T0, ?T1, ?X0, ?X1; lra. }
  rewrite CE. rewrite cabs_rc. eapply Rlt_le_trans; [|apply Rle_abs]. change (length m) with 2%nat. cbn [sum]. change (@radd R CRing_R) with Rplus. change (@r0 R CRing_R) with 0.
  destruct F as [-> | ->]; unfold amplitude; rewrite CE; change (length m) with 2%nat; unfold m; cbn [nth sum INR]; change (@radd R CRing_R) with Rplus; change (@r0 R CRing_R) with 0;
    rewrite ?(dist_sym (0, 0, 0)), ?(dist_sym (2, 0, 0)), T0, T1, X0, X1; lra.
Qed.
Print Assumptions C67_peak_at_source_refuted.
