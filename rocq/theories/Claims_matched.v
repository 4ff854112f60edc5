(** Property C119: equalizers matched to an analog prototype. *)
From Coq Require Import List Arith Lia ZArith Bool Reals Lra Psatz.
From Verif Require Import Alg Spec M_arrays Claims_gausskernel Claims_thiran M_matched.
Import ListNotations.
Local Open Scope R_scope.

(** ** Specification *)
(** the poles of 1 + a1 z^-1 + a2 z^-2 lie inside the unit circle: the triangle of stability *)
Definition stable (a : list R) : Prop := exists a1 a2, a = [1; a1; a2] /\ a2 < 1 /\ 0 < 1 + a1 + a2 /\ 0 < 1 - a1 + a2.

(** the poles of the denominator are the images exp (w p) of the poles p = u + i v of the analog prototype p^2 + p / q + 1: there z^2 + a1 z + a2 vanishes *)
Definition matched_poles (w q : R) (a : list R) : Prop := forall u v, u * u - v * v + u / q + 1 = 0 -> 2 * u * v + v / q = 0 ->
  exp (w * u) ^ 2 * cos (2 * (w * v)) + nth 1 a 0 * (exp (w * u) * cos (w * v)) + nth 2 a 0 = 0 /\ exp (w * u) ^ 2 * sin (2 * (w * v)) + nth 1 a 0 * (exp (w * u) * sin (w * v)) = 0.
(** the response touches the gain x at the frequency w: over all frequencies the difference is a multiple of a square that vanishes at w only, so this is the peak or the
    dip *)
Definition touches (b a : list R) (x w : R) : Prop := exists c, forall v, power b v = x ^ 2 * power a v + c * (cos v - cos w) ^ 2.

(** ** Proofs *)
Lemma power2 x y z w : power [x; y; z] w = dot ((x + y + z) ^ 2, (x - y + z) ^ 2, - 4 * (x * z)) (phi w).
Proof.
  unfold power, dot, phi. cbn [re_part im_part INR]. rewrite (Rmult_0_l w), (Rmult_1_l w), cos_0, sin_0. replace ((1 + 1) * w) with (2 * w) by ring. rewrite cos_2a, sin_2a.
  assert (C : cos w = 1 - 2 * sin (w / 2) ^ 2). { replace w with (2 * (w / 2)) at 1 by field. rewrite cos_2a_sin. ring. } assert (S : sin w * sin w = 1 - cos w * cos w) by (pose proof (sin2_cos2 w) as Q; unfold Rsqr in Q; lra).
  set (s := sin (w / 2) ^ 2) in *. unfold Rsqr.
  transitivity ((x + y * cos w + z * (cos w * cos w - sin w * sin w)) ^ 2 + (sin w * sin w) * (y + 2 * z * cos w) ^ 2); [ring|]. rewrite S, C. ring.
Qed.
Lemma power_alt a1 a2 w : power [1; a1; a2] w = ((1 + a2) * cos w + a1) ^ 2 + ((1 - a2) * sin w) ^ 2.
Proof.
  unfold power. cbn [re_part im_part INR]. rewrite (Rmult_0_l w), (Rmult_1_l w), cos_0, sin_0. replace ((1 + 1) * w) with (2 * w) by ring. rewrite cos_2a, sin_2a. assert (S : sin w * sin w = 1 - cos w * cos w) by (pose proof (sin2_cos2 w) as Q; unfold Rsqr in Q; lra).
  unfold Rsqr. transitivity ((1 + a1 * cos w + a2 * (cos w * cos w - sin w * sin w)) ^ 2 + (sin w * sin w) * (a1 + 2 * a2 * cos w) ^ 2); [ring|].
  transitivity (((1 + a2) * cos w + a1) ^ 2 + (1 - a2) ^ 2 * (sin w * sin w)); [|ring]. rewrite S. ring.
Qed.
Lemma den_stable w q : 0 < w -> 0 < q -> stable (coeffs_a w q).
Proof.
  intros W Q. unfold coeffs_a. destruct (den w q) as [a1 a2] eqn:E. exists a1, a2. split; auto. unfold den in E. injection E as E1 E2. set (k := 1 / (2 * q)) in *. assert (K : 0 < k) by (apply Rdiv_lt_0_compat; lra).
  set (r := exp (- k * w)) in *. assert (R0 : 0 < r) by apply exp_pos. assert (R1 : r < 1) by (unfold r; rewrite <- exp_0; apply exp_increasing; nra).
  assert (A2 : a2 = r * r) by (rewrite <- E2; unfold r; rewrite <- exp_plus; f_equal; ring). destruct (Rle_dec k 1) as [L|L].
  - set (c := cos _) in *. assert (CB : -1 <= c <= 1) by apply COS_bound. subst a1 a2. rewrite A2. split; [nra|]. split; nra.
  - set (h := sqrt (k ^ 2 - 1)) in *. assert (HH : h * h = k ^ 2 - 1) by (apply sqrt_sqrt; nra). assert (H0 : 0 <= h) by apply sqrt_pos. assert (HK : h < k) by nra.
    unfold cosh in E1. change (sqrt (k * (k * 1) - 1)) with h in E1. set (x := exp (h * w)) in *. set (y := exp (- (h * w))) in *. assert (X0 : 0 < x) by apply exp_pos. assert (Y0 : 0 < y) by apply exp_pos. assert (XY : x * y = 1) by (unfold x, y; rewrite <- exp_plus; replace (h * w + - (h * w)) with 0 by ring; apply exp_0).
    assert (P1 : r * x < 1) by (unfold r, x; rewrite <- exp_plus, <- exp_0; apply exp_increasing; nra). assert (P2 : r * y < 1) by (unfold r, y; rewrite <- exp_plus, <- exp_0; apply exp_increasing; nra).
    assert (A1 : a1 = - (r * x + r * y)) by (rewrite <- E1; field). assert (A2' : a2 = (r * x) * (r * y)) by (rewrite A2; transitivity (r * r * (x * y)); [rewrite XY; ring|ring]). pose proof (Rmult_lt_0_compat r x R0 X0). pose proof (Rmult_lt_0_compat r y R0 Y0).
    clear E1 E2 A2. subst a1 a2. set (u := r * x) in *. set (v := r * y) in *. clearbody u v. split; [nra|]. split; nra.
Qed.
Lemma den_power w q : 0 < w < PI -> 0 < q -> 0 < power (coeffs_a w q) w.
Proof.
  intros W Q. destruct (den_stable w q) as (a1 & a2 & -> & S & _); try lra. rewrite power_alt. pose proof (sin_gt_0 w ltac:(lra) ltac:(lra)) as P. assert (B : 0 < (1 - a2) * sin w) by (apply Rmult_lt_0_compat; lra). apply Rplus_le_lt_0_compat; [apply pow2_ge_0|now apply pow_lt].
Qed.
Lemma big_a_power w q : power (coeffs_a w q) w = dot (big_a w q) (phi w).
Proof. unfold coeffs_a, big_a. destruct (den w q) as [a1 a2]. rewrite power2. unfold dot. destruct (phi w) as [[x y] z]. ring. Qed.
Lemma phi_pos w : 0 < w < PI -> exists s, phi w = (1 - s, s, 4 * (1 - s) * s) /\ 0 < s < 1.
Proof.
  intros W. exists (sin (w / 2) ^ 2). split; auto. assert (P : 0 < sin (w / 2)) by (apply sin_gt_0; lra). assert (C : 0 < cos (w / 2)) by (apply cos_gt_0; lra). pose proof (sin2_cos2 (w / 2)) as Q. unfold Rsqr in Q. nra.
Qed.
Lemma root_some x r : root x = Some r -> 0 <= r /\ r * r = x.
Proof. unfold root. destruct (Rlt_dec x 0); [discriminate|]. intros [= <-]. split; [apply sqrt_pos|apply sqrt_sqrt; lra]. Qed.

Lemma den_poles w q : 0 < q -> matched_poles w q (coeffs_a w q).
Proof.
  intros Q u v H1 H2. unfold coeffs_a. destruct (den w q) as [a1 a2] eqn:E. cbn [nth]. unfold den in E. set (k := 1 / (2 * q)) in *. assert (K : 0 < k) by (apply Rdiv_lt_0_compat; lra). assert (IQ : / q = 2 * k) by (unfold k; field; lra).
  unfold Rdiv in H1, H2. rewrite IQ in H1, H2. assert (E1 := f_equal fst E). assert (E2 := f_equal snd E). cbn [fst snd] in E1, E2. clear E. set (r := exp (- k * w)) in *. assert (A2 : a2 = r * r) by (rewrite <- E2; unfold r; rewrite <- exp_plus; f_equal; ring).
  destruct (Req_dec v 0) as [->|V].
  - rewrite !Rmult_0_r, cos_0, sin_0. split; [|ring]. assert (S : (u + k) * (u + k) = k ^ 2 - 1) by nra. destruct (Rle_dec k 1) as [L|L].
    + pose proof (Rle_0_sqr (u + k)) as Z. unfold Rsqr in Z. assert (KK : k = 1) by (apply Rle_antisym; [assumption|nra]). assert (U : u = - k) by (assert (u + k = 0) by (apply Rsqr_0_uniq; unfold Rsqr; rewrite S, KK; ring); lra). replace (1 - k ^ 2) with 0 in E1 by (rewrite KK; ring). rewrite sqrt_0, (Rmult_0_l w), cos_0 in E1. replace (exp (w * u)) with r by (unfold r; f_equal; rewrite U; ring). rewrite <- E1, A2. ring.
    + set (h := sqrt (k ^ 2 - 1)) in *. assert (HH : h * h = k ^ 2 - 1) by (apply sqrt_sqrt; nra). unfold cosh in E1. assert (D : (u + k - h) * (u + k + h) = 0) by nra. rewrite <- E1, A2. assert (X : exp (h * w) * exp (- (h * w)) = 1) by (rewrite <- exp_plus; replace (h * w + - (h * w)) with 0 by ring; apply exp_0).
      set (x := exp (h * w)) in *. set (y := exp (- (h * w))) in *. assert (C : exp (w * u) = r * x \/ exp (w * u) = r * y).
      { apply Rmult_integral in D as [D|D]; [left|right]; unfold r, x, y; rewrite <- exp_plus; f_equal; [replace u with (h - k) by lra|replace u with (- h - k) by lra]; ring. }
      destruct C as [-> | ->]; [transitivity (r * r * (1 - x * y))|transitivity (r * r * (1 - x * y))]; try (rewrite X; ring); field.
  - assert (U : u = - k) by (apply (Rmult_eq_reg_r (2 * v)); lra). assert (VV : v * v = 1 - k ^ 2) by (subst u; nra). destruct (Rle_dec k 1) as [L|L]; [|exfalso; nra].
    replace (exp (w * u)) with r by (unfold r; f_equal; rewrite U; ring). assert (C : cos (sqrt (1 - k ^ 2) * w) = cos (w * v)).
    { rewrite <- VV. fold (Rsqr v). rewrite sqrt_Rsqr_abs. unfold Rabs. destruct (Rcase_abs v); [rewrite <- cos_neg|]; f_equal; ring. }
    rewrite C in E1. rewrite <- E1, A2, cos_2a, sin_2a. pose proof (sin2_cos2 (w * v)) as SC. unfold Rsqr in SC. set (c := cos (w * v)) in *. set (s := sin (w * v)) in *. split; [|ring]. transitivity (r * r * (1 - (s * s + c * c))); [ring|rewrite SC; ring].
Qed.
Lemma phi_gen v : exists t, phi v = (1 - t, t, 4 * (1 - t) * t) /\ cos v = 1 - 2 * t.
Proof. exists (sin (v / 2) ^ 2). split; auto. replace v with (2 * (v / 2)) at 1 by field. rewrite cos_2a_sin. ring. Qed.
Lemma touches_intro b a x w B0 B1 B2 A0 A1 A2 s :
  (forall v, power b v = dot (B0, B1, B2) (phi v)) -> (forall v, power a v = dot (A0, A1, A2) (phi v)) -> phi w = (1 - s, s, 4 * (1 - s) * s) ->
  dot (B0, B1, B2) (phi w) = x ^ 2 * dot (A0, A1, A2) (phi w) -> - B0 + B1 + 4 * (1 - s - s) * B2 = x ^ 2 * (- A0 + A1 + 4 * (1 - s - s) * A2) -> touches b a x w.
Proof.
  intros HB HA E V D. exists (x ^ 2 * A2 - B2). intros v. rewrite HB, HA. destruct (phi_gen v) as (t & Et & ->). destruct (phi_gen w) as (s' & Es & ->). rewrite E in Es, V. injection Es as _ <- _. rewrite Et. unfold dot in *.
  assert (Q : B0 * (1 - t) + B1 * t + B2 * (4 * (1 - t) * t) - (x ^ 2 * (A0 * (1 - t) + A1 * t + A2 * (4 * (1 - t) * t)) + (x ^ 2 * A2 - B2) * (1 - 2 * t - (1 - 2 * s)) ^ 2) =
    (B0 * (1 - s) + B1 * s + B2 * (4 * (1 - s) * s) - x ^ 2 * (A0 * (1 - s) + A1 * s + A2 * (4 * (1 - s) * s))) + (t - s) * (- B0 + B1 + 4 * (1 - s - s) * B2 - x ^ 2 * (- A0 + A1 + 4 * (1 - s - s) * A2))) by ring.
  rewrite V, D in Q. ring_simplify in Q. lra.
Qed.
Lemma big_a_all w q v : power (coeffs_a w q) v = dot (big_a w q) (phi v).
Proof. unfold coeffs_a, big_a. destruct (den w q) as [a1 a2]. rewrite power2. unfold dot. destruct (phi v) as [[x y] z]. ring. Qed.
Lemma same_den w g q b a : (lowpass w g q = Some (b, a) \/ highpass w g q = Some (b, a) \/ bandpass w g q = Some (b, a) \/ peaking w g q = Some (b, a)) -> a = coeffs_a w q.
Proof.
  intros H. destruct H as [H|[H|[H|H]]].
  - unfold lowpass in H. destruct (big_a w q) as [[? ?] ?], (phi w) as [[? ?] ?]. destruct (root _); [|discriminate]. cbn [obind] in H. now injection H as <- <-.
  - unfold highpass in H. destruct (phi w) as [[? ?] ?]. destruct (root _); [|discriminate]. cbn [obind] in H. now injection H as <- <-.
  - unfold bandpass in H. destruct (big_a w q) as [[? ?] ?], (phi w) as [[? ?] ?]. destruct (root _); [|discriminate]. cbn [obind] in H. destruct (root _); [|discriminate]. cbn [obind] in H. now injection H as <- <-.
  - unfold peaking in H. destruct (big_a w q) as [[? ?] ?], (phi w) as [[? ?] ?]. do 3 (destruct (root _); [|discriminate]; cbn [obind] in H). now injection H as <- <-.
Qed.
(** ** Theorems; w is the characteristic frequency in radians per sample *)
(** The denominator is stable for every frequency and quality. *)
Theorem C119_stable w g q b a : 0 < w -> 0 < q -> (lowpass w g q = Some (b, a) \/ highpass w g q = Some (b, a) \/ bandpass w g q = Some (b, a) \/ peaking w g q = Some (b, a)) -> stable a.
Proof. intros W Q H. rewrite (same_den _ _ _ _ _ H). now apply den_stable. Qed.
Print Assumptions C119_stable.

(** Highpass: always defined, a double zero at 0 Hz, gain q times the requested gain at the characteristic frequency. *)
Theorem C119_highpass w g q : 0 < w < PI -> 0 < q -> exists b a, highpass w g q = Some (b, a) /\ moment0 b = 0 /\ moment1 b 0 = 0 /\ 0 < power a w /\ power b w = (q * Rpower 10 (g / 20)) ^ 2 * power a w.
Proof.
  intros W Q. destruct (phi_pos w W) as (s & E & S). pose proof (den_power w q W Q) as D. pose proof (big_a_power w q) as B. unfold highpass. rewrite E in *. unfold root. rewrite <- B. destruct (Rlt_dec _ 0); [lra|]. cbn [obind].
  do 2 eexists. split; [reflexivity|]. split; [cbn [moment0]; ring|]. split; [cbn [moment1 INR]; ring|]. split; auto.
  - rewrite power2, E. unfold dot, amp. set (x := power (coeffs_a w q) w) in *. assert (X : sqrt x * sqrt x = x) by (apply sqrt_sqrt; lra). transitivity ((q * Rpower 10 (g / 20)) ^ 2 * (sqrt x * sqrt x)); [field; lra|now rewrite X].
Qed.
Print Assumptions C119_highpass.

(** Lowpass: the requested gain at 0 Hz and q times this gain at the characteristic frequency. *)
Theorem C119_lowpass w g q b a : 0 < w < PI -> 0 < q -> lowpass w g q = Some (b, a) -> length b = 3%nat /\ nth 2 b 0 = 0 /\ moment0 b = Rpower 10 (g / 20) * moment0 a /\ 0 < moment0 a /\ 0 < power a w /\ power b w = (q * Rpower 10 (g / 20)) ^ 2 * power a w.
Proof.
  intros W Q H. destruct (phi_pos w W) as (s & E & S). pose proof (den_power w q W Q) as D. pose proof (big_a_power w q) as B. destruct (den_stable w q) as (a1 & a2 & EA & ST & S0 & _); try lra.
  unfold lowpass in H. rewrite E in *. destruct (big_a w q) as [[A0 A1] A2] eqn:EB. assert (HA : A0 = (1 + a1 + a2) ^ 2). { unfold big_a, coeffs_a in *. destruct (den w q) as [x y]. injection EA as -> ->. now injection EB as <- <- <-. }
  rewrite EA in *. cbn [nth] in H. destruct (root _) as [r|] eqn:ER; [|discriminate]. cbn [obind] in H. injection H as <- <-. apply root_some in ER as (R0 & RR).
  rewrite <- B in RR. clear B. set (x := power [1; a1; a2] w) in *. unfold amp. set (G := Rpower 10 (g / 20)). split; [reflexivity|]. split; [cbn [nth]; ring|]. split; [cbn [moment0]; field|]. split; [cbn [moment0]; lra|]. split; auto.
  rewrite power2, E. unfold dot. transitivity (G ^ 2 * ((1 + a1 + a2) ^ 2 * (1 - s) + (r * r) * s)); [field|]. rewrite RR, HA. field. lra.
Qed.
Print Assumptions C119_lowpass.

(** Bandpass: silent at 0 Hz and the requested gain at the characteristic frequency. *)
Theorem C119_bandpass w g q b a : 0 < w < PI -> 0 < q -> bandpass w g q = Some (b, a) -> power b 0 = 0 /\ 0 < power a w /\ power b w = (Rpower 10 (g / 20)) ^ 2 * power a w /\ touches b a (Rpower 10 (g / 20)) w.
Proof.
  intros W Q H. destruct (phi_pos w W) as (s & E & S). pose proof (den_power w q W Q) as D. pose proof (big_a_power w q) as B. unfold bandpass in H. rewrite E in *. destruct (big_a w q) as [[A0 A1] A2] eqn:EB.
  rewrite <- B in H. set (x := power (coeffs_a w q) w) in *. set (r2 := - A0 + A1 + 4 * (1 - s - s) * A2) in *. set (B2 := (x - r2 * s) / 4 / s ^ 2) in *. set (B1 := r2 + 4 * (s - (1 - s)) * B2) in *.
  destruct (root B1) as [r|] eqn:E1; [|discriminate]. cbn [obind] in H. destruct (root (B2 + _)) as [t|] eqn:E2; [|discriminate]. cbn [obind] in H. injection H as <- <-. apply root_some in E1 as (R0 & RR). apply root_some in E2 as (T0 & TT).
  unfold amp. set (G := Rpower 10 (g / 20)). split; [|split; auto].
  - rewrite power2. unfold dot, phi. replace (0 / 2) with 0 by field. rewrite sin_0. field.
  - enough (T : touches [1 / 2 * (t - - (1 / 2) * r) * G; - (1 / 2) * r * G; (- (1 / 2 * (t - - (1 / 2) * r)) - - (1 / 2) * r) * G] (coeffs_a w q) G w).
    { split; [|exact T]. destruct T as (c & T). rewrite T. ring. }
    apply (touches_intro _ _ _ _ 0 (G ^ 2 * B1) (G ^ 2 * B2) A0 A1 A2 s); auto.
    + intros v. rewrite power2. destruct (phi v) as [[p0 p1] p2]. unfold dot. transitivity (G ^ 2 * (r * r) * p1 + G ^ 2 * (t * t - r * r / 4) * p2); [field|]. rewrite TT, RR. rewrite <- RR. field.
    + intros v. rewrite big_a_all, EB. reflexivity.
    + rewrite E. rewrite <- B. unfold dot, B1, B2. field. lra.
    + unfold B1, r2. ring.
Qed.
Print Assumptions C119_bandpass.

(** Peaking: gain 1 at 0 Hz and the requested gain at the characteristic frequency, whatever factor scales the quality. *)
Theorem C119_peaking w g q b a : 0 < w < PI -> 0 < q -> peaking w g q = Some (b, a) -> moment0 b = moment0 a /\ 0 < moment0 a /\ 0 < power a w /\ power b w = (Rpower 10 (g / 20)) ^ 2 * power a w /\ touches b a (Rpower 10 (g / 20)) w.
Proof.
  intros W Q H. destruct (phi_pos w W) as (s & E & S). pose proof (den_power w q W Q) as D. pose proof (big_a_power w q) as B. destruct (den_stable w q) as (a1 & a2 & EA & ST & SP & _); try lra.
  unfold peaking in H. rewrite E in *. destruct (big_a w q) as [[A0 A1] A2] eqn:EB. assert (HA : A0 = (1 + a1 + a2) ^ 2). { unfold big_a, coeffs_a in *. destruct (den w q) as [x y]. injection EA as -> ->. now injection EB as <- <- <-. }
  rewrite <- B in H. rewrite EA in *. set (x := power [1; a1; a2] w) in *. unfold amp in H. set (G := Rpower 10 (g / 20)) in *. set (r2 := G ^ 2 * (- A0 + A1 + 4 * (1 - s - s) * A2)) in *. set (B2 := (G ^ 2 * x - r2 * s - A0) / (4 * s ^ 2)) in *. set (B1 := r2 + A0 + 4 * (s - (1 - s)) * B2) in *.
  destruct (root A0) as [s0|] eqn:E0; [|discriminate]. cbn [obind] in H. destruct (root B1) as [s1|] eqn:E1; [|discriminate]. cbn [obind] in H. destruct (root (_ + B2)) as [t|] eqn:E2; [|discriminate]. cbn [obind] in H. injection H as <- <-.
  apply root_some in E0 as (P0 & Q0). apply root_some in E1 as (P1 & Q1). apply root_some in E2 as (PT & QT). assert (S0 : s0 = 1 + a1 + a2) by (rewrite HA in Q0; nra). set (v := 1 / 2 * (s0 + s1)) in *. assert (V : 0 < v) by (unfold v; lra). assert (NZ : v + t <> 0) by lra.
  assert (BB : B2 = t * t - v * v) by (rewrite QT; ring). assert (M : 1 / 2 * (v + t) + - B2 / (4 * (1 / 2 * (v + t))) = v) by (rewrite BB; field; lra).
  split; [|split; [cbn [moment0]; lra|split; auto]].
  - cbn [moment0]. transitivity (1 / 2 * (v + t) + - B2 / (4 * (1 / 2 * (v + t))) + 1 / 2 * (s0 - s1)); [ring|]. rewrite M. unfold v. lra.
  - enough (T : touches [1 / 2 * (v + t); 1 / 2 * (s0 - s1); - B2 / (4 * (1 / 2 * (v + t)))] [1; a1; a2] G w).
    { split; [|exact T]. destruct T as (c & T). rewrite T. ring. }
    apply (touches_intro _ _ _ _ A0 B1 B2 A0 A1 A2 s); auto.
    + intros z. rewrite power2. replace (1 / 2 * (v + t) + 1 / 2 * (s0 - s1) + - B2 / (4 * (1 / 2 * (v + t)))) with s0 by (transitivity (v + 1 / 2 * (s0 - s1)); [unfold v; field|rewrite <- M at 1; ring]).
      replace (1 / 2 * (v + t) - 1 / 2 * (s0 - s1) + - B2 / (4 * (1 / 2 * (v + t)))) with s1 by (transitivity (v - 1 / 2 * (s0 - s1)); [unfold v; field|rewrite <- M at 1; ring]).
      replace (- 4 * (1 / 2 * (v + t) * (- B2 / (4 * (1 / 2 * (v + t)))))) with B2 by (field; lra). replace (s0 ^ 2) with A0 by (rewrite <- Q0; ring). replace (s1 ^ 2) with B1 by (rewrite <- Q1; ring). reflexivity.
    + intros z. rewrite <- EA, big_a_all, EB. reflexivity.
    + rewrite E, <- B. fold x. unfold dot, B1, B2. field. lra.
    + unfold B1, r2. ring.
Qed.
Print Assumptions C119_peaking.

Lemma power_0 x y z : power [x; y; z] 0 = moment0 [x; y; z] ^ 2.
Proof. rewrite power2. unfold dot, phi. replace (0 / 2) with 0 by field. rewrite sin_0. cbn [moment0]. ring. Qed.
Lemma peaking_c w g q b a : 0 < w < PI -> 0 < q -> peaking w g q = Some (b, a) -> let G := Rpower 10 (g / 20) in
  exists c, (forall v, power b v = G ^ 2 * power a v + c * (cos v - cos w) ^ 2) /\ exists k, 0 < k /\ c = k * (1 - G ^ 2).
Proof.
  intros W Q H G. destruct (C119_peaking w g q b a W Q H) as (M & P & _ & _ & c & T). fold G in T. exists c. split; auto. assert (EA := same_den _ _ _ _ _ (or_intror (or_intror (or_intror H)))). assert (EB : exists x y z, b = [x; y; z]).
  { unfold peaking in H. destruct (big_a w q) as [[? ?] ?], (phi w) as [[? ?] ?]. do 3 (destruct (root _); [|discriminate]; cbn [obind] in H). injection H as <- _. eauto. }
  destruct EB as (x & y & z & ->). unfold coeffs_a in EA. destruct (den w q) as [a1 a2]. subst a. pose proof (T 0) as T0. rewrite !power_0, M in T0. set (m := moment0 [1; a1; a2]) in *. assert (C : 0 < cos 0 - cos w) by (pose proof (cos_decreasing_1 0 w) as X; lra). set (d := cos 0 - cos w) in *.
  exists (m ^ 2 / d ^ 2). split; [apply Rdiv_lt_0_compat; now apply pow_lt|]. apply (Rmult_eq_reg_r (d ^ 2)); [|apply pow_nonzero; lra]. replace (m ^ 2 / d ^ 2 * (1 - G ^ 2) * d ^ 2) with (m ^ 2 * (1 - G ^ 2)) by (field; lra). lra.
Qed.
(** The requested gain is the largest one over all frequencies (bandpass, and peaking with a gain from 0 dB) or the smallest one (peaking with a gain below 0 dB). *)
Theorem C119_extreme w g q b a : 0 < w < PI -> 0 < q ->
  (bandpass w g q = Some (b, a) -> forall v, power b v <= Rpower 10 (g / 20) ^ 2 * power a v) /\
  (peaking w g q = Some (b, a) -> 0 <= g -> forall v, power b v <= Rpower 10 (g / 20) ^ 2 * power a v) /\
  (peaking w g q = Some (b, a) -> g <= 0 -> forall v, Rpower 10 (g / 20) ^ 2 * power a v <= power b v).
Proof.
  intros W Q. assert (C : 0 < (cos 0 - cos w) ^ 2) by (apply pow_lt; pose proof (cos_decreasing_1 0 w) as X; lra). set (G := Rpower 10 (g / 20)). assert (GP : 0 < G) by apply exp_pos.
  split; [|split].
  - intros H v. destruct (C119_bandpass w g q b a W Q H) as (Z & _ & _ & c & T). fold G in T. pose proof (T 0) as T0. rewrite Z in T0. assert (A : 0 <= G ^ 2 * power a 0) by (apply Rmult_le_pos; [apply pow2_ge_0|unfold power; apply Rplus_le_le_0_compat; (apply Rle_0_sqr || apply pow2_ge_0)]). assert (c <= 0) by (apply Rnot_lt_le; intros CP; pose proof (Rmult_lt_0_compat _ _ CP C); lra). rewrite T. pose proof (pow2_ge_0 (cos v - cos w)). nra.
  - intros H GE v. assert (G1 : 1 <= G) by (unfold G; replace 1 with (Rpower 10 0) by (apply Rpower_O; lra); apply Rle_Rpower; lra). destruct (peaking_c w g q b a W Q H) as (c & T & k & K & EC). fold G in T, EC. rewrite T. pose proof (pow2_ge_0 (cos v - cos w)). assert (c <= 0) by (assert (0 <= k * (G ^ 2 - 1)) by (apply Rmult_le_pos; nra); nra). nra.
  - intros H GE v. assert (G1 : G <= 1) by (unfold G; replace 1 with (Rpower 10 0) by (apply Rpower_O; lra); apply Rle_Rpower; lra). destruct (peaking_c w g q b a W Q H) as (c & T & k & K & EC). fold G in T, EC. rewrite T. pose proof (pow2_ge_0 (cos v - cos w)). assert (0 <= c) by (rewrite EC; apply Rmult_le_pos; nra). nra.
Qed.
Print Assumptions C119_extreme.

(** At 0 dB the peaking equalizer is the identity: numerator and denominator agree, for every frequency and quality. *)
Theorem C119_neutral w q : 0 < w < PI -> 0 < q -> exists a, peaking w 0 q = Some (a, a) /\ stable a.
Proof.
  intros W Q. destruct (phi_pos w W) as (s & E & S). destruct (den_stable w q) as (a1 & a2 & EA & ST & SP & SM); try lra. exists (coeffs_a w q). split; [|apply den_stable; lra].
  unfold peaking. rewrite E. unfold big_a. unfold coeffs_a in *. destruct (den w q) as [x y]. injection EA as -> ->. unfold amp, dot. replace (0 / 20) with 0 by field. rewrite Rpower_O by lra.
  assert (RT : forall u v, 0 <= v -> u = v * v -> root u = Some v) by (intros u v V ->; unfold root; destruct (Rlt_dec _ 0); [nra|f_equal; now apply sqrt_square]).
  rewrite (RT ((1 + a1 + a2) ^ 2) (1 + a1 + a2)) by (lra || ring). cbn [obind].
  match goal with |- context [root ?x] => rewrite (RT x (1 - a1 + a2)) by (try lra; field; lra) end. cbn [obind].
  match goal with |- context [root ?x] => rewrite (RT x (1 - a2)) by (try lra; field; lra) end. cbn [obind].
  assert (L : forall x y z : R, x = 1 -> y = a1 -> z = a2 -> Some ([x; y; z], [1; a1; a2]) = Some ([1; a1; a2], [1; a1; a2])) by (intros; now subst). apply L; field; lra.
Qed.
Print Assumptions C119_neutral.

(** The public function: the frequency in radians, the type and the factor of the quality arrive as requested, and the poles are those of the analog prototype. *)
Theorem C119_equalizer t f g q fs factor b a : matched_biquad t f g q fs factor = Ok (Some (b, a)) ->
  let w := 2 * PI * (f / IZR fs) in
  let G := Rpower 10 (g / 20) in
  0 < w < PI /\ stable a /\ 0 < power a w /\
  match t with
  | Peaking => moment0 b = moment0 a /\ touches b a G w /\ matched_poles w (q * match factor with Some k => k | None => Rmax (Rabs (0.0868 * g + 1.264)) 0.55 end) a
  | Lowpass => moment0 b = G * moment0 a /\ length b = 3%nat /\ nth 2 b 0 = 0 /\ power b w = (q * G) ^ 2 * power a w /\ matched_poles w q a
  | Highpass => moment0 b = 0 /\ moment1 b 0 = 0 /\ power b w = (q * G) ^ 2 * power a w /\ matched_poles w q a
  | Bandpass => power b 0 = 0 /\ touches b a G w /\ matched_poles w q a
  end.
Proof.
  intros H w G. unfold matched_biquad in H. destruct (Rlt_dec 0 f) as [F0|]; [|discriminate]. destruct (Rlt_dec f (IZR fs / 2)) as [F1|]; [|discriminate]. destruct (Rlt_dec 0 q) as [Q|]; [|discriminate].
  assert (W : 0 < w < PI). { pose proof PI_RGT_0 as P. assert (X : 0 < f / IZR fs) by (apply Rdiv_lt_0_compat; lra). assert (Y : f / IZR fs < / 2) by (apply (Rmult_lt_reg_r (IZR fs)); [lra|]; replace (f / IZR fs * IZR fs) with f by (field; lra); lra). unfold w. split; nra. }
  replace (2 * PI * f / IZR fs) with w in H by (unfold w, Rdiv; ring). clearbody w. split; auto.
  assert (DEN : forall q', 0 < q' -> (lowpass w g q' = Some (b, a) \/ highpass w g q' = Some (b, a) \/ bandpass w g q' = Some (b, a) \/ peaking w g q' = Some (b, a)) -> a = coeffs_a w q') by (intros q' Q'; apply same_den).
  destruct t.
  - unfold scaled_q in H. set (k := match factor with None => _ | Some k => k end) in H. destruct (Rlt_dec 0 k) as [K|]; [|discriminate]. cbn [bind] in H. injection H as H. assert (QK : 0 < q * k) by now apply Rmult_lt_0_compat.
    assert (EK : match factor with Some k => k | None => Rmax (Rabs (0.0868 * g + 1.264)) 0.55 end = k) by (unfold k; destruct factor; reflexivity). rewrite EK. clearbody k. clear EK.
    split; [eapply C119_stable; [| |right; right; right; exact H]; lra|]. destruct (C119_peaking w g (q * k) b a W QK H) as (M & _ & P & _ & T). split; auto. split; auto. split; auto. rewrite (DEN (q * k)) by auto. now apply den_poles.
  - injection H as H. split; [eapply C119_stable; [| |left; exact H]; lra|]. destruct (C119_lowpass w g q b a W Q H) as (L & N & M & _ & P & X). split; auto. split; auto. split; auto. split; auto. split; auto. rewrite (DEN q) by auto. now apply den_poles.
  - injection H as H. split; [eapply C119_stable; [| |right; left; exact H]; lra|]. destruct (C119_highpass w g q W Q) as (b' & a' & H' & M0 & M1 & P & X). rewrite H in H'. injection H' as <- <-. split; auto. split; auto. split; auto. split; auto. rewrite (DEN q) by auto. now apply den_poles.
  - injection H as H. split; [eapply C119_stable; [| |right; right; left; exact H]; lra|]. destruct (C119_bandpass w g q b a W Q H) as (Z & P & _ & T). split; auto. split; auto. split; auto. rewrite (DEN q) by auto. now apply den_poles.
Qed.
Print Assumptions C119_equalizer.

(** The requests that are refused. *)
Theorem C119_refused t f g q fs factor : matched_biquad t f g q fs factor = Err AssertionError <-> f <= 0 \/ IZR fs / 2 <= f \/ q <= 0 \/ (t = Peaking /\ exists k, factor = Some k /\ k <= 0).
Proof.
  unfold matched_biquad. destruct (Rlt_dec 0 f); [|split; auto; intros; left; lra]. destruct (Rlt_dec f (IZR fs / 2)); [|split; auto; intros; right; left; lra]. destruct (Rlt_dec 0 q); [|split; auto; intros; right; right; left; lra].
  destruct t; try (split; [discriminate|]; intros [X|[X|[X|(X & _)]]]; try lra; discriminate). unfold scaled_q. destruct factor as [k|].
  - destruct (Rlt_dec 0 k); cbn [bind].
    + split; [discriminate|]. intros [X|[X|[X|(_ & k' & E & X)]]]; try lra. injection E as <-. lra.
    + split; auto. intros _. right. right. right. split; auto. exists k. split; auto. lra.
  - destruct (Rlt_dec 0 (Rmax (Rabs (868 / 10000 * g + 1264 / 1000)) (55 / 100))) as [L|L]; cbn [bind].
    + split; [discriminate|]. intros [X|[X|[X|(_ & k' & E & _)]]]; try lra; discriminate.
    + exfalso. apply L. apply Rlt_le_trans with (55 / 100); [lra|apply Rmax_r].
Qed.
Print Assumptions C119_refused.

(** A case: a lowpass of quality 1/2 at a third of the sampling rate exists *)
Example C119_case g : exists b a, lowpass (2 * PI / 3) g (1 / 2) = Some (b, a) /\ 0 < power a (2 * PI / 3).
Proof.
  assert (W : 0 < 2 * PI / 3 < PI) by (pose proof PI_RGT_0; lra). pose proof (den_power (2 * PI / 3) (1 / 2) W ltac:(lra)) as DP. unfold lowpass.
  assert (P : phi (2 * PI / 3) = (1 / 4, 3 / 4, 3 / 4)). { unfold phi. replace (2 * PI / 3 / 2) with (PI / 3) by field. rewrite sin_PI3. assert (Q : sqrt 3 * sqrt 3 = 3) by (apply sqrt_sqrt; lra). replace ((sqrt 3 / 2) ^ 2) with (3 / 4) by (transitivity (sqrt 3 * sqrt 3 / 4); [rewrite Q; field|field]). f_equal; [f_equal|]; field. }
  set (r := exp (- (2 * PI / 3))). assert (R0 : 0 < r) by apply exp_pos. assert (D : den (2 * PI / 3) (1 / 2) = (- 2 * r, r * r)).
  { unfold den. replace (1 / (2 * (1 / 2))) with 1 by field. destruct (Rle_dec 1 1); [|lra]. f_equal.
    - replace (1 - 1 ^ 2) with 0 by ring. rewrite sqrt_0, Rmult_0_l, cos_0. unfold r. replace (- (1) * (2 * PI / 3)) with (- (2 * PI / 3)) by ring. ring.
    - unfold r. rewrite <- exp_plus. f_equal. field. }
  unfold big_a, coeffs_a in *. rewrite D, P in *. unfold root. destruct (Rlt_dec _ 0) as [N|_]; [exfalso|cbn [obind]; do 2 eexists; split; [reflexivity|exact DP]]. unfold dot in N. revert N. apply Rle_not_lt.
  replace ((1 + -2 * r + r * r) ^ 2) with ((1 - r) ^ 4) by ring. replace ((1 - -2 * r + r * r) ^ 2) with ((1 + r) ^ 4) by ring. apply Rmult_le_pos; [|lra].
  replace ((1 / 2) ^ 2 * ((1 - r) ^ 4 * (1 / 4) + (1 + r) ^ 4 * (3 / 4) + -4 * (r * r) * (3 / 4)) - (1 - r) ^ 4 * (1 / 4)) with (3 / 16 * ((1 + r) ^ 4 - (1 - r) ^ 4 - 4 * (r * r))) by field.
  assert (X : (1 + r) ^ 4 - (1 - r) ^ 4 - 4 * (r * r) = 4 * r * (2 - r) + 8 * r ^ 3) by ring. assert (R1 : r < 1) by (unfold r; rewrite <- exp_0; apply exp_increasing; lra). rewrite X. pose proof (pow_lt r 3 R0). nra.
Qed.
(** A case: a bandpass of quality 1/2 at a quarter of the sampling rate exists *)
Example C119_case2 g : exists b a, bandpass (PI / 2) g (1 / 2) = Some (b, a) /\ 0 < power a (PI / 2).
Proof.
  assert (W : 0 < PI / 2 < PI) by (pose proof PI_RGT_0; lra). pose proof (den_power (PI / 2) (1 / 2) W ltac:(lra)) as DP. unfold bandpass.
  assert (P : phi (PI / 2) = (1 / 2, 1 / 2, 1)). { unfold phi. replace (PI / 2 / 2) with (PI / 4) by field. rewrite sin_PI4. assert (Q : sqrt 2 * sqrt 2 = 2) by (apply sqrt_sqrt; lra). assert (Z : 0 < sqrt 2) by (apply sqrt_lt_R0; lra). replace ((1 / sqrt 2) ^ 2) with (1 / 2) by (rewrite <- Q at 1; field; lra). f_equal; [f_equal|]; field. }
  set (r := exp (- (PI / 2))). assert (R0 : 0 < r) by apply exp_pos. assert (D : den (PI / 2) (1 / 2) = (- 2 * r, r * r)).
  { unfold den. replace (1 / (2 * (1 / 2))) with 1 by field. destruct (Rle_dec 1 1); [|lra]. f_equal.
    - replace (1 - 1 ^ 2) with 0 by ring. rewrite sqrt_0, Rmult_0_l, cos_0. unfold r. replace (- (1) * (PI / 2)) with (- (PI / 2)) by ring. ring.
    - unfold r. rewrite <- exp_plus. f_equal. field. }
  unfold big_a, coeffs_a in *. rewrite D, P in *. unfold dot.
  match goal with |- context [root ?x] => replace x with (8 * r * (1 + r * r)) by field end. unfold root at 1. pose proof (Rmult_lt_0_compat r r R0 R0) as RR. destruct (Rlt_dec _ 0) as [N|_]; [nra|]. cbn [obind].
  set (t := sqrt _). assert (T : t * t = 8 * r * (1 + r * r)) by (apply sqrt_sqrt; nra). clearbody t.
  match goal with |- context [root ?x] => replace x with ((1 - r) ^ 4 + 2 * r * (1 - r) ^ 2) by (transitivity ((1 - 2 * r + r * r) ^ 2 - 4 * (r * r) + t * t / 4); [rewrite T; field|field]) end.
  unfold root. pose proof (pow2_ge_0 (1 - r)). pose proof (pow2_ge_0 ((1 - r) ^ 2)) as P4. destruct (Rlt_dec _ 0) as [N|_]; [exfalso; nra|]. cbn [obind]. do 2 eexists. split; [reflexivity|exact DP].
Qed.
(** A case: a highpass at 1 kHz exists through the public function *)
Example C119_case3 : exists b a, matched_biquad Highpass 1000 6 2 48000 None = Ok (Some (b, a)).
Proof.
  unfold matched_biquad. destruct (Rlt_dec 0 1000); [|lra]. destruct (Rlt_dec 1000 (48000 / 2)); [|lra]. destruct (Rlt_dec 0 2); [|lra]. destruct (C119_highpass (2 * PI * 1000 / 48000) 6 2) as (b & a & E & _); [pose proof PI_RGT_0; lra|lra|]. rewrite E. eauto.
Qed.
