(** Property C117: the recursive approximation of a gaussian kernel. *)
From Coq Require Import List Arith Lia ZArith Bool Reals Lra Psatz.
From Verif Require Import Alg Spec M_arrays M_gausskernel.
Import ListNotations.
Local Open Scope R_scope.

(** ** Specification *)
(** squared magnitude of a polynomial in e^(-jw) *)
Fixpoint re_part (c : list R) (n : nat) (w : R) : R := match c with [] => 0 | v :: t => v * cos (INR n * w) + re_part t (S n) w end.
Fixpoint im_part (c : list R) (n : nat) (w : R) : R := match c with [] => 0 | v :: t => v * sin (INR n * w) + im_part t (S n) w end.
Definition power (c : list R) (w : R) : R := (re_part c 0 w)² + (im_part c 0 w)².
(** the response of forward and backward (zero-phase) filtering through second-order sections: the product of their squared magnitudes *)
Definition zero_phase_response (sos : list (list R * list R)) (w : R) : R := fold_right (fun s acc => power (fst s) w / power (snd s) w * acc) 1 sos.

(** ** Proofs *)
Lemma mu_closed l : 0 < l -> let s := sqrt (1 + 4 * l) in 1 < s /\ l = (s * s - 1) / 4 /\ kernel_mu l = (s - 1) / (s + 1) /\ sqrt (kernel_mu l / l) = 1 - kernel_mu l.
Proof.
  intros L s. assert (SS : s * s = 1 + 4 * l) by (apply sqrt_sqrt; lra). assert (S1 : 1 < s). { unfold s. rewrite <- sqrt_1 at 1. apply sqrt_lt_1_alt. lra. }
  assert (E : l = (s * s - 1) / 4) by lra. assert (M : kernel_mu l = (s - 1) / (s + 1)). { unfold kernel_mu. fold s. rewrite E. field. split; nra. }
  split; auto. split; auto. split; auto. replace (kernel_mu l / l) with (Rsqr (2 / (s + 1))). 2:{ rewrite M, E. unfold Rsqr. field. split; [nra|lra]. }
  rewrite sqrt_Rsqr by (apply Rlt_le, Rdiv_lt_0_compat; lra). rewrite M. field. lra.
Qed.
Lemma section_power l w : 0 < l -> let mu := kernel_mu l in power [sqrt (mu / l); 0; 0] w / power [1; - mu; 0] w = / (1 + 2 * l * (1 - cos w)).
Proof.
  intros L mu. destruct (mu_closed l L) as (S1 & El & Em & Ek). set (s := sqrt (1 + 4 * l)) in *. unfold mu. rewrite Ek. set (m := kernel_mu l) in *.
  assert (LM : l * (1 - m) ^ 2 = m) by (rewrite El, Em; field; lra). assert (M1 : 1 - m = 2 / (s + 1)) by (rewrite Em; field; lra). assert (P : 0 < 1 - m) by (rewrite M1; apply Rdiv_lt_0_compat; lra).
  pose proof (COS_bound w) as CB. pose proof (sin2_cos2 w) as SC. unfold Rsqr in SC.
  assert (N : power [1 - m; 0; 0] w = (1 - m) ^ 2). { unfold power, Rsqr. cbn [re_part im_part INR]. rewrite (Rmult_0_l w), cos_0, sin_0. ring. }
  assert (D : power [1; - m; 0] w = (1 - m) ^ 2 * (1 + 2 * l * (1 - cos w))).
  { unfold power, Rsqr. cbn [re_part im_part INR]. rewrite (Rmult_0_l w), cos_0, sin_0, (Rmult_1_l w). replace ((1 - m) ^ 2 * (1 + 2 * l * (1 - cos w))) with ((1 - m) ^ 2 + 2 * (l * (1 - m) ^ 2) * (1 - cos w)) by ring. rewrite LM.
    transitivity (1 - 2 * m * cos w + m * m * (sin w * sin w + cos w * cos w)); [ring|]. rewrite SC. ring. }
  rewrite N, D. field. split; [nra|lra].
Qed.
Lemma response_repeat p k w : zero_phase_response (repeat p k) w = (power (fst p) w / power (snd p) w) ^ k.
Proof. unfold zero_phase_response. induction k; cbn; auto. now rewrite IHk. Qed.

(** The width: the standard deviation is chosen such that the gaussian bell has the boundary value at the given time. *)
Definition bell (sigma t : R) : R := exp (- t ^ 2 / (2 * sigma ^ 2)).
Lemma sigma_ok seconds boundary fs : 0 < seconds -> 0 < boundary < 1 -> (0 < fs)%Z -> exists sigma, kernel_sigma seconds boundary fs = Some sigma /\ 0 < sigma /\ bell sigma (seconds * IZR fs) = boundary.
Proof.
  intros S B F. apply IZR_lt in F. assert (LB : ln (1 / boundary) = - ln boundary) by (unfold Rdiv; rewrite Rmult_1_l; apply ln_Rinv; lra).
  assert (LN : ln boundary < 0) by (rewrite <- ln_1; apply ln_increasing; lra). unfold kernel_sigma. rewrite LB. destruct (Rlt_dec 0 (2 * - ln boundary)); [|lra].
  assert (Q : 0 < sqrt (2 * - ln boundary)) by (apply sqrt_lt_R0; lra). eexists. split; [reflexivity|]. assert (T : 0 < seconds * IZR fs) by (apply Rmult_lt_0_compat; lra). split; [now apply Rdiv_lt_0_compat|].
  unfold bell. rewrite <- (exp_ln boundary) at 2 by lra. f_equal. set (t := seconds * IZR fs) in *. set (q := sqrt (2 * - ln boundary)) in *. assert (QQ : q * q = 2 * - ln boundary) by (apply sqrt_sqrt; lra).
  replace (- t ^ 2 / (2 * (t / q) ^ 2)) with (- (q * q) / 2) by (field; lra). rewrite QQ. field.
Qed.
Lemma even_half order : Nat.even order = true -> (0 < order)%nat -> exists k, (0 < k)%nat /\ order = (2 * k)%nat /\ Nat.div order 2 = k.
Proof. intros E P. apply Nat.even_spec in E as (k & ->). exists k. split; [lia|]. split; auto. rewrite Nat.mul_comm. now apply Nat.div_mul. Qed.

(** The kernel is made of order / 2 equal stable first-order sections of unit gain. Applied forward and backward, its response is the power order / 2 of
    1 / (1 + sigma^2 (1 - cos w) / (order / 2)), where the gaussian bell of standard deviation sigma has the boundary value at the kernel length. *)
Theorem C117_response seconds boundary order fs : 0 < seconds -> 0 < boundary < 1 -> (0 < fs)%Z -> Nat.even order = true -> (0 < order)%nat ->
  exists sigma sos mu, gaussian_kernel seconds boundary order (Some fs) = Ok (Some sos) /\ 0 < sigma /\ bell sigma (seconds * IZR fs) = boundary /\
    0 < mu < 1 /\ (2 * length sos)%nat = order /\ (forall s, In s sos -> s = ([1 - mu; 0; 0], [1; - mu; 0])) /\
    forall w, zero_phase_response sos w = / (1 + sigma ^ 2 * (1 - cos w) / INR (length sos)) ^ length sos.
Proof.
  intros S B F E P. destruct (sigma_ok seconds boundary fs S B F) as (sigma & ES & SP & SB). destruct (even_half order E P) as (k & K & -> & D). pose proof (lt_0_INR k K) as KR.
  assert (LP : 0 < kernel_lambda sigma k) by (unfold kernel_lambda; apply Rdiv_lt_0_compat; [apply pow_lt|]; lra). set (l := kernel_lambda sigma k) in *.
  destruct (mu_closed l LP) as (S1 & El & Em & Ek). exists sigma, (kernel_sections l k), (kernel_mu l).
  assert (LEN : length (kernel_sections l k) = k) by apply repeat_length. rewrite LEN.
  split; [|split; [auto|split; [auto|split; [|split; [auto|split]]]]].
  - unfold gaussian_kernel. rewrite E, D, ES. cbn [negb]. cbv zeta. fold l. destruct (Nat.eqb_spec k 0); [lia|]. destruct (Req_EM_T l 0); [lra|reflexivity].
  - rewrite Em. set (s := sqrt (1 + 4 * l)) in *. split; [apply Rdiv_lt_0_compat; lra|]. apply (Rmult_lt_reg_r (s + 1)); [lra|]. unfold Rdiv. rewrite Rmult_assoc, Rinv_l by lra. lra.
  - intros x I. apply repeat_spec in I. now rewrite I, Ek.
  - intros w. unfold kernel_sections. rewrite response_repeat. cbn [fst snd]. rewrite section_power by auto. pose proof (COS_bound w). replace (2 * l * (1 - cos w)) with (sigma ^ 2 * (1 - cos w) / INR k) by (unfold l, kernel_lambda; field; lra).
    apply pow_inv.
Qed.
Print Assumptions C117_response.

Lemma sin_sq_le u : (sin u)² <= u².
Proof.
  assert (P : forall x, 0 < x -> (sin x)² <= x²).
  { intros x X. apply Rsqr_le_abs_1. rewrite (Rabs_pos_eq x) by lra. apply Rabs_le. split; [|apply Rlt_le; now apply sin_lt_x]. pose proof (SIN_bound x). destruct (Rlt_dec x PI); [pose proof (sin_ge_0 x ltac:(lra) ltac:(lra)); lra|]. pose proof PI_RGT_0. pose proof PI2_1. lra. }
  destruct (Rtotal_order u 0) as [L|[->|L]]; auto.
  - rewrite (Rsqr_neg u), (Rsqr_neg (sin u)), <- sin_neg. apply P. lra.
  - rewrite sin_0. lra.
Qed.
Lemma one_minus_cos w : 1 - cos w <= w ^ 2 / 2.
Proof. pose proof (sin_sq_le (w / 2)) as S. pose proof (cos_2a_sin (w / 2)) as C. replace (2 * (w / 2)) with w in C by field. unfold Rsqr in S. rewrite C. nra. Qed.
Lemma exp_pow x k : exp x ^ k = exp (INR k * x).
Proof. induction k; [cbn; now rewrite Rmult_0_l, exp_0|]. rewrite S_INR, Rmult_plus_distr_r, Rmult_1_l, exp_plus, <- IHk. cbn. ring. Qed.

(** The response is 1 at 0 Hz, positive, never above 1 and never under the spectrum exp (-(sigma w)^2 / 2) of the gaussian bell; with x = sigma^2 (1 - cos w) it lies between exp (-x) and
    exp (-x / (1 + 2 x / order)), so that it tends to exp (-x) for growing orders. *)
Theorem C117_gaussian sigma k w : 0 < sigma -> (0 < k)%nat -> let x := sigma ^ 2 * (1 - cos w) in let r := / (1 + x / INR k) ^ k in
  exp (- (sigma * w) ^ 2 / 2) <= exp (- x) <= r /\ r <= exp (- x / (1 + x / INR k)) <= 1 /\ (w = 0 -> r = 1).
Proof.
  intros SP K x r. pose proof (lt_0_INR k K) as KR. pose proof (COS_bound w) as CB. pose proof (pow_lt sigma 2 SP) as S2. assert (X : 0 <= x) by (apply Rmult_le_pos; lra).
  set (t := x / INR k). assert (T : 0 <= t) by (apply Rmult_le_pos; [auto|apply Rlt_le, Rinv_0_lt_compat; auto]). assert (XT : x = INR k * t) by (unfold t; field; lra).
  assert (EXPLE : forall a b, a <= b -> exp a <= exp b) by (intros a b [L|<-]; [apply Rlt_le; now apply exp_increasing|lra]).
  assert (E1 : forall y, 1 + y <= exp y). { intros y. destruct (Req_dec y 0) as [->|N]; [rewrite exp_0; lra|]. apply Rlt_le. now apply exp_ineq1. }
  assert (RE : r = (/ (1 + t)) ^ k) by (unfold r; fold t; symmetry; apply pow_inv).
  assert (W0 : w = 0 -> t = 0) by (intros W; unfold t, x; rewrite W, cos_0; field; lra).
  assert (G : exp (- (sigma * w) ^ 2 / 2) <= exp (- x)).
  { apply EXPLE. unfold x. pose proof (one_minus_cos w). replace (- (sigma * w) ^ 2 / 2) with (- (sigma ^ 2 * (w ^ 2 / 2))) by field. nra. }
  fold t. clearbody t r x. subst x.
  split; [split; auto|split; [split|]].
  - rewrite RE. replace (- (INR k * t)) with (INR k * - t) by ring. rewrite <- exp_pow. apply pow_incr. split; [apply Rlt_le, exp_pos|]. rewrite exp_Ropp. apply Rinv_le_contravar; [lra|apply E1].
  - rewrite RE. replace (- (INR k * t) / (1 + t)) with (INR k * (- t / (1 + t))) by (field; lra). rewrite <- exp_pow. apply pow_incr. split; [apply Rlt_le, Rinv_0_lt_compat; lra|].
    replace (/ (1 + t)) with (1 + (- t / (1 + t))) by (field; lra). apply E1.
  - apply Rle_trans with (exp 0); [|rewrite exp_0; lra]. apply EXPLE. replace (- (INR k * t) / (1 + t)) with (- ((INR k * t) * / (1 + t))) by (field; lra). assert (0 <= (INR k * t) * / (1 + t)); [|lra]. apply Rmult_le_pos; auto. apply Rlt_le, Rinv_0_lt_compat. lra.
  - intros W. rewrite RE, (W0 W), Rplus_0_r, Rinv_1. apply pow1.
Qed.
Print Assumptions C117_gaussian.

(** Order 0 is accepted and divides by zero. Odd orders and a missing rate are refused. *)
Theorem C117_order_zero_refuted seconds boundary order fs : 0 < boundary < 1 ->
  gaussian_kernel seconds boundary 0 (Some fs) = Ok None /\ gaussian_kernel seconds boundary order None = Err AssertionError /\ (Nat.odd order = true -> gaussian_kernel seconds boundary order (Some fs) = Err AssertionError).
Proof.
  intros B. split; [|split].
  - unfold gaussian_kernel. cbn [Nat.even negb Nat.div]. destruct (kernel_sigma _ _ _); auto.
  - unfold gaussian_kernel. now destruct (negb _).
  - intros O. unfold gaussian_kernel. unfold Nat.odd in O. now rewrite O.
Qed.
Print Assumptions C117_order_zero_refuted.

(** A case: 10 ms, the default boundary value and order 12 at 48 kHz *)
Example C117_case : exists sos, gaussian_kernel (1 / 100) (1 / 100) 12 (Some 48000%Z) = Ok (Some sos) /\ length sos = 6%nat.
Proof. destruct (C117_response (1 / 100) (1 / 100) 12 48000) as (sigma & sos & mu & E & _ & _ & _ & L & _); try lra; try lia; auto. exists sos. split; auto. lia. Qed.
