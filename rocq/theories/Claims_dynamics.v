(** C36, C40: compressor and time smoothing. *)
From Coq Require Import List Arith Lia Reals Lra Bool Psatz.
From Verif Require Import Alg Spec M_dynamics.
Import ListNotations.
Local Open Scope R_scope.

(** ** C40 *)
Lemma Ok_inj {A} (a b : A) : Ok a = Ok b -> b = a.
Proof. congruence. Qed.
Lemma ln_neg : ln (1 - 95 / 100) < 0.
Proof. rewrite <- ln_1. apply ln_increasing; lra. Qed.
Lemma ema_range t fs : 0 <= t -> 0 < fs -> 0 < ema_factor t fs <= 1.
Proof.
  intros Ht Hf. unfold ema_factor. destruct (Req_EM_T t 0). lra.
  pose proof (exp_pos (ln (1 - 95 / 100) / t / fs)).
  assert (exp (ln (1 - 95 / 100) / t / fs) < 1). 2: lra.
  pose proof ln_neg. rewrite <- exp_0 at 2. apply exp_increasing.
  assert (0 < / t) by (apply Rinv_0_lt_compat; lra). assert (0 < / fs) by (apply Rinv_0_lt_compat; lra).
  set (l := ln _) in *. unfold Rdiv. assert (l * / t < 0) by nra. nra.
Qed.
Lemma one_is_two f x : forall y, smooth_lfilter f ((1 - f) * y) x = smooth_from f f y x.
Proof.
  induction x as [|v t IH]; intros y; cbn [smooth_lfilter smooth_from]; auto. unfold smooth_step. destruct (Rlt_dec y v); rewrite IH; reflexivity.
Qed.
Lemma smooth_one_two f x : smooth_one f x = smooth_two f f x.
Proof.
  destruct x as [|v t]; auto. cbn [smooth_one smooth_two smooth_lfilter]. rewrite one_is_two. replace (f * v + (1 - f) * v) with v by lra. reflexivity.
Qed.
Lemma smooth_from_length fa fd x : forall y, length (smooth_from fa fd y x) = length x.
Proof. induction x; intros; cbn; auto. Qed.
(** y is x smoothed: it starts at x[0]; each sample lies between its predecessor and the new input. *)
Definition between (a b c : R) : Prop := Rmin a b <= c <= Rmax a b.
Lemma smooth_step_between fa fd y x : 0 <= fa <= 1 -> 0 <= fd <= 1 -> between y x (smooth_step fa fd y x).
Proof.
  intros Ha Hd. unfold between, smooth_step. destruct (Rlt_dec y x).
  - rewrite Rmin_left, Rmax_right by lra. nra.
  - rewrite Rmin_right, Rmax_left by lra. nra.
Qed.
Lemma smooth_from_spec fa fd x : 0 <= fa <= 1 -> 0 <= fd <= 1 -> forall y n, (n < length x)%nat ->
  between (nth n (y :: smooth_from fa fd y x) 0) (nth n x 0) (nth n (smooth_from fa fd y x) 0) /\
  nth n (smooth_from fa fd y x) 0 = smooth_step fa fd (nth n (y :: smooth_from fa fd y x) 0) (nth n x 0).
Proof.
  intros Ha Hd. induction x as [|v t IH]; intros y n Hn. simpl in Hn; lia. destruct n as [|n].
  - cbn. split; auto. now apply smooth_step_between.
  - cbn [smooth_from]. apply (IH (smooth_step fa fd y v) n). simpl in Hn; lia.
Qed.
Lemma smooth_from_bounds fa fd lo hi x : 0 <= fa <= 1 -> 0 <= fd <= 1 -> forall y, lo <= y <= hi -> Forall (fun v => lo <= v <= hi) x ->
  Forall (fun v => lo <= v <= hi) (smooth_from fa fd y x).
Proof.
  intros Ha Hd. induction x as [|v t IH]; intros y Hy H. constructor. inversion H; subst. cbn [smooth_from].
  assert (lo <= smooth_step fa fd y v <= hi).
  { destruct (smooth_step_between fa fd y v Ha Hd) as [B1 B2]. unfold Rmin, Rmax in *. destruct (Rle_dec y v); lra. }
  constructor; auto.
Qed.

(** Accepted times, and the recurrence: the factor depends only on whether the new input is above the last output. *)
Theorem C40_smoothing_recurrence :
  forall x fs ta td, 0 < fs ->
  (ta < 0 \/ (exists d, td = Some d /\ (d < 0 \/ (ta = 0 /\ d = 0))) -> time_smoothing x fs ta td = Err AssertionError) /\
  (0 <= ta -> (forall d, td = Some d -> 0 <= d /\ ~ (ta = 0 /\ d = 0)) ->
   exists y, time_smoothing x fs ta td = Ok y /\ length y = length x /\
     (forall x0 t, x = x0 :: t -> nth 0 y 0 = x0) /\
     (forall n, (S n < length x)%nat ->
        let f := if Rlt_dec (nth n y 0) (nth (S n) x 0) then ema_factor ta fs else ema_factor (match td with Some d => d | None => ta end) fs in
        nth (S n) y 0 = f * nth (S n) x 0 + (1 - f) * nth n y 0)).
Proof.
  intros x fs ta td Hf. split.
  - intros H. unfold time_smoothing. destruct (Rlt_dec ta 0); auto. destruct H as [|[d [-> H]]]; [lra|].
    destruct (Rlt_dec d 0); auto. destruct H as [|[-> ->]]; [lra|]. destruct (Req_EM_T 0 0); [auto|lra].
  - intros Ha Hd.
    assert (E : time_smoothing x fs ta td = Ok (smooth_two (ema_factor ta fs) (ema_factor (match td with Some d => d | None => ta end) fs) x)).
    { unfold time_smoothing. destruct (Rlt_dec ta 0); [lra|]. destruct td as [d|].
      - destruct (Hd d eq_refl) as [D1 D2]. destruct (Rlt_dec d 0); [lra|]. destruct (Req_EM_T ta 0); auto. destruct (Req_EM_T d ta); auto. exfalso; apply D2; lra.
      - now rewrite smooth_one_two. }
    rewrite E. set (fa := ema_factor ta fs). set (fd := ema_factor _ fs).
    assert (Fa : 0 <= fa <= 1) by (pose proof (ema_range ta fs Ha Hf); fold fa in H; lra).
    assert (Fd : 0 <= fd <= 1). { unfold fd. destruct td as [d|]; [destruct (Hd d eq_refl) as [D _]; pose proof (ema_range d fs D Hf)|pose proof (ema_range ta fs Ha Hf)]; lra. }
    eexists. split; [reflexivity|]. destruct x as [|x0 t]. { split; auto. split; [discriminate|]. simpl; lia. }
    cbn [smooth_two length]. rewrite smooth_from_length. split; auto. split. intros ? ? [= -> ->]; reflexivity.
    intros n Hn. destruct (smooth_from_spec fa fd t Fa Fd x0 n ltac:(lia)) as [_ S]. exact S.
Qed.
Print Assumptions C40_smoothing_recurrence.
(** Outputs stay in the range of the input, move towards the new sample without passing it, and leave constants alone. *)
Theorem C40_smoothing_range :
  forall x fs ta td y, 0 < fs -> time_smoothing x fs ta td = Ok y ->
  (forall lo hi, Forall (fun v => lo <= v <= hi) x -> Forall (fun v => lo <= v <= hi) y) /\
  (forall n, (S n < length x)%nat -> between (nth n y 0) (nth (S n) x 0) (nth (S n) y 0)) /\
  (forall c, (forall v, In v x -> v = c) -> y = x).
Proof.
  intros x fs ta td y Hf E.
  assert (G : exists fa fd, 0 <= fa <= 1 /\ 0 <= fd <= 1 /\ y = smooth_two fa fd x).
  { unfold time_smoothing in E. destruct (Rlt_dec ta 0); [discriminate|]. pose proof (ema_range ta fs ltac:(lra) Hf). destruct td as [d|].
    - destruct (Rlt_dec d 0); [discriminate|]. pose proof (ema_range d fs ltac:(lra) Hf). exists (ema_factor ta fs), (ema_factor d fs).
      destruct (Req_EM_T ta 0); [destruct (Req_EM_T d ta); [discriminate|]|]; injection E as <-; repeat split; auto; lra.
    - injection E as <-. exists (ema_factor ta fs), (ema_factor ta fs). rewrite smooth_one_two. repeat split; auto; lra. }
  destruct G as (fa & fd & Fa & Fd & ->). destruct x as [|x0 t].
  - split; [auto|]. split; [simpl; lia|auto].
  - cbn [smooth_two]. split; [|split].
    + intros lo hi H. inversion H; subst. constructor; auto. now apply smooth_from_bounds.
    + intros n Hn. apply (smooth_from_spec fa fd t Fa Fd x0 n). simpl in Hn; lia.
    + intros c Hc. f_equal. assert (Ht : forall v, In v t -> v = c) by (intros; apply Hc; now right).
      rewrite (Hc x0) by now left. clear - Fa Fd Ht. induction t as [|v t IH]; auto. cbn [smooth_from].
      assert (smooth_step fa fd c v = v) as ->. { rewrite (Ht v) by now left. unfold smooth_step. destruct (Rlt_dec c c); lra. }
      f_equal. rewrite (Ht v) by now left. apply IH. intros; apply Ht; now right.
Qed.
Print Assumptions C40_smoothing_range.
(** After the ascending time the step response has reached 95 %: from 0, a unit step gives 1 - 0.05^(n / (time * fs)). *)
Theorem C40_step_response :
  forall fs ta td n y, 0 < fs -> 0 < ta -> time_smoothing (0 :: repeat 1 (S n)) fs ta td = Ok y ->
  nth (S n) y 0 = 1 - Rpower (5 / 100) (INR (S n) / (ta * fs)).
Proof.
  intros fs ta td n y Hf Ha E.
  assert (G : exists fd, y = smooth_two (ema_factor ta fs) fd (0 :: repeat 1 (S n))).
  { unfold time_smoothing in E. destruct (Rlt_dec ta 0); [discriminate|]. destruct td as [d|].
    - destruct (Rlt_dec d 0); [discriminate|]. exists (ema_factor d fs). destruct (Req_EM_T ta 0); [lra|]. now apply Ok_inj in E.
    - exists (ema_factor ta fs). rewrite <- smooth_one_two. now apply Ok_inj in E. }
  destruct G as [fd ->]. cbn [smooth_two]. 
  assert (H : forall m y0, y0 < 1 -> nth m (smooth_from (ema_factor ta fs) fd y0 (repeat 1 (S m))) 0 = 1 - (1 - y0) * (1 - ema_factor ta fs) ^ (S m)).
  { assert (F : 0 < ema_factor ta fs <= 1) by (apply ema_range; lra).
    assert (F1 : ema_factor ta fs < 1). { unfold ema_factor. destruct (Req_EM_T ta 0); [lra|]. pose proof (exp_pos (ln (1 - 95/100) / ta / fs)). lra. }
    induction m; intros y0 Hy.
    - cbn. unfold smooth_step. destruct (Rlt_dec y0 1); lra.
    - change (repeat 1 (S (S m))) with (1 :: repeat 1 (S m)). cbn [smooth_from nth].
      assert (Es : smooth_step (ema_factor ta fs) fd y0 1 = 1 - (1 - y0) * (1 - ema_factor ta fs)). { unfold smooth_step. destruct (Rlt_dec y0 1); lra. }
      rewrite Es. rewrite IHm. cbn [pow]. lra. nra. }
  change (nth (S n) (0 :: ?l) 0) with (nth n l 0). rewrite H by lra. unfold ema_factor. destruct (Req_EM_T ta 0); [lra|].
  replace (1 - (1 - exp (ln (1 - 95 / 100) / ta / fs))) with (exp (ln (1 - 95 / 100) / ta / fs)) by lra.
  rewrite <- Rpower_pow by apply exp_pos. unfold Rpower. rewrite ln_exp. f_equal. rewrite Rminus_0_r, Rmult_1_l. f_equal.
  replace (1 - 95 / 100) with (5 / 100) by lra. field. lra.
Qed.
Print Assumptions C40_step_response.
Example C40_example : 0 < 100 /\ exists y, time_smoothing [0; 1; 1] 100 (1/10) (Some 0) = Ok y.
Proof.
  split. lra. unfold time_smoothing. destruct (Rlt_dec (1/10) 0); [lra|]. destruct (Rlt_dec 0 0); [lra|]. destruct (Req_EM_T (1/10) 0); [lra|].
  eexists; reflexivity.
Qed.

(** ** C36 *)
Lemma knee_defined down T r W x : 0 <= W -> (W <> 0 \/ x <> T) -> exists y, knee down T r W x = Some y.
Proof.
  intros HW H. unfold knee. destruct (Rlt_dec (x - T) (- W / 2)); [eauto|]. destruct (Rle_dec (Rabs (x - T)) (W / 2)) as [C|]; [|eauto].
  destruct (Req_EM_T W 0) as [->|]; [|eauto]. exfalso. destruct H; [lra|].
  unfold Rabs in C. destruct (Rcase_abs (x - T)); lra.
Qed.
Lemma knee_undefined down T r x : knee down T r 0 x = None <-> x = T.
Proof.
  unfold knee. split.
  - destruct (Rlt_dec (x - T) (- 0 / 2)); [discriminate|]. destruct (Rle_dec (Rabs (x - T)) (0 / 2)) as [C|]; [|discriminate].
    unfold Rabs in C. destruct (Rcase_abs (x - T)); lra.
  - intros ->. destruct (Rlt_dec (T - T) (- 0 / 2)); [lra|]. destruct (Rle_dec (Rabs (T - T)) (0 / 2)) as [C|C].
    destruct (Req_EM_T 0 0); [auto|lra]. exfalso; apply C. replace (T - T) with 0 by lra. rewrite Rabs_R0. lra.
Qed.
Lemma inv_ratio r : 1 <= r -> 0 < 1 / r <= 1.
Proof.
  intros. assert (0 < / r) by (apply Rinv_0_lt_compat; lra). split. unfold Rdiv; lra. apply (Rmult_le_reg_l r); [lra|]. unfold Rdiv. rewrite Rmult_1_l, Rinv_r by lra. lra.
Qed.
(** The excess over the threshold, rounded off over a knee of width W. *)
Definition excess (W u : R) : R := if Rlt_dec u 0 then 0 else if Rle_dec u W then u * u / (2 * W) else u - W / 2.
Lemma excess_lip W u v : 0 <= W -> u <= v -> 0 <= excess W v - excess W u <= v - u.
Proof.
  intros HW H. unfold excess.
  destruct (Req_dec W 0) as [->|NW].
  { destruct (Rlt_dec u 0), (Rlt_dec v 0), (Rle_dec u 0), (Rle_dec v 0); try lra.
    all: try (replace u with 0 in * by lra); try (replace v with 0 in * by lra); unfold Rdiv; rewrite ?Rmult_0_l; lra. }
  assert (Q : forall w, exists q, w * w / (2 * W) = q /\ w * w = 2 * W * q).
  { intros w. eexists. split; [reflexivity|]. field. lra. }
  destruct (Q u) as (q & -> & Eq), (Q v) as (q' & -> & Eq').
  assert (HW' : 0 < W) by lra.
  destruct (Rlt_dec u 0), (Rlt_dec v 0); try lra.
  - destruct (Rle_dec v W); [|lra]. split; apply (Rmult_le_reg_l (2 * W)); try lra; nra.
  - destruct (Rle_dec u W), (Rle_dec v W); try lra.
    + split; apply (Rmult_le_reg_l (2 * W)); try lra; nra.
    + split; apply (Rmult_le_reg_l (2 * W)); try lra; nra.
Qed.
Lemma excess_nonneg W u : 0 <= W -> 0 <= excess W u.
Proof.
  intros HW. unfold excess. destruct (Rlt_dec u 0); [lra|]. destruct (Rle_dec u W); [|lra].
  destruct (Req_dec W 0) as [->|]. rewrite Rmult_0_r. unfold Rdiv. rewrite Rinv_0. lra.
  apply Rmult_le_pos. nra. left. apply Rinv_0_lt_compat. lra.
Qed.
Lemma knee_down_val T r W x y : 0 <= W -> knee true T r W x = Some y -> y = x - (1 - 1 / r) * excess W (x - T + W / 2).
Proof.
  intros HW. unfold knee, excess. destruct (Rlt_dec (x - T) (- W / 2)).
  { intros [= <-]. destruct (Rlt_dec (x - T + W / 2) 0); lra. }
  destruct (Rle_dec (Rabs (x - T)) (W / 2)) as [C|C].
  - destruct (Req_EM_T W 0); [discriminate|]. intros [= <-].
    assert (x - T <= W / 2) by (unfold Rabs in C; destruct (Rcase_abs (x - T)); lra).
    destruct (Rlt_dec (x - T + W / 2) 0); [lra|]. destruct (Rle_dec (x - T + W / 2) W); [|lra].
    cbn [pow]. rewrite Rmult_1_r. set (q := (x - T + W / 2) * (x - T + W / 2)). replace (q / (2 * W)) with (q / 2 / W) by (field; lra). unfold Rdiv; ring.
  - intros [= <-]. assert (W / 2 < x - T) by (unfold Rabs in C; destruct (Rcase_abs (x - T)); lra).
    destruct (Rlt_dec (x - T + W / 2) 0); [lra|]. destruct (Rle_dec (x - T + W / 2) W); [lra|]. unfold Rdiv. lra.
Qed.
Lemma knee_up_val T r W x y : 0 <= W -> knee false T r W x = Some y -> y = x + (1 - 1 / r) * excess W (T - x + W / 2).
Proof.
  intros HW. unfold knee, excess. destruct (Rlt_dec (x - T) (- W / 2)).
  { intros [= <-]. destruct (Rlt_dec (T - x + W / 2) 0); [lra|]. destruct (Rle_dec (T - x + W / 2) W); [lra|]. unfold Rdiv. lra. }
  destruct (Rle_dec (Rabs (x - T)) (W / 2)) as [C|C].
  - destruct (Req_EM_T W 0); [discriminate|]. intros [= <-].
    assert (- W / 2 <= x - T <= W / 2) by (unfold Rabs in C; destruct (Rcase_abs (x - T)); lra).
    destruct (Rlt_dec (T - x + W / 2) 0); [lra|]. destruct (Rle_dec (T - x + W / 2) W); [|lra].
    cbn [pow]. rewrite Rmult_1_r. replace ((x - T - W / 2) * (x - T - W / 2)) with ((T - x + W / 2) * (T - x + W / 2)) by ring.
    set (q := (T - x + W / 2) * (T - x + W / 2)). replace (q / (2 * W)) with (q / 2 / W) by (field; lra). unfold Rdiv; ring.
  - intros [= <-]. assert (W / 2 < x - T) by (unfold Rabs in C; destruct (Rcase_abs (x - T)); lra).
    destruct (Rlt_dec (T - x + W / 2) 0); lra.
Qed.
Lemma Rpos_mul_le c u v : 0 <= c <= 1 -> 0 <= u <= v -> 0 <= c * u <= v.
Proof. nra. Qed.

(** The static curve (level in dB): never expands level differences nor shrinks them by more than the ratio; it is the
    identity on one side of the knee and the line of slope 1/ratio through the threshold on the other. It is undefined (nan) exactly at
    the threshold of a hard knee. *)
Theorem C36_static_curve :
  forall down T r W, 1 <= r -> 0 <= W ->
  (forall x, knee down T r W x = None <-> W = 0 /\ x = T) /\
  (forall x y, knee down T r W x = Some y -> if down then y <= x else x <= y) /\
  (forall x y x' y', knee down T r W x = Some y -> knee down T r W x' = Some y' -> x <= x' -> (x' - x) / r <= y' - y <= x' - x) /\
  (forall x y, knee down T r W x = Some y ->
     (x < T - W / 2 -> y = if down then x else T + (x - T) / r) /\ (T + W / 2 < x -> y = if down then T + (x - T) / r else x)).
Proof.
  intros down T r W Hr HW. pose proof (inv_ratio r Hr) as Hc. repeat split.
  - destruct (Req_dec W 0); auto. destruct (knee_defined down T r W x) as [y E]; auto. congruence.
  - destruct (Req_dec W 0) as [->|]. now apply knee_undefined in H. destruct (knee_defined down T r W x) as [y E]; auto. congruence.
  - intros [-> ->]. now apply knee_undefined.
  - intros x y E. destruct down.
    + apply knee_down_val in E; auto. pose proof (excess_nonneg W (x - T + W / 2) HW). nra.
    + apply knee_up_val in E; auto. pose proof (excess_nonneg W (T - x + W / 2) HW). nra.
  - destruct down.
    + apply knee_down_val in H; apply knee_down_val in H0; auto. pose proof (excess_lip W (x - T + W / 2) (x' - T + W / 2) HW ltac:(lra)).
      subst. replace ((x' - x) / r) with ((x' - x) * (1 / r)) by (unfold Rdiv; lra). set (c := 1 / r) in *.
      pose proof (Rpos_mul_le (1 - c) (excess W (x' - T + W / 2) - excess W (x - T + W / 2)) ((x' - x)) ltac:(lra) ltac:(lra)). nra.
    + apply knee_up_val in H; apply knee_up_val in H0; auto. pose proof (excess_lip W (T - x' + W / 2) (T - x + W / 2) HW ltac:(lra)).
      subst. replace ((x' - x) / r) with ((x' - x) * (1 / r)) by (unfold Rdiv; lra). set (c := 1 / r) in *. nra.
  - destruct down.
    + apply knee_down_val in H; apply knee_down_val in H0; auto. pose proof (excess_lip W (x - T + W / 2) (x' - T + W / 2) HW ltac:(lra)).
      subst. set (c := 1 / r) in *. nra.
    + apply knee_up_val in H; apply knee_up_val in H0; auto. pose proof (excess_lip W (T - x' + W / 2) (T - x + W / 2) HW ltac:(lra)).
      subst. set (c := 1 / r) in *. nra.
  - intros Hx. unfold knee in H. destruct (Rlt_dec (x - T) (- W / 2)); [|lra]. congruence.
  - intros Hx. unfold knee in H. destruct (Rlt_dec (x - T) (- W / 2)); [lra|]. destruct (Rle_dec (Rabs (x - T)) (W / 2)) as [C|C]; [|congruence].
    unfold Rabs in C; destruct (Rcase_abs (x - T)); lra.
Qed.
Print Assumptions C36_static_curve.
Example C36_curve_example : knee true (-10) 2 6 0 = Some (-5) /\ knee true (-10) 2 6 (-10) = Some (-10 - 3 / 8).
Proof.
  unfold knee. split.
  - destruct (Rlt_dec (0 - -10) (- (6) / 2)); [lra|]. replace (0 - -10) with 10 by lra. rewrite Rabs_pos_eq by lra.
    destruct (Rle_dec 10 (6 / 2)); [lra|]. f_equal. lra.
  - destruct (Rlt_dec (-10 - -10) (- (6) / 2)); [lra|]. replace (-10 - -10) with 0 by lra. rewrite Rabs_R0.
    destruct (Rle_dec 0 (6 / 2)); [|lra]. destruct (Req_EM_T 6 0); [lra|]. f_equal. lra.
Qed.
Definition wf_comp (c : comp) : Prop := 1 <= c_ratio c /\ 0 <= c_knee c /\ 0 <= c_att c /\ 0 <= c_rel c.
(** No sample sits exactly on the threshold of a hard knee. *)
Definition off_knee (c : comp) (x : list R) : Prop := forall v, In v x -> c_knee c <> 0 \/ level_db v <> c_T c.
Lemma ln10 : 0 < ln 10.
Proof. rewrite <- ln_1. apply ln_increasing; lra. Qed.
Lemma pow10_pos x : 0 < pow10 x.
Proof. apply exp_pos. Qed.
Lemma pow10_0 : pow10 0 = 1.
Proof. unfold pow10. apply Rpower_O. lra. Qed.
Lemma pow10_le x y : x <= y -> pow10 x <= pow10 y.
Proof. intros [H| ->]; [|lra]. left. apply Rpower_lt; lra. Qed.
Definition gain_ok (down : bool) (g : R) : Prop := 0 < g /\ if down then g <= 1 else 1 <= g.
Lemma gain_ok_mix down f a b : 0 < f <= 1 -> gain_ok down a -> gain_ok down b -> gain_ok down (f * a + (1 - f) * b).
Proof. unfold gain_ok. destruct down; nra. Qed.
Lemma comp_gain_ok c g x : wf_comp c -> gain_ok (c_down c) g -> c_knee c <> 0 \/ level_db x <> c_T c ->
  exists g', comp_gain c (Some g) x = Some g' /\ gain_ok (c_down c) g'.
Proof.
  intros (Hr & Hk & Ha & Hl) Hg Hd. unfold comp_gain. destruct (knee_defined (c_down c) (c_T c) (c_ratio c) (c_knee c) (level_db x) Hk Hd) as [k Ek].
  rewrite Ek. eexists. split; [reflexivity|]. apply gain_ok_mix; auto. destruct (Rlt_dec g _); apply ema_range; auto; lra.
  destruct (C36_static_curve (c_down c) (c_T c) (c_ratio c) (c_knee c) Hr Hk) as (_ & H & _). specialize (H _ _ Ek).
  split. apply pow10_pos. destruct (c_down c); rewrite <- pow10_0; apply pow10_le; lra.
Qed.
(** Downward compression never makes a sample louder, upward compression never quieter; signs are kept and no sample is lost. *)
Theorem C36_compressor_gain :
  forall c x, wf_comp c -> off_knee c x ->
  exists g, length g = length x /\ (forall n, (n < length x)%nat -> 0 < nth n g 0 /\ if c_down c then nth n g 0 <= 1 else 1 <= nth n g 0) /\
            compressor c x = map (fun p => Some (fst p * snd p)) (combine x g).
Proof.
  intros c x Hc Hx. unfold compressor. assert (G : gain_ok (c_down c) 1) by (split; [|destruct (c_down c)]; lra). revert G Hx.
  enough (Gen : forall g0, gain_ok (c_down c) g0 -> off_knee c x -> exists g, length g = length x /\ (forall n, (n < length x)%nat -> gain_ok (c_down c) (nth n g 0)) /\
            comp_loop c (Some g0) x = map (fun p => Some (fst p * snd p)) (combine x g)) by (intros G Hx; exact (Gen 1 G Hx)).
  induction x as [|v t IH]; intros g0 G Hx.
  - exists []. split; auto. split; [simpl; lia|auto].
  - destruct (comp_gain_ok c g0 v Hc G) as (g' & E & G'). apply Hx; now left.
    destruct (IH g' G') as (g & L & B & E'). intros w Hw. apply Hx; now right.
    exists (g' :: g). split; [simpl; auto|]. split.
    + intros [|n] Hn; cbn [nth]. exact G'. apply B. simpl in Hn; lia.
    + cbn [comp_loop]. rewrite E. cbn [option_map]. rewrite E'. reflexivity.
Qed.
Print Assumptions C36_compressor_gain.
Lemma level_one v : Rabs v = 1 -> level_db v = 0.
Proof.
  intros H. unfold level_db. replace (v ^ 2) with 1.
  2:{ rewrite <- (pow2_abs v), H. ring. }
  rewrite Rmax_left. rewrite ln_1. unfold Rdiv; lra. rewrite <- pow10_0. apply pow10_le. lra.
Qed.
Example C36_gain_example : let c := mkComp (-20) 2 0 3 7 1 true in wf_comp c /\ off_knee c [1; -1].
Proof.
  split. repeat split; simpl; lra. intros v Hv. right. rewrite level_one. simpl; lra. destruct Hv as [<-|[<-|[]]]. apply Rabs_R1. now rewrite Rabs_left; lra.
Qed.

(** Settling: for a signal of constant magnitude above the knee the gain approaches its target with the release time, not the attack
    time (both counted in samples; the documentation says the attack time governs the onset of compression). *)
Theorem C36_reduction_uses_release_time :
  forall c x a n, wf_comp c -> c_down c = true -> 0 < c_rel c -> (forall v, In v x -> Rabs v = a) -> c_T c + c_knee c / 2 < level_db a -> (n < length x)%nat ->
  let t := pow10 ((c_T c + (level_db a - c_T c) / c_ratio c - level_db a) / 20) in
  nth n (compressor c x) None = Some (nth n x 0 * (t + (1 - t) * Rpower (5 / 100) (INR (S n) / c_rel c))).
Proof.
  intros c x a n Hc Hd Hrel Hx Ha Hn t. destruct Hc as (Hr & Hk & Hat & Hl). pose proof (inv_ratio _ Hr) as Hir.
  assert (LE : forall v, Rabs v = a -> level_db v = level_db a).
  { intros v <-. unfold level_db. now rewrite pow2_abs. }
  assert (K : knee true (c_T c) (c_ratio c) (c_knee c) (level_db a) = Some (c_T c + (level_db a - c_T c) / c_ratio c)).
  { unfold knee. destruct (Rlt_dec (level_db a - c_T c) (- c_knee c / 2)); [lra|]. rewrite Rabs_pos_eq by lra. destruct (Rle_dec _ (c_knee c / 2)); [lra|]. reflexivity. }
  assert (T1 : t <= 1).
  { unfold t. rewrite <- pow10_0. apply pow10_le. replace ((level_db a - c_T c) / c_ratio c) with ((level_db a - c_T c) * (1 / c_ratio c)) by (unfold Rdiv; lra).
    set (i := 1 / c_ratio c) in *. nra. }
  set (q := 1 - ema_factor (c_rel c) 1).
  assert (Q : 0 <= q) by (pose proof (ema_range (c_rel c) 1 Hl ltac:(lra)); unfold q; lra).
  assert (H : forall x g n, (forall v, In v x -> Rabs v = a) -> t <= g -> (n < length x)%nat ->
    nth n (comp_loop c (Some g) x) None = Some (nth n x 0 * (t + (g - t) * q ^ (S n)))).
  { clear x n Hx Hn. induction x as [|v x IH]; intros g n Hx Hg Hn. simpl in Hn; lia. cbn [comp_loop].
    assert (E : comp_gain c (Some g) v = Some (t + (g - t) * q)).
    { unfold comp_gain. rewrite Hd, (LE v), K by (apply Hx; now left). fold t. destruct (Rlt_dec g t); [lra|]. f_equal. unfold q. ring. }
    rewrite E. destruct n as [|n].
    - cbn [nth option_map pow]. f_equal. ring.
    - cbn [nth]. rewrite IH. f_equal. cbn [pow]. ring. intros w Hw; apply Hx; now right. nra. simpl in Hn; lia. }
  unfold compressor. rewrite H by auto. do 3 f_equal. f_equal. unfold q, ema_factor. destruct (Req_EM_T (c_rel c) 0); [lra|].
  replace (1 - (1 - exp (ln (1 - 95 / 100) / c_rel c / 1))) with (exp (ln (1 - 95 / 100) / c_rel c / 1)) by lra.
  rewrite <- Rpower_pow by apply exp_pos. unfold Rpower. rewrite ln_exp. f_equal. replace (1 - 95 / 100) with (5 / 100) by lra. field. lra.
Qed.
Print Assumptions C36_reduction_uses_release_time.
Example C36_settling_example : let c := mkComp (-20) 2 0 0 7 1 true in 0 < c_rel c /\ (forall v, In v [1; -1] -> Rabs v = 1) /\ c_T c + c_knee c / 2 < level_db 1.
Proof.
  cbn [c_rel c_T c_knee]. split. lra. split. intros v [<-|[<-|[]]]. apply Rabs_R1. rewrite Rabs_left; lra. rewrite level_one by apply Rabs_R1. lra.
Qed.

(** A sample exactly on the threshold of a hard knee turns it and the whole rest of the channel into nan. *)
Theorem C36_hard_knee_nan :
  forall c x1 v x2 n, c_knee c = 0 -> level_db v = c_T c -> (length x1 <= n < length (x1 ++ v :: x2))%nat ->
  nth n (compressor c (x1 ++ v :: x2)) (Some 0) = None.
Proof.
  intros c x1 v x2 n Hk Hv. unfold compressor. generalize (Some 1). revert n.
  assert (N : forall x n, (n < length x)%nat -> nth n (comp_loop c None x) (Some 0) = None).
  { induction x as [|w t IH]; intros n Hn. simpl in Hn; lia. cbn [comp_loop].
    assert (comp_gain c None w = None) as ->. { unfold comp_gain. destruct (knee _ _ _ _ _); auto. }
    destruct n; cbn [nth option_map]; auto. apply IH. simpl in Hn; lia. }
  induction x1 as [|w t IH]; intros n g Hn.
  - cbn [app comp_loop]. assert (comp_gain c g v = None) as ->.
    { unfold comp_gain. rewrite Hk. replace (knee _ _ _ _ _) with (@None R); auto. symmetry. now apply knee_undefined. }
    destruct n; cbn [nth option_map]; auto. apply N. simpl in Hn; lia.
  - cbn [app comp_loop]. destruct n; [simpl in Hn; lia|]. cbn [nth]. apply IH. simpl in Hn. lia.
Qed.
Print Assumptions C36_hard_knee_nan.
Lemma all_some_none l : In None l -> all_some l = None.
Proof.
  induction l as [|o l IH]; [contradiction|]. intros [->|H]; cbn [all_some fold_right]; auto. fold (all_some l). rewrite IH by auto. destruct o; auto.
Qed.
Lemma all_some_map l : all_some (map Some l) = Some l.
Proof. induction l; auto. cbn [map all_some fold_right]. fold (all_some (map Some l)). now rewrite IHl. Qed.
Lemma peak_nonneg x : 0 <= peak x.
Proof. induction x; simpl. lra. eapply Rle_trans; [apply IHx|]. apply Rmax_r. Qed.
Lemma peak_in x : x <> [] -> exists v, In v x /\ Rabs v = peak x.
Proof.
  induction x as [|a x IH]; [congruence|]. intros _. cbn [peak fold_right]. fold (peak x).
  destruct (Rle_dec (peak x) (Rabs a)).
  - exists a. split; [now left|]. now rewrite Rmax_left.
  - destruct x as [|b x]. { simpl in n. pose proof (Rabs_pos a). lra. }
    destruct IH as (v & Hv & E); [discriminate|]. exists v. split; [now right|]. rewrite Rmax_right; lra.
Qed.
Lemma peak_bound x v : In v x -> Rabs v <= peak x.
Proof.
  induction x as [|a x IH]; [contradiction|]. cbn [peak fold_right]. fold (peak x). intros [->|H]. apply Rmax_l. eapply Rle_trans; [apply IH; auto|apply Rmax_r].
Qed.
(** Consequence for the effect: with a hard knee (the default) and a threshold of 0 dB relative to the peak, every channel
    becomes nan, whatever it contains; a silent channel becomes nan for every relative threshold. *)
Theorem C36_relative_threshold_nan :
  forall k x, k_rel k = true -> x <> [] ->
  (c_knee (k_comp k) = 0 -> c_T (k_comp k) = 0 -> comp_effect k x = None) /\ ((forall v, In v x -> v = 0) -> comp_effect k x = None).
Proof.
  intros k x Hr Hx. set (x1 := map (fun v => v * pow10 (k_pre k / 20)) x).
  assert (N1 : x1 <> []) by (destruct x; [congruence|discriminate]). split.
  - intros Hk HT. unfold comp_effect. fold x1. rewrite Hr. destruct (Req_EM_T (peak x1) 0) as [E|E].
    + rewrite all_some_none; auto. destruct x1 as [|a t]; [congruence|]. left. unfold div_opt. destruct (Req_EM_T (peak (a :: t)) 0); [auto|congruence].
    + assert (all_some (map (fun v => div_opt v (peak x1)) x1) = Some (map (fun v => v / peak x1) x1)) as ->.
      { rewrite <- all_some_map, map_map. f_equal. apply map_ext. intros v. unfold div_opt. destruct (Req_EM_T (peak x1) 0); [congruence|auto]. }
      destruct (peak_in x1 N1) as (v & Hv & Ev). destruct (in_split _ _ Hv) as (l1 & l2 & El).
      rewrite all_some_none; auto.
      replace (map (fun v0 => v0 / peak x1) x1) with (map (fun v0 => v0 / peak x1) l1 ++ (v / peak x1) :: map (fun v0 => v0 / peak x1) l2)
        by (rewrite (f_equal (map (fun v0 => v0 / peak x1)) El), map_app; reflexivity).
      pose proof (C36_hard_knee_nan (k_comp k) (map (fun v => v / peak x1) l1) (v / peak x1) (map (fun v => v / peak x1) l2) (length l1) Hk) as HN.
      rewrite HT in HN. rewrite map_length, app_length in HN. cbn [length] in HN. rewrite <- HN.
      * apply nth_In. unfold compressor. 
        assert (LL : forall c g l, length (comp_loop c g l) = length l) by (intros c0 g l; revert g; induction l; intros; cbn; auto).
        rewrite LL, app_length, map_length. simpl. lia.
      * apply level_one. unfold Rdiv. rewrite Rabs_mult, Rabs_inv, Ev. rewrite (Rabs_pos_eq (peak x1)) by apply peak_nonneg. now apply Rinv_r.
      * rewrite map_length. lia.
  - intros H0. unfold comp_effect. fold x1. rewrite Hr. rewrite all_some_none; auto.
    assert (P : peak x1 = 0).
    { destruct (peak_in x1 N1) as (v & Hv & <-). apply in_map_iff in Hv as (w & <- & Hw). rewrite (H0 w Hw), Rmult_0_l. apply Rabs_R0. }
    destruct x1 as [|a t]; [congruence|]. left. unfold div_opt. destruct (Req_EM_T (peak (a :: t)) 0); [auto|congruence].
Qed.
Print Assumptions C36_relative_threshold_nan.

(** With a threshold relative to the peak the effect is homogeneous: scaling a channel by a positive factor scales the result. *)
Lemma peak_scale c x : 0 <= c -> peak (map (fun v => c * v) x) = c * peak x.
Proof.
  intros Hc. induction x as [|v x IH]; cbn [peak map fold_right]. ring. fold (peak (map (fun v => c * v) x)). fold (peak x). rewrite IH, Rabs_mult, (Rabs_pos_eq c) by auto. now rewrite RmaxRmult.
Qed.
Lemma mean_scale c x : mean (map (fun v => c * v) x) = c * mean x.
Proof.
  unfold mean. rewrite map_length. assert (E : fold_right Rplus 0 (map (fun v => c * v) x) = c * fold_right Rplus 0 x) by (induction x; simpl; [ring|rewrite IHx; ring]). rewrite E. unfold Rdiv. ring.
Qed.
Lemma std_scale c x : 0 <= c -> std (map (fun v => c * v) x) = c * std x.
Proof.
  intros Hc. unfold std. rewrite mean_scale, map_map. rewrite (map_ext _ (fun v => c * c * (v - mean x) ^ 2)) by (intros; ring). rewrite <- (map_map (fun v => (v - mean x) ^ 2) (fun w => c * c * w)), mean_scale.
  rewrite sqrt_mult_alt by nra. now rewrite sqrt_square.
Qed.
Lemma all_some_div l p : (p = 0 -> l <> [] -> all_some (map (fun v => div_opt v p) l) = None) /\ (p <> 0 -> all_some (map (fun v => div_opt v p) l) = Some (map (fun v => v / p) l)).
Proof.
  split.
  - intros -> Hl. apply all_some_none. destruct l as [|a t]; [congruence|]. left. unfold div_opt. destruct (Req_EM_T 0 0); [auto|lra].
  - intros Hp. rewrite <- all_some_map, map_map. f_equal. apply map_ext. intros v. unfold div_opt. destruct (Req_EM_T p 0); [congruence|auto].
Qed.
Theorem C36_relative_threshold_homogeneous : forall k c x, k_rel k = true -> 0 < c ->
  comp_effect k (map (fun v => c * v) x) = option_map (map (fun v => c * v)) (comp_effect k x).
Proof.
  intros k c x Hr Hc. unfold comp_effect. rewrite Hr. set (g := pow10 (k_pre k / 20)). set (x1 := map (fun v => v * g) x).
  assert (E1 : map (fun v => v * g) (map (fun v => c * v) x) = map (fun v => c * v) x1) by (unfold x1; rewrite !map_map; apply map_ext; intros; ring). rewrite E1, peak_scale by lra. set (p := peak x1).
  destruct (list_eq_dec Req_EM_T x1 []) as [Nx|Nx].
  { rewrite Nx. cbn. destruct (k_makeup k); [|reflexivity]. unfold div_opt. destruct (Req_EM_T (std []) 0); reflexivity. }
  destruct (Req_EM_T p 0) as [P0|P0].
  - rewrite P0, Rmult_0_r. assert (Nx' : map (fun v => c * v) x1 <> []) by (destruct x1; [congruence|discriminate]). rewrite (proj1 (all_some_div (map (fun v => c * v) x1) 0)), (proj1 (all_some_div x1 0)) by auto. reflexivity.
  - rewrite !(proj2 (all_some_div _ _)) by (auto; apply Rmult_integral_contrapositive_currified; lra).
    assert (E2 : map (fun v => v / (c * p)) (map (fun v => c * v) x1) = map (fun v => v / p) x1) by (rewrite map_map; apply map_ext; intros; field; lra). rewrite E2.
    destruct (all_some (compressor (k_comp k) (map (fun v => v / p) x1))) as [x3|]; [|reflexivity].
    set (x4 := map (fun v => v * p) x3). assert (E4 : map (fun v => v * (c * p)) x3 = map (fun v => c * v) x4) by (unfold x4; rewrite map_map; apply map_ext; intros; ring). rewrite E4.
    destruct (k_makeup k).
    + rewrite !std_scale by lra. unfold div_opt. destruct (Req_EM_T (std x4) 0) as [Z|Z].
      * rewrite Z, Rmult_0_r. destruct (Req_EM_T 0 0); [reflexivity|lra].
      * destruct (Req_EM_T (c * std x4) 0) as [Z'|Z']. { apply Rmult_integral in Z'. lra. } cbn [option_map]. f_equal. rewrite !map_map. apply map_ext. intros v. field. split; auto. lra.
    + cbn [option_map]. f_equal. rewrite !map_map. apply map_ext. intros v. ring.
Qed.
Print Assumptions C36_relative_threshold_homogeneous.

(** The documented mix of compressed and clean signal and the documented post-compression gain do not happen. *)
Definition with_mix (c : comp) (m : R) : comp := mkComp (c_T c) (c_ratio c) (c_knee c) (c_att c) (c_rel c) m (c_down c).
Theorem C36_mix_and_post_gain_ignored :
  (forall c m x, compressor (with_mix c m) x = compressor c x) /\
  (forall c pre post post' mk rel x, comp_effect (mkCfg c pre post mk rel) x = comp_effect (mkCfg c pre post' mk rel) x) /\
  ~ (forall c x y n v, wf_comp c -> compressor (with_mix c 1) x = map Some y -> nth n (compressor (with_mix c (1 / 2)) x) None = Some v ->
       v = 1 / 2 * nth n y 0 + 1 / 2 * nth n x 0) /\
  ~ (forall c g x y, wf_comp c -> comp_effect (mkCfg c 0 0 false false) x = Some y -> comp_effect (mkCfg c 0 g false false) x = Some (map (fun v => v * pow10 (g / 20)) y)).
Proof.
  assert (M : forall c m x, compressor (with_mix c m) x = compressor c x).
  { intros c m x. unfold compressor. generalize (Some 1). induction x as [|v t IH]; intros g; auto. cbn [comp_loop]. rewrite <- IH. reflexivity. }
  split; auto. split; [reflexivity|]. split.
  - intros H. set (c := mkComp (-20) 2 0 3 1 1 true).
    assert (W : wf_comp c) by (repeat split; simpl; lra).
    assert (L1 : level_db 1 = 0) by (apply level_one, Rabs_R1).
    pose proof (C36_reduction_uses_release_time c [1] 1 0 W eq_refl ltac:(simpl; lra) ltac:(intros v [<-|[]]; apply Rabs_R1) ltac:(rewrite L1; simpl; lra) ltac:(simpl; lia)) as E.
    rewrite L1 in E. cbn [c_T c_ratio c_rel c] in E. replace ((-20 + (0 - -20) / 2 - 0) / 20) with (- (1 / 2)) in E by lra.
    set (t := pow10 (- (1 / 2))) in *. cbv zeta in E. cbn [nth] in E. replace (INR 1 / 1) with 1 in E by (simpl; lra). rewrite Rpower_1 in E by lra.
    assert (T1 : t < 1). { assert (H1 : t < pow10 0) by (apply Rpower_lt; lra). now rewrite pow10_0 in H1. }
    specialize (H c [1] [1 * (t + (1 - t) * (5 / 100))] 0%nat (1 * (t + (1 - t) * (5 / 100))) W). rewrite !M in H. cbn [nth] in H.
    assert (C1 : compressor c [1] = map Some [1 * (t + (1 - t) * (5 / 100))]).
    { unfold compressor in *. cbn [comp_loop map] in *. cbn [nth] in E. now rewrite E. }
    specialize (H C1). rewrite C1 in H. cbn [map nth] in H. specialize (H eq_refl). lra.
  - intros H. set (c := mkComp 20 2 0 3 1 1 true).
    assert (W : wf_comp c) by (repeat split; simpl; lra).
    assert (L1 : level_db 1 = 0) by (apply level_one, Rabs_R1).
    assert (E : forall post, comp_effect (mkCfg c 0 post false false) [1] = Some [1]).
    { intros post. unfold comp_effect. cbn [k_rel k_makeup k_pre k_comp map]. replace (0 / 20) with 0 by lra. rewrite pow10_0. rewrite !Rmult_1_l.
      unfold compressor. cbn [comp_loop]. unfold comp_gain. rewrite L1. cbn [c_T c_ratio c_knee c_down c].
      assert (knee true 20 2 0 0 = Some 0) as ->. { unfold knee. destruct (Rlt_dec (0 - 20) (- 0 / 2)); [auto|lra]. }
      replace ((0 - 0) / 20) with 0 by lra. rewrite pow10_0. destruct (Rlt_dec 1 1); [lra|]. cbn. f_equal. f_equal. lra. }
    specialize (H c 20 [1] [1] W (E 0)). rewrite E in H. injection H as H. rewrite Rmult_1_l in H.
    replace (20 / 20) with 1 in H by lra. unfold pow10 in H. rewrite Rpower_1 in H; lra.
Qed.
Print Assumptions C36_mix_and_post_gain_ignored.
Example C36_nan_example : let c := mkComp 0 2 0 3 1 1 true in c_knee c = 0 /\ level_db (-1) = c_T c /\ (length [0%R] <= 2 < length ([0%R] ++ (-1)%R :: [(1/2)%R]))%nat.
Proof. split; [reflexivity|]. split. apply level_one. rewrite Rabs_left; lra. simpl; lia. Qed.
