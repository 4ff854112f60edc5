(** C106 trimming of impulse responses. *)
From Coq Require Import List Arith Lia ZArith Bool Reals Lra.
From Verif Require Import Alg Spec Dft P_dft2 M_arrays P_arrays M_signal P_signal M_latency M_dynamics M_level M_fvec M_minphase M_transforms M_room M_beam M_reverb.
From Verif Require Import Claims_level Claims_dynamics Claims_grid Claims_transforms Claims_minphase Claims_room Claims_linphase Claims_reverb Claims_deconv M_reverb M_trim.
Import ListNotations.
Local Open Scope R_scope.

(** ** Specification *)
(** The level of a magnitude, not below that of the smallest normal number. *)
Definition mag_level (v : R) : R := level true (Rmax v smallest_normal).
(** The analytic signal of x, zero padded to N samples: x is its real part and it has no negative frequencies. *)
Definition analytic_of (x : list R) (N : nat) (z : nat -> C) : Prop :=
  (forall t, (t < N)%nat -> fst (z t) = get (HA := CRing_R) x t) /\
  (forall k, (k < N)%nat -> (N < 2 * k)%nat -> cdft N z k = rc 0) /\
  (forall k, (k < N)%nat -> k = 0%nat \/ (2 * k = N)%nat -> snd (cdft N z k) = 0).
(** The smoothed energy time curve: 95 % of a step are reached within 20 ms. *)
Definition smooth_curve (fs : nat) (l : nat -> R) (env : list R) : Prop :=
  gt env 0 = l 0%nat /\
  forall n, (S n < length env)%nat -> let q := Rpower (5 / 100) (1 / (2 / 100 * INR fs)) in gt env (S n) = (1 - q) * l (S n) + q * gt env n.
Definition curve_of (fs : nat) (x : list R) (env : list R) : Prop :=
  length env = next_fast_len_c (length x) /\
  exists z, analytic_of x (length env) z /\ smooth_curve fs (fun t => mag_level (cmod (z t))) env.
(** The mean level of window j, and of the one before; the first window is compared with 0 dB. *)
Definition win_mean (env : list R) (w j : nat) : R := sm w (fun i => gt env (j * w + i)) / INR w.
Definition prev_mean (env : list R) (w j : nat) : R := match j with O => 0 | S i => win_mean env w i end.
(** e is the centre of the first window of length w that is not below the one before, or of the rest. *)
Definition is_end (env : list R) (w e : nat) : Prop :=
  exists k, (k <= length env / w)%nat /\ (forall j, (j < k)%nat -> win_mean env w j < prev_mean env w j) /\
    (k = (length env / w)%nat \/ prev_mean env w k <= win_mean env w k) /\ e = Nat.min (k * w + w / 2) (length env).
(** Correlation of the first e levels with time, if they are not constant. *)
Definition dev (e : nat) (y : nat -> R) (i : nat) : R := y i - sm e y / INR e.
Definition corr (env : list R) (e : nat) (r : option R) : Prop :=
  let c u v := sm e (fun i => dev e u i * dev e v i) in
  (2 <= e)%nat /\
  (r = None <-> forall i, (i < e)%nat -> gt env i = gt env 0) /\
  (forall v, r = Some v -> v * sqrt (c INR INR) * sqrt (c (gt env) (gt env)) = c INR (gt env)).

(** ** Lemmas *)
Lemma smooth_one_spec f x : length (smooth_one f x) = length x /\ gt (smooth_one f x) 0 = gt x 0 /\
  forall n, (S n < length x)%nat -> gt (smooth_one f x) (S n) = f * gt x (S n) + (1 - f) * gt (smooth_one f x) n.
Proof.
  assert (G : forall x z, length (smooth_lfilter f z x) = length x /\ (x <> [] -> gt (smooth_lfilter f z x) 0 = f * gt x 0 + z) /\
    forall n, (S n < length x)%nat -> gt (smooth_lfilter f z x) (S n) = f * gt x (S n) + (1 - f) * gt (smooth_lfilter f z x) n).
  { induction x0 as [|v t IH]; intros z; cbn [smooth_lfilter length]. { split; auto. split; [congruence|]. intros; lia. }
    destruct (IH ((1 - f) * (f * v + z))) as (A & B & D). split. { now rewrite A. } split. { reflexivity. }
    intros [|n] Hn.
    - destruct t as [|u t]; [cbn in Hn; lia|]. change (gt (f * v + z :: smooth_lfilter f ((1 - f) * (f * v + z)) (u :: t)) 1) with (gt (smooth_lfilter f ((1 - f) * (f * v + z)) (u :: t)) 0).
      rewrite B by discriminate. reflexivity.
    - exact (D n ltac:(lia)). }
  destruct x as [|v t]. { cbn. split; auto. split; auto. intros; lia. }
  unfold smooth_one. destruct (G (v :: t) ((1 - f) * v)) as (A & B & D). split; auto. split; auto. rewrite B by discriminate. cbn. ring.
Qed.
Lemma snd_sum0 n (f : nat -> C) : (forall j, snd (f j) = 0) -> snd (sum (HA := CRing_C) n f) = 0.
Proof. intros H. induction n; cbn [sum]; auto. change (snd (sum (HA := CRing_C) n f) + snd (f n) = 0). rewrite IHn, H. ring. Qed.
Lemma analytic_length x : length (analytic x) = length x. Proof. apply mk_length. Qed.
Lemma etc_length x : length (etc x) = next_fast_len_c (length x).
Proof. unfold etc. rewrite map_length, analytic_length. apply pad_trim_length. Qed.
Lemma curve_spec fs x env : (0 < fs)%nat -> time_smoothing (etc x) (INR fs) (20 / 1000) None = Ok env -> x <> [] -> curve_of fs x env.
Proof.
  intros Hf E Hx. unfold time_smoothing in E. destruct (Rlt_dec (20 / 1000) 0) as [L0|_]; [lra|]. injection E as <-.
  destruct (smooth_one_spec (ema_factor (20 / 1000) (INR fs)) (etc x)) as (A & B & D). assert (NN : (0 < next_fast_len_c (length x))%nat).
  { pose proof (next_fast_len_c_ge (length x)). destruct x; [congruence|]. cbn [length] in *. lia. }
  split. { now rewrite A, etc_length. } rewrite A, etc_length. set (N := next_fast_len_c (length x)) in *.
  set (y := pad_trim_col (HA := CRing_R) N true x). assert (LY : length y = N) by apply pad_trim_length.
  exists (fun t => nth t (analytic y) (rc 0)). destruct (C76_hilbert y) as (H1 & H2 & H3 & H4 & _). rewrite LY in *.
  assert (Q : forall t, (t < N)%nat -> gt (etc x) t = mag_level (cmod (nth t (analytic y) (rc 0)))).
  { intros t Ht. unfold etc, get. fold N. fold y. rewrite (nth_map' _ (analytic y) t (rc 0) (r0 : R)) by (rewrite analytic_length, LY; auto). reflexivity. }
  split.
  - split. { intros t Ht. rewrite H2 by auto. unfold y. apply (pad_trim_end (HA := CRing_R)). auto. } split; auto.
    intros k Hk HK. rewrite H4 by auto. destruct HK as [->|HK].
    + apply snd_sum0. intros j. rewrite Z.mul_0_r. change (-0)%Z with 0%Z. rewrite root_0. unfold cmul, rc; simpl. ring.
    + rewrite <- HK. apply snd_sum0. intros j. assert (RJ : snd (root (2 * k) (- (Z.of_nat j * Z.of_nat k))) = 0).
      { unfold root, cis. cbn [snd]. replace (2 * PI * IZR (- (Z.of_nat j * Z.of_nat k)) / INR (2 * k)) with (- (INR j * PI)).
        - rewrite sin_neg. enough (sin (INR j * PI) = 0) by lra. clear. induction j. cbn. rewrite Rmult_0_l. apply sin_0.
          rewrite S_INR, Rmult_plus_distr_r, Rmult_1_l, neg_sin. lra.
        - rewrite opp_IZR, mult_IZR, <- !INR_IZR_INZ, mult_INR. cbn [INR]. field. apply not_0_INR. lia. }
      revert RJ. generalize (root (2 * k) (- (Z.of_nat j * Z.of_nat k))). intros [u v] RJ. cbn in RJ. unfold cmul, rc; simpl. rewrite RJ. ring.
  - split. { rewrite B. apply Q. auto. } intros n Hn. cbv zeta. rewrite A, etc_length in Hn. fold N in Hn. rewrite D by (rewrite etc_length; auto).
    rewrite Q by auto. unfold ema_factor. destruct (Req_EM_T (20 / 1000) 0) as [L0|_]; [lra|]. unfold Rpower.
    replace (ln (1 - 95 / 100) / (20 / 1000) / INR fs) with (1 / (2 / 100 * INR fs) * ln (5 / 100)).
    + ring.
    + replace (1 - 95 / 100) with (5 / 100) by lra. field. apply not_0_INR. lia.
Qed.
Lemma slice_length {T} i j (l : list T) : (i <= j)%nat -> (j <= length l)%nat -> length (slice i j l) = (j - i)%nat.
Proof. intros H1 H2. unfold slice. rewrite firstn_length, skipn_length. lia. Qed.
Lemma slice_get i j (l : list R) k : (k < j - i)%nat -> gt (slice i j l) k = gt l (i + k).
Proof. intros H. unfold slice, get. rewrite nth_firstn by auto. apply nth_skipn. Qed.
Lemma window_average env w j : (0 < w)%nat -> (S j * w <= length env)%nat -> average (slice (j * w) (j * w + w) env) = win_mean env w j.
Proof.
  intros Hw H. unfold average, rtotal, win_mean. rewrite slice_length by lia. replace (j * w + w - j * w)%nat with w by lia. f_equal.
  apply sm_ext. intros i Hi. apply slice_get. lia.
Qed.
Lemma run_spec env w : (0 < w)%nat -> forall n k0, ((k0 + n) * w <= length env)%nat ->
  exists k, (k0 <= k <= k0 + n)%nat /\ decay_run env w n (k0 * w) (prev_mean env w k0) = (k * w)%nat /\
    (forall j, (k0 <= j < k)%nat -> win_mean env w j < prev_mean env w j) /\ (k = (k0 + n)%nat \/ prev_mean env w k <= win_mean env w k).
Proof.
  intros Hw. induction n as [|n IH]; intros k0 H; cbn [decay_run].
  - exists k0. split. lia. split; auto. split. intros; lia. left. lia.
  - rewrite window_average by nia. destruct (Rle_dec (prev_mean env w k0) (win_mean env w k0)) as [L|L].
    + exists k0. split. lia. split; auto. split. intros; lia. now right.
    + destruct (IH (S k0)) as (k & K1 & K2 & K3 & K4). { nia. } exists k. split. lia. replace (k0 * w + w)%nat with (S k0 * w)%nat by lia. split; auto.
      split. { intros j Hj. destruct (Nat.eq_dec j k0) as [->|]. lra. apply K3. lia. } destruct K4; [left; lia|now right].
Qed.
Lemma window_end_spec env w : is_end env w (window_end env w).
Proof.
  unfold window_end, is_end. destruct (Nat.eq_dec w 0) as [->|Hw].
  - exists 0%nat. cbn [Nat.div]. cbn [decay_run]. split. lia. split. intros; lia. split. now left. reflexivity.
  - destruct (run_spec env w ltac:(lia) (length env / w) 0) as (k & K1 & K2 & K3 & K4). { rewrite Nat.add_0_l, Nat.mul_comm. apply Nat.mul_div_le. auto. }
    cbn [prev_mean Nat.mul Nat.add] in K2. exists k. split. lia. split. { intros j Hj. apply K3. lia. } split. { destruct K4; [left; lia|now right]. }
    rewrite K2. f_equal. rewrite (Nat.add_comm (k * w * 2)), Nat.div_add by lia. lia.
Qed.
Lemma get_ramp n i : (i < n)%nat -> gt (ramp n) i = INR i.
Proof. intros H. unfold ramp. now rewrite (get_mk (HA := CRing_R)). Qed.
Lemma ramp_length n : length (ramp n) = n. Proof. apply mk_length. Qed.
Lemma get_firstn' e (l : list R) i : (i < e)%nat -> gt (firstn e l) i = gt l i.
Proof. intros H. unfold get. now apply nth_firstn. Qed.
Lemma cov_dev e (x y : list R) u v : length x = e -> length y = e -> (forall i, (i < e)%nat -> gt x i = u i) -> (forall i, (i < e)%nat -> gt y i = v i) ->
  cov x y = sm e (fun i => dev e u i * dev e v i).
Proof.
  intros Lx Ly Hx Hy. unfold cov. rewrite Lx. apply sm_ext. intros i Hi. unfold dev, average, rtotal. rewrite Lx, Ly, Hx, Hy by auto.
  now rewrite (sm_ext e (gt x) u), (sm_ext e (gt y) v).
Qed.
Lemma ramp_inc n i j : (i < j < length (ramp n))%nat -> gt (ramp n) i < gt (ramp n) j.
Proof. rewrite ramp_length. intros H. rewrite !get_ramp by lia. apply lt_INR. lia. Qed.
Lemma cov_zero y : (0 < length y)%nat -> cov y y = 0 <-> forall i, (i < length y)%nat -> gt y i = gt y 0.
Proof.
  intros H. split.
  - intros Z. assert (A : forall i, (i < length y)%nat -> gt y i = average y).
    { intros i Hi. destruct (Req_dec (gt y i) (average y)) as [E|E]; auto. exfalso.
      assert (P : sm (length y) (fun k => - ((gt y k - average y) * (gt y k - average y))) < 0).
      { apply (sm_strict _ _ i); auto. intros k _. pose proof (Rle_0_sqr (gt y k - average y)). unfold Rsqr in *. lra.
        pose proof (Rlt_0_sqr (gt y i - average y) ltac:(lra)). unfold Rsqr in *. lra. }
      rewrite (sm_ext _ _ (fun k => (-1) * ((gt y k - average y) * (gt y k - average y)) + 0 * 0)) in P by (intros; ring). rewrite sm_lin in P. fold (cov y y) in P. lra. }
    intros i Hi. rewrite !A by auto. reflexivity.
  - intros E. assert (A : average y = gt y 0). { unfold average, rtotal. rewrite (sm_ext _ _ (fun _ => gt y 0)) by auto. rewrite sm_const. field. apply not_0_INR. lia. }
    unfold cov. rewrite (sm_ext _ _ (fun _ => 0)). rewrite sm_const. ring. intros i Hi. rewrite A, (E i) by auto. ring.
Qed.
Lemma window_corr_spec env e : (e <= length env)%nat -> ((e < 2)%nat /\ window_corr env e = Err ValueError) \/ exists r, window_corr env e = Ok r /\ corr env e r.
Proof.
  intros H. unfold window_corr, pearsonr. rewrite ramp_length. destruct (Nat.ltb_spec e 2) as [L|L]; [now left|right]. eexists. split; [reflexivity|].
  assert (LF : length (firstn e env) = e) by (rewrite firstn_length; lia).
  pose proof (cov_inc (ramp e) ltac:(rewrite ramp_length; auto) (ramp_inc e)) as P.
  pose proof (cov_dev e (ramp e) (ramp e) INR INR (ramp_length e) (ramp_length e) (get_ramp e) (get_ramp e)) as C1.
  pose proof (cov_dev e (ramp e) (firstn e env) INR (gt env) (ramp_length e) LF (get_ramp e) (get_firstn' e env)) as C2.
  pose proof (cov_dev e (firstn e env) (firstn e env) (gt env) (gt env) LF LF (get_firstn' e env) (get_firstn' e env)) as C3.
  destruct (Req_EM_T (cov (ramp e) (ramp e)) 0) as [Z|_]; [lra|]. split; auto.
  assert (ZC : cov (firstn e env) (firstn e env) = 0 <-> forall i, (i < e)%nat -> gt env i = gt env 0).
  { rewrite cov_zero by lia. rewrite LF. split; intros G i Hi. specialize (G i Hi). rewrite !get_firstn' in G by lia. auto. rewrite !get_firstn' by lia. auto. }
  destruct (Req_EM_T (cov (firstn e env) (firstn e env)) 0) as [Z|Z].
  - split. { split; auto. intros _. now apply ZC. } discriminate.
  - split. { split; [discriminate|]. intros G. apply ZC in G. contradiction. } intros v Q. injection Q as <-. cbv zeta. rewrite <- C1, <- C2, <- C3. field.
    pose proof (cov_pos (firstn e env)) as P2. split; apply Rgt_not_eq, sqrt_lt_R0; lra.
Qed.

(** ** The choice of the end *)
(** Number and sum of the ends whose correlation is at most v. *)
Fixpoint tally (v : R) (cs : list (option R)) (es : list nat) : nat * nat :=
  match cs, es with
  | c :: cs', e :: es' =>
      let '(n, t) := tally v cs' es' in
      match c with Some r => if Rle_dec r v then (S n, (e + t)%nat) else (n, t) | None => (n, t) end
  | _, _ => (0, 0)%nat
  end.
(** The smallest correlation (none is nan) is r, first at k. *)
Definition best (cs : list (option R)) (k : nat) (r : R) : Prop :=
  nth k cs None = Some r /\ (forall j, (j < length cs)%nat -> exists r', nth j cs None = Some r' /\ r <= r' /\ ((j < k)%nat -> r < r')).
(** e is the mean t / n, rounded down *)
Definition mean_of (n t e : nat) : Prop := (0 < n)%nat /\ (e * n <= t)%nat /\ (t < (e + 1) * n)%nat.
Definition chosen (len : nat) (cs : list (option R)) (es : list nat) (e : nat) : Prop :=
  forall k r, best cs k r -> let ek := nth k es 0%nat in
  (r <= -95 / 100 -> e = ek) /\
  (-95 / 100 < r <= -9 / 10 -> let '(n, t) := tally (-9 / 10) cs es in mean_of n t e) /\
  (-9 / 10 < r <= -7 / 10 -> let '(n, t) := tally (-7 / 10) cs es in mean_of (9 + n) (9 * ek + t) e) /\
  (-7 / 10 < r -> mean_of (5 + length es) (5 * len + list_sum es) e).

Lemma nat_mean_of l : l <> [] -> mean_of (length l) (list_sum l) (nat_mean l).
Proof.
  intros H. assert (P : (0 < length l)%nat) by (destruct l; [congruence|cbn; lia]). unfold mean_of, nat_mean. split; auto.
  pose proof (Nat.div_mod (list_sum l) (length l) ltac:(lia)) as D. pose proof (Nat.mod_upper_bound (list_sum l) (length l) ltac:(lia)). nia.
Qed.
Lemma selected_tally v cs : forall es, length (selected v cs es) = fst (tally v cs es) /\ list_sum (selected v cs es) = snd (tally v cs es).
Proof.
  unfold selected. induction cs as [|c cs IH]; intros [|e es]; cbn [combine filter tally]; try (split; reflexivity).
  specialize (IH es). destruct (tally v cs es) as [n t]. cbn [fst snd] in IH. destruct IH as [I1 I2].
  destruct c as [r|]; cbn [fst at_most]; [|split; assumption]. destruct (Rle_dec r v); [|split; assumption].
  cbn [map length fst snd]. rewrite I1. split; auto. rewrite <- I2. reflexivity.
Qed.
Lemma mean_range lo hi l : l <> [] -> (forall e, In e l -> (lo <= e <= hi)%nat) -> (lo <= nat_mean l <= hi)%nat.
Proof.
  intros N H. destruct (nat_mean_of l N) as (P & A & B). assert (S : (lo * length l <= list_sum l <= hi * length l)%nat).
  { clear - H. induction l as [|v t IH]; cbn [length list_sum fold_right]; [lia|]. change (fold_right Nat.add 0%nat) with list_sum. specialize (IH ltac:(intros; apply H; now right)). specialize (H v (or_introl eq_refl)). nia. }
  split; nia.
Qed.
Lemma selected_in v cs es e : In e (selected v cs es) -> In e es.
Proof. unfold selected. intros H. apply in_map_iff in H as ([c e'] & <- & H). apply filter_In in H as (H & _). now apply in_combine_r in H. Qed.
Lemma exists_selected v cs es : length cs = length es -> existsb (at_most v) cs = true -> selected v cs es <> [].
Proof.
  unfold selected. revert es. induction cs as [|c cs IH]; intros [|e es] L H; cbn in L; try discriminate. cbn [combine filter fst]. cbn [existsb] in H.
  destruct (at_most v c) eqn:E. discriminate. apply IH; auto.
Qed.
Lemma argmin_lt cs : cs <> [] -> (argmin_nan cs < length cs)%nat.
Proof.
  intros N. unfold argmin_nan. destruct (first_none cs) as [i|] eqn:E.
  - revert i E. clear. induction cs as [|c cs IH]; intros i E; cbn in E. discriminate. destruct c; cbn [length]. destruct (first_none cs); [|discriminate]. injection E as <-. specialize (IH n eq_refl). lia. injection E as <-. lia.
  - set (l := map _ cs). destruct (argmin_spec l) as (A & _). { unfold l. destruct cs; [congruence|discriminate]. } unfold l in A. now rewrite map_length in A.
Qed.
Lemma choose_range len cs es : (2 <= len)%nat -> es <> [] -> length cs = length es -> (forall e, In e es -> (2 <= e <= len)%nat) -> (2 <= choose_end len cs es <= len)%nat.
Proof.
  intros HL N L H. unfold choose_end. assert (K : (argmin_nan cs < length es)%nat) by (rewrite <- L; apply argmin_lt; destruct cs, es; cbn in *; congruence).
  pose proof (H _ (nth_In es 0%nat K)) as HK. destruct (at_most (-95 / 100) _); auto.
  destruct (existsb (at_most (-9 / 10)) cs) eqn:E1.
  { apply mean_range. now apply exists_selected. intros e He. apply H. eapply selected_in; eauto. }
  destruct (existsb (at_most (-7 / 10)) cs) eqn:E2.
  { apply mean_range. discriminate. intros e He. apply in_app_or in He as [He|He]. apply repeat_spec in He as ->. auto. apply H. eapply selected_in; eauto. }
  apply mean_range. discriminate. intros e He. apply in_app_or in He as [He|He]. apply repeat_spec in He as ->. lia. apply H. auto.
Qed.
Lemma best_argmin cs k r : best cs k r -> (k < length cs)%nat -> argmin_nan cs = k.
Proof.
  intros (B1 & B2) Hk. unfold argmin_nan. assert (F : first_none cs = None).
  { clear - B2. assert (A : forall c, In c cs -> exists v, c = Some v). { intros c Hc. apply (In_nth _ _ None) in Hc as (j & Hj & <-). destruct (B2 j Hj) as (r' & E & _). now exists r'. }
    clear B2. induction cs as [|c cs IH]; auto. destruct (A c (or_introl eq_refl)) as (v & ->). cbn. rewrite IH; auto. intros c Hc. apply A. now right. }
  rewrite F. set (l := map _ cs). destruct (argmin_spec l) as (A1 & A2 & A3). { unfold l. destruct cs; [cbn in Hk; lia|discriminate]. }
  assert (G : forall j, (j < length cs)%nat -> nth j cs None = Some (nth j l 0)).
  { intros j Hj. unfold l. rewrite (nth_map' _ cs j None 0) by auto. destruct (B2 j Hj) as (r' & -> & _). reflexivity. }
  unfold l in A1, A2. rewrite map_length in A1, A2. fold l in A1, A2. set (a := argmin l) in *.
  pose proof (G k Hk) as GK. rewrite B1 in GK. injection GK as GK.
  destruct (lt_eq_lt_dec a k) as [[Q|Q]|Q]; auto; exfalso.
  - destruct (B2 a A1) as (r' & E & _ & L). rewrite (G a A1) in E. injection E as E. specialize (L Q). specialize (A2 k Hk). lra.
  - specialize (A3 k Q). destruct (B2 a A1) as (r' & E & L & _). rewrite (G a A1) in E. injection E as E. lra.
Qed.
Lemma choose_spec len cs es : length cs = length es -> es <> [] -> chosen len cs es (choose_end len cs es).
Proof.
  intros L N k r B. cbv zeta. assert (Hk : (k < length cs)%nat). { destruct (Nat.lt_ge_cases k (length cs)) as [|G]; auto. destruct B as (B & _). rewrite nth_overflow in B by auto. discriminate. }
  unfold choose_end. rewrite (best_argmin cs k r B Hk). destruct B as (B1 & B2). rewrite B1. cbn [at_most].
  assert (EX : forall v, r <= v -> existsb (at_most v) cs = true).
  { intros v Hv. apply existsb_exists. exists (Some r). split. rewrite <- B1. now apply nth_In. cbn. destruct (Rle_dec r v); auto. }
  assert (NX : forall v, v < r -> existsb (at_most v) cs = false).
  { intros v Hv. destruct (existsb (at_most v) cs) eqn:E; auto. apply existsb_exists in E as (c & Hc & E). apply (In_nth _ _ None) in Hc as (j & Hj & <-).
    destruct (B2 j Hj) as (r' & E' & L' & _). rewrite E' in E. cbn in E. destruct (Rle_dec r' v); [lra|discriminate]. }
  destruct (Rle_dec r (-95 / 100)) as [Q|Q].
  { split; auto. split. intros; lra. split; intros; lra. }
  split. { intros; lra. } split; [|split].
  - intros [_ Q2]. rewrite EX by auto. pose proof (selected_tally (-9 / 10) cs es) as (T1 & T2). destruct (tally (-9 / 10) cs es) as [n t]. cbn [fst snd] in *. rewrite <- T1, <- T2.
    apply nat_mean_of. apply exists_selected; auto.
  - intros [Q1 Q2]. rewrite NX, EX by auto. pose proof (selected_tally (-7 / 10) cs es) as (T1 & T2). destruct (tally (-7 / 10) cs es) as [n t]. cbn [fst snd] in *. rewrite <- T1, <- T2.
    set (s := selected (-7 / 10) cs es). set (ek := nth k es 0%nat). pose proof (nat_mean_of (repeat ek 9 ++ s) ltac:(discriminate)) as M.
    rewrite app_length, list_sum_app in M. cbn [repeat length list_sum fold_right] in M. replace (9 * ek)%nat with (ek + (ek + (ek + (ek + (ek + (ek + (ek + (ek + (ek + 0)))))))))%nat by lia. exact M.
  - intros Q1. rewrite (NX (-9 / 10)), (NX (-7 / 10)) by lra. pose proof (nat_mean_of (repeat len 5 ++ es) ltac:(discriminate)) as M.
    rewrite app_length, list_sum_app in M. cbn [repeat length list_sum fold_right] in M. replace (5 * len)%nat with (len + (len + (len + (len + (len + 0)))))%nat by lia. exact M.
Qed.
Lemma choose_all len cs es : length cs = length es -> es <> [] -> (forall e, In e es -> e = len) -> (2 <= len)%nat -> choose_end len cs es = len.
Proof.
  intros L N H HL. unfold choose_end. assert (K : (argmin_nan cs < length es)%nat) by (rewrite <- L; apply argmin_lt; destruct cs, es; cbn in *; congruence).
  pose proof (H _ (nth_In es 0%nat K)) as HK. assert (MR : forall l, l <> [] -> (forall e, In e l -> e = len) -> nat_mean l = len).
  { intros l Nl Hl. pose proof (mean_range len len l Nl). enough (len <= nat_mean l <= len)%nat by lia. apply H0. intros e He. rewrite (Hl e He). lia. }
  destruct (at_most (-95 / 100) _); auto.
  destruct (existsb (at_most (-9 / 10)) cs) eqn:E1.
  { apply MR. now apply exists_selected. intros e He. apply H. eapply selected_in; eauto. }
  destruct (existsb (at_most (-7 / 10)) cs) eqn:E2.
  { apply MR. discriminate. intros e He. apply in_app_or in He as [He|He]. apply repeat_spec in He as ->. auto. apply H. eapply selected_in; eauto. }
  apply MR. discriminate. intros e He. apply in_app_or in He as [He|He]. now apply repeat_spec in He. auto.
Qed.

(** ** Theorems *)
(** r is v rounded to the nearest integer, halves upwards. *)
Definition rounds (v : R) (r : nat) : Prop := INR r - 1 / 2 <= v < INR r + 1 / 2.
Definition windows : list nat := [10; 30; 50; 70; 90]%nat.
(** e is the end found with windows of ms milliseconds. *)
Definition end_with (fs : nat) (env : list R) (ms e : nat) : Prop := exists w, rounds (INR ms / 1000 * INR fs) w /\ is_end env w e.
(** The part of one response until its decay ends: start, stop and peak. *)
Definition decays_until (fs : nat) (off : R) (x : list R) (start stop p : nat) (env : list R) : Prop :=
  first_peak x p /\ (exists r, rounds (off * INR fs) r /\ start = (p - (1 + r))%nat) /\ curve_of fs (skipn p x) env /\
  exists es cs, Forall2 (end_with fs env) windows es /\ Forall2 (corr env) es cs /\
    (p + 2 <= stop)%nat /\ (stop <= p + length env)%nat /\ chosen (length env) cs es (stop - p).

Lemma window_rounds fs ms : rounds (INR ms / 1000 * INR fs) (window_len fs ms).
Proof.
  unfold rounds, window_len. set (n := (2 * ms * fs + 1000)%nat). pose proof (Nat.div_mod n 2000 ltac:(lia)) as D. pose proof (Nat.mod_upper_bound n 2000 ltac:(lia)) as M.
  assert (E : 2 * INR ms * INR fs + 1000 = 2000 * INR (n / 2000) + INR (n mod 2000)).
  { apply (f_equal INR) in D. unfold n at 1 in D. rewrite !plus_INR, !mult_INR in D. rewrite (INR_IZR_INZ 2), (INR_IZR_INZ 1000), (INR_IZR_INZ 2000) in D. cbn [Z.of_nat] in D. 
    change (Z.of_nat 2) with 2%Z in D. change (Z.of_nat 1000) with 1000%Z in D. change (Z.of_nat 2000) with 2000%Z in D. exact D. }
  apply lt_INR in M. rewrite (INR_IZR_INZ 2000) in M. change (Z.of_nat 2000) with 2000%Z in M. pose proof (pos_INR (n mod 2000)). lra.
Qed.
Lemma trim_eq one fs off d x : x <> [] -> trim_bounds one fs off d x =
  let p := peak_index x in let st := (p - 1 - Z.to_nat (truncate (off * INR fs + 1 / 2)))%nat in
  bind (time_smoothing (etc (skipn p x)) (INR fs) (20 / 1000) None) (fun env =>
  let es := map (fun ms => window_end env (window_len fs ms)) windows in
  bind (seq_result (map (window_corr env) es)) (fun cs =>
  let e := choose_end (length env) cs es in
  if Req_EM_T d 0 then Ok (st, (p + e)%nat, (p - st)%nat) else
  bind (above_noise one (firstn e env) (option_map db_power (M_reverb.variance (skipn (p + e) x))) (Rabs d)) (fun e' => Ok (st, (p + e')%nat, (p - st)%nat)))).
Proof.
  intros N. destruct x as [|v t] eqn:X; [congruence|]. rewrite <- X. unfold trim_bounds. rewrite X at 1. cbv zeta. set (p := peak_index x). set (st := (p - 1 - _)%nat).
  assert (PS : (st + (p - st) = p)%nat) by (unfold st; lia). rewrite PS. destruct (time_smoothing _ _ _ _) as [env|]; cbn [bind]; auto. fold windows.
  destruct (seq_result _) as [cs|]; cbn [bind]; auto. set (e := choose_end _ _ _). replace (e + st + (p - st))%nat with (p + e)%nat by lia. destruct (Req_EM_T d 0); auto.
  destruct (above_noise _ _ _ _) as [e'|]; cbn [bind]; auto. now replace (e' + st + (p - st))%nat with (p + e')%nat by lia.
Qed.
Lemma trim_inv one fs off d x a b i : trim_bounds one fs off d x = Ok (a, b, i) -> let p := peak_index x in
  x <> [] /\ a = (p - 1 - Z.to_nat (truncate (off * INR fs + 1 / 2)))%nat /\ i = (p - a)%nat /\
  exists env cs, let es := map (fun ms => window_end env (window_len fs ms)) windows in let e := choose_end (length env) cs es in
    time_smoothing (etc (skipn p x)) (INR fs) (20 / 1000) None = Ok env /\ seq_result (map (window_corr env) es) = Ok cs /\
    (d = 0 -> b = (p + e)%nat) /\
    (d <> 0 -> exists e', above_noise one (firstn e env) (option_map db_power (M_reverb.variance (skipn (p + e) x))) (Rabs d) = Ok e' /\ b = (p + e')%nat).
Proof.
  intros H p. assert (N : x <> []) by (intros X; subst x; discriminate). split; auto. rewrite trim_eq in H by auto. cbv zeta in H. fold p in H.
  set (st := (p - 1 - Z.to_nat (truncate (off * INR fs + 1 / 2)))%nat) in *.
  apply bind_inv in H as (env & E1 & H). apply bind_inv in H as (cs & E2 & H).
  destruct (Req_EM_T d 0) as [D|D].
  - injection H as <- <- <-. split; auto. split; auto. exists env, cs. cbv zeta. split; auto. split; auto. split; auto. intros; contradiction.
  - apply bind_inv in H as (e' & E3 & H). injection H as <- <- <-. split; auto. split; auto. exists env, cs. cbv zeta. split; auto. split; auto. split. { intros; contradiction. }
    intros _. exists e'. split; auto.
Qed.
Lemma trim_zero one fs off d x a b i : trim_bounds one fs off d x = Ok (a, b, i) -> exists b0, trim_bounds one fs off 0 x = Ok (a, b0, i).
Proof.
  intros H. assert (N : x <> []) by (intros ->; discriminate). rewrite trim_eq in * by auto. cbv zeta in *.
  apply bind_inv in H as (env & -> & H). apply bind_inv in H as (cs & E2 & H). cbn [bind]. rewrite E2. cbn [bind]. destruct (Req_EM_T 0 0) as [_|N0]; [|congruence].
  destruct (Req_EM_T d 0) as [D|D].
  - injection H as <- <- <-. eexists. reflexivity.
  - apply bind_inv in H as (e' & E3 & H). injection H as <- <- <-. eexists. reflexivity.
Qed.
Lemma corrs env es cs : (forall e, In e es -> (e <= length env)%nat) -> seq_result (map (window_corr env) es) = Ok cs -> Forall2 (corr env) es cs.
Proof.
  intros H E. apply seq_result_inv in E. revert cs E. induction es as [|e es IH]; intros [|c cs] E; cbn [map] in E; try discriminate; constructor.
  - injection E as E _. destruct (window_corr_spec env e) as [(_ & F)|(r & F & G)]. apply H. now left. congruence. rewrite F in E. injection E as <-. auto.
  - apply IH. intros; apply H; now right. now injection E.
Qed.
(** The start lies the rounded offset and one sample before the largest sample. The stop lies where the smoothed energy decay, seen
    through windows of 10 to 90 ms, ends for the first time, combined according to the correlations as documented. It lies at least
    two samples after the largest one and at most the padded length of the rest. *)
Theorem C106_decay_end one fs off x a b i : (0 < fs)%nat -> 0 <= off -> trim_bounds one fs off 0 x = Ok (a, b, i) ->
  exists env, decays_until fs off x a b (a + i) env.
Proof.
  intros Hf Ho H. destruct (trim_inv _ _ _ _ _ _ _ _ H) as (N & A & I & env & cs & E1 & E2 & B & _). cbv zeta in *. specialize (B eq_refl).
  set (p := peak_index x) in *. pose proof (first_peak_argmax x N) as P. fold (peak_index x) in P. fold p in P. exists env.
  replace (a + i)%nat with p by lia. split; auto. split.
  { exists (Z.to_nat (truncate (off * INR fs + 1 / 2))). split. apply round_len. pose proof (pos_INR fs). nra. lia. }
  assert (NS : skipn p x <> []). { intros Z. apply (f_equal (@length R)) in Z. rewrite skipn_length in Z. cbn in Z. destruct P. lia. }
  pose proof (curve_spec fs _ env Hf E1 NS) as CS. split; auto.
  set (es := map (fun ms => window_end env (window_len fs ms)) windows) in *. exists es, cs.
  assert (HE : forall e, In e es -> (e <= length env)%nat). { intros e He. unfold es in He. apply in_map_iff in He as (ms & <- & _). unfold window_end. lia. }
  pose proof (corrs env es cs HE E2) as CC. split; [|split; auto].
  { unfold es. clear. generalize windows. induction l; constructor; auto. exists (window_len fs a). split. apply window_rounds. apply window_end_spec. }
  assert (LC : length cs = length es) by (clear - CC; induction CC; cbn; congruence). assert (NE : es <> []) by (unfold es, windows; discriminate).
  assert (H2 : forall e, In e es -> (2 <= e <= length env)%nat). { intros e He. split; auto. clear - CC He. induction CC as [|e' r es cs Q CC IH]; [destruct He|]. destruct He as [<-|He]; [apply Q|auto]. }
  assert (LE : (2 <= length env)%nat). { destruct es as [|e es']; [congruence|]. pose proof (H2 e (or_introl eq_refl)). lia. }
  pose proof (choose_range (length env) cs es LE NE LC H2). rewrite B. split. lia. split. lia. replace (p + choose_end (length env) cs es - p)%nat with (choose_end (length env) cs es) by lia.
  apply choose_spec; auto.
Qed.
Print Assumptions C106_decay_end.

(** The level of the noise after the stop: that of the variance of the remaining samples. *)
Definition noise_level (x : list R) (stop : nat) : R :=
  let n := (length x - stop)%nat in let y i := gt x (stop + i) in lev (sm n (fun i => dev n y i * dev n y i) / INR n).
(** The line s t + c fits the first e levels better than any other. *)
Definition best_line (env : list R) (e : nat) (s c : R) : Prop :=
  (forall s' c', line_error INR env 0 e s c <= line_error INR env 0 e s' c') /\
  (forall s' c', line_error INR env 0 e s' c' <= line_error INR env 0 e s c -> s' = s /\ c' = c).

Lemma fit_best one env e : (2 <= e <= length env)%nat -> exists s c, polyfit1 one (ramp (length (firstn e env))) (firstn e env) = Ok (s, c) /\ best_line env e s c /\
  s = cov (ramp e) (firstn e env) / cov (ramp e) (ramp e).
Proof.
  intros H. assert (LF : length (firstn e env) = e) by (rewrite firstn_length; lia). rewrite LF.
  set (y := firstn e env) in *. set (s := cov (ramp e) y / cov (ramp e) (ramp e)). set (c := average y - s * average (ramp e)).
  assert (P : 0 < cov (ramp e) (ramp e)) by (apply cov_inc; [rewrite ramp_length; lia|apply ramp_inc]).
  exists s, c. split. { unfold polyfit1. pose proof (ramp_length e) as RL. destruct (ramp e) as [|u [|v t]] eqn:R0; cbn in RL; try lia. reflexivity. }
  split; auto. assert (LE : forall s' c', line_error INR env 0 e s' c' = err2 (ramp e) y s' c').
  { intros s' c'. unfold line_error, err2. rewrite ramp_length, Nat.sub_0_r. apply sm_ext. intros i Hi. rewrite get_ramp by auto. unfold y. rewrite get_firstn' by auto. reflexivity. }
  assert (SP : forall s' c', err2 (ramp e) y s' c' = err2 (ramp e) y s c + ((s' - s) ^ 2 * cov (ramp e) (ramp e) + INR e * (average y - s' * average (ramp e) - c') ^ 2)).
  { intros s' c'. rewrite (err2_split (ramp e) y s' c'), (err2_split (ramp e) y s c); rewrite ?ramp_length; auto; try lia. fold s. rewrite ?ramp_length. unfold c. ring. }
  assert (NE : 0 < INR e) by (apply lt_0_INR; lia).
  split; intros s' c'.
  - rewrite !LE, (SP s' c'). pose proof (pow2_ge_0 (s' - s)). pose proof (pow2_ge_0 (average y - s' * average (ramp e) - c')). nra.
  - rewrite !LE, (SP s' c'). intros L. set (u := s' - s) in *. set (w := average y - s' * average (ramp e) - c') in *. pose proof (Rle_0_sqr u). pose proof (Rle_0_sqr w). unfold Rsqr in *.
    assert (U : u = 0). { destruct (Req_dec u 0) as [|N]; auto. pose proof (Rlt_0_sqr u N). unfold Rsqr in *. nra. }
    assert (W : w = 0). { destruct (Req_dec w 0) as [|N]; auto. pose proof (Rlt_0_sqr w N). unfold Rsqr in *. nra. }
    assert (s' = s) by (unfold u in U; lra). split; auto. unfold w in W. rewrite H2 in W. unfold c. lra.
Qed.
Lemma ok_inj {T} (u v : T) : Ok u = Ok v -> u = v. Proof. congruence. Qed.
Lemma truncate_cases v : let i := IZR (truncate v) in (v < i + 1) /\ (0 <= v -> i <= v) /\ (v < 0 -> i <= 0).
Proof.
  cbv zeta. unfold truncate, ceil. destruct (Rlt_dec v 0) as [L|L].
  - destruct (base_Int_part (- v)) as [B1 B2]. rewrite opp_IZR. split. lra. split. intros; lra. intros _. assert (0 <= IZR (Int_part (- v))). { apply IZR_le. assert (-1 < Int_part (- v))%Z by (apply lt_IZR; lra). lia. } lra.
  - destruct (base_Int_part v) as [B1 B2]. split. lra. split; intros; lra.
Qed.
(** With a safety distance the stop moves back to where the least squares line of the decay comes down to the noise floor plus the
    distance, rounded, but not below three quarters of the decay and never beyond its end. If the line rises the stop stays. The
    noise floor must exist: the decay ends before the last sample. *)
Theorem C106_safety one fs off d x a b i : (0 < fs)%nat -> 0 <= off -> d <> 0 -> trim_bounds one fs off d x = Ok (a, b, i) ->
  exists b0 env s c, let p := (a + i)%nat in let e := (b0 - p)%nat in let line t := s * INR t + c in
    trim_bounds one fs off 0 x = Ok (a, b0, i) /\ decays_until fs off x a b0 p env /\ best_line env e s c /\
    (p + 2 <= b <= b0)%nat /\ (3 * e <= 4 * (b - p) + 1)%nat /\ (0 < s -> b = b0) /\
    (s <= 0 -> s < 0 /\ (b0 < length x)%nat /\ let level := noise_level x b0 + Rabs d in
      ((b < b0)%nat -> line (b - p)%nat <= level - s / 2) /\
      ((3 * e + 2 < 4 * (b - p))%nat -> level + s / 2 <= line (b - p)%nat)).
Proof.
  intros Hf Ho Hd H. destruct (trim_zero _ _ _ _ _ _ _ _ H) as (b0 & H0). destruct (C106_decay_end _ _ _ _ _ _ _ Hf Ho H0) as (env' & DU).
  destruct (trim_inv _ _ _ _ _ _ _ _ H) as (N & A & I & env & cs & E1 & E2 & _ & B). destruct (trim_inv _ _ _ _ _ _ _ _ H0) as (_ & _ & _ & env2 & cs2 & E1' & E2' & B0 & _). cbv zeta in *.
  specialize (B Hd). specialize (B0 eq_refl). set (p := peak_index x) in *. rewrite E1 in E1'. injection E1' as <-. rewrite E2 in E2'. injection E2' as <-.
  set (e := choose_end _ cs _) in *. destruct B as (e' & B1 & B). pose proof (first_peak_argmax x N) as P. fold (peak_index x) in P. fold p in P.
  assert (PA : (a + i = p)%nat) by lia. rewrite PA in *.
  destruct DU as (D1 & D2 & (D3 & D3') & es & cs' & D4 & D5 & D6 & D7 & D8). rewrite B0 in D6, D7, D8. 
  assert (LL : length env' = length env). { rewrite D3. unfold time_smoothing in E1. destruct (Rlt_dec (20 / 1000) 0); [lra|]. injection E1 as <-. rewrite (proj1 (smooth_one_spec _ _)). now rewrite etc_length. }
  assert (He : (2 <= e <= length env)%nat) by lia. destruct (fit_best one env e He) as (s & c & F1 & F2 & _).
  exists b0, env, s, c. split; auto. split.
  { destruct (C106_decay_end _ _ _ _ _ _ _ Hf Ho H0) as (env3 & DU3). 
    assert (XX : curve_of fs (skipn p x) env). { apply curve_spec; auto. intros Z. apply (f_equal (@length R)) in Z. rewrite skipn_length in Z. cbn in Z. destruct P. lia. }
    split; auto. split; auto. split; auto. exists (map (fun ms => window_end env (window_len fs ms)) windows), cs.
    set (es0 := map (fun ms => window_end env (window_len fs ms)) windows) in *.
    assert (HE : forall e, In e es0 -> (e <= length env)%nat). { intros u Hu. unfold es0 in Hu. apply in_map_iff in Hu as (ms & <- & _). unfold window_end. lia. }
    pose proof (corrs env es0 cs HE E2) as CC. split.
    { unfold es0. clear. generalize windows. induction l; constructor; auto. exists (window_len fs a). split. apply window_rounds. apply window_end_spec. }
    split; auto. split. lia. split. lia. rewrite B0. replace (p + e - p)%nat with e by lia. apply choose_spec. clear - CC; induction CC; cbn; congruence. unfold es0, windows. discriminate. }
  assert (EB : (b0 - p = e)%nat) by lia. rewrite EB. split; auto.
  unfold above_noise in B1. rewrite F1 in B1. cbn [bind] in B1. assert (LF : length (firstn e env) = e) by (rewrite firstn_length; lia). rewrite LF in B1.
  destruct (Rlt_dec 0 s) as [S0|S0].
  { injection B1 as <-. split. lia. split. lia. split. intros; lia. intros; lra. }
  destruct (Req_EM_T s 0) as [|S1]; [discriminate|].
  assert (LX : (p + e < length x)%nat). { destruct (Nat.lt_ge_cases (p + e) (length x)) as [|G]; auto. rewrite skipn_all2 in B1 by auto. cbn in B1. discriminate. }
  assert (NV : option_map db_power (M_reverb.variance (skipn (p + e) x)) = Some (noise_level x b0)).
  { rewrite B0. assert (LS : length (skipn (p + e) x) = (length x - (p + e))%nat) by apply skipn_length. destruct (skipn (p + e) x) as [|u t] eqn:K. { cbn in LS. lia. }
    rewrite <- K in *. unfold M_reverb.variance. rewrite K at 1. cbn [option_map]. f_equal. unfold noise_level, lev, db_power, level. cbv zeta. cbn [db_factor].
    rewrite (cov_dev (length x - (p + e)) _ _ (fun j => gt x (p + e + j)) (fun j => gt x (p + e + j))); auto; try (intros; unfold get; apply nth_skipn). rewrite LS. reflexivity. }
  rewrite NV in B1. cbv beta iota zeta in B1. apply ok_inj in B1. subst e'. set (v := (noise_level x b0 + Rabs d - c) / s) in *. set (tr := truncate (v + 1 / 2)) in *.
  set (lo := ((3 * e + 2) / 4)%nat) in *. assert (LO : (3 * e <= 4 * lo + 1)%nat /\ (4 * lo <= 3 * e + 2)%nat).
  { unfold lo. pose proof (Nat.div_mod (3 * e + 2) 4 ltac:(lia)). pose proof (Nat.mod_upper_bound (3 * e + 2) 4 ltac:(lia)). lia. }
  set (q := Z.to_nat (Z.min (Z.of_nat e) (Z.max (Z.of_nat lo) tr))) in *. assert (Q : (Z.of_nat q = Z.min (Z.of_nat e) (Z.max (Z.of_nat lo) tr))%Z) by (clear; unfold q; lia).
  assert (BQ : (b - p = q)%nat) by (clear - B; lia). rewrite BQ. clear H H0 D1 D2 D3 D3' D4 D5 D8 N P F1 F2 NV E1 E2 LF. clearbody q. split. lia. split. lia. split. intros; lra. intros _. split. lra. split. lia.
  destruct (truncate_cases (v + 1 / 2)) as (T1 & T2 & T3). fold tr in T1, T2, T3. assert (V : s * v = noise_level x b0 + Rabs d - c) by (unfold v; field; auto).
  split.
  - intros L. assert (IZR tr <= INR q). { rewrite INR_IZR_INZ. apply IZR_le. lia. } nra.
  - intros L. assert (INR q <= IZR tr). { rewrite INR_IZR_INZ. apply IZR_le. lia. }
    assert (0 < IZR tr). { apply (Rlt_le_trans _ (INR q)); auto. apply lt_0_INR. lia. } 
    assert (V0 : 0 <= v + 1 / 2). { destruct (Rle_dec 0 (v + 1 / 2)); auto. specialize (T3 ltac:(lra)). lra. } specialize (T2 V0). nra.
Qed.
Print Assumptions C106_safety.
(** In particular: the largest sample and the one after are never cut, and the start is the one documented. *)
Theorem C106_bounds one fs off d x a b i : (0 < fs)%nat -> 0 <= off -> trim_bounds one fs off d x = Ok (a, b, i) ->
  exists p r, first_peak x p /\ rounds (off * INR fs) r /\ a = (p - (1 + r))%nat /\ (a + i)%nat = p /\ (p + 2 <= b <= p + next_fast_len_c (length x - p))%nat.
Proof.
  intros Hf Ho H. destruct (trim_zero _ _ _ _ _ _ _ _ H) as (b0 & H0). destruct (C106_decay_end _ _ _ _ _ _ _ Hf Ho H0) as (env & P & (r & R1 & R2) & (L & _) & _ & _ & _ & _ & B1 & B2 & _).
  exists (a + i)%nat, r. split; auto. split; auto. split; auto. split; auto. rewrite L, skipn_length in B2. destruct (Req_dec d 0) as [->|D].
  - rewrite H in H0. injection H0 as <-. lia.
  - destruct (C106_safety _ _ _ _ _ _ _ _ Hf Ho D H) as (b1 & env1 & s & c & X). cbv zeta in X. destruct X as (X1 & _ & _ & X2 & _). rewrite X1 in H0. injection H0 as ->. lia.
Qed.
Print Assumptions C106_bounds.

(** ** The curve is determined by the response *)
Lemma curve_unique fs x env : (0 < fs)%nat -> x <> [] -> curve_of fs x env -> time_smoothing (etc x) (INR fs) (20 / 1000) None = Ok env.
Proof.
  intros Hf Hx (L & z & Z & C0 & C1). unfold time_smoothing. destruct (Rlt_dec (20 / 1000) 0) as [L0|_]; [lra|].
  destruct (time_smoothing (etc x) (INR fs) (20 / 1000) None) as [env2|] eqn:E; [|unfold time_smoothing in E; destruct (Rlt_dec (20 / 1000) 0); [lra|discriminate]].
  pose proof (curve_spec fs x env2 Hf E Hx) as (L2 & z2 & Z2 & D0 & D1). unfold time_smoothing in E. destruct (Rlt_dec (20 / 1000) 0) as [L0|_]; [lra|]. rewrite E. f_equal.
  set (N := next_fast_len_c (length x)) in *. rewrite L in Z, C1. rewrite L2 in Z2, D1.
  assert (NP : (0 < N)%nat). { unfold N. pose proof (next_fast_len_c_ge (length x)). destruct x; [congruence|]. cbn [length] in *. lia. }
  assert (U : forall w, analytic_of x N w -> forall t, (t < N)%nat -> w t = nth t (analytic (pad_trim_col (HA := CRing_R) N true x)) (rc 0)).
  { intros w (W1 & W2 & W3) t Ht. assert (LY : length (pad_trim_col (HA := CRing_R) N true x) = N) by apply pad_trim_length.
    apply C76_hilbert_unique; rewrite ?LY; auto. intros s Hs. rewrite W1 by auto. symmetry. apply (pad_trim_end (HA := CRing_R)). auto. }
  apply (list_eq_nth (r0 : R)). lia. intros t Ht. change (gt env2 t = gt env t). rewrite L2 in Ht. induction t as [|t IH].
  - rewrite C0, D0, (U z Z 0%nat), (U z2 Z2 0%nat) by auto. reflexivity.
  - rewrite (C1 t), (D1 t) by auto. rewrite IH by lia. rewrite (U z Z (S t)), (U z2 Z2 (S t)) by auto. reflexivity.
Qed.
Lemma peak_unique x p : first_peak x p -> peak_index x = p /\ x <> [].
Proof.
  intros P. assert (N : x <> []) by (intros ->; destruct P as (P & _); cbn in P; lia). split; auto. eapply first_peak_unique; eauto. now apply first_peak_argmax.
Qed.

(** ** Responses that are too short *)
(** A response whose largest sample is the last one cannot be trimmed. *)
Theorem C106_last_peak_refuted one fs off d x : first_peak x (length x - 1) -> trim_bounds one fs off d x = Err ValueError.
Proof.
  intros P. destruct (peak_unique x _ P) as (E & N). rewrite trim_eq by auto. cbv zeta. rewrite E. assert (LS : length (skipn (length x - 1) x) = 1%nat). { rewrite skipn_length. destruct P as (P & _). lia. }
  unfold time_smoothing. destruct (Rlt_dec (20 / 1000) 0) as [L0|_]; [lra|]. cbn [bind]. set (env := smooth_one _ _).
  assert (LE : length env = 1%nat). { unfold env. rewrite (proj1 (smooth_one_spec _ _)), etc_length, LS. reflexivity. }
  cbn [windows map seq_result]. unfold window_corr at 1, pearsonr. rewrite ramp_length. destruct (Nat.ltb_spec (window_end env (window_len fs 10)) 2) as [L|L]. reflexivity.
  unfold window_end in L. lia.
Qed.
Print Assumptions C106_last_peak_refuted.
(** After the largest sample fewer than half of the shortest window, 5 ms, are left (with the padding): the decay then seems to end
    after the last sample, and no sample is left for the noise floor. A falling curve raises ValueError; only a rising one does not,
    and then nothing is cut at the end. *)
Theorem C106_short_refuted one fs off d x p w : (0 < fs)%nat -> 0 <= off -> d <> 0 -> first_peak x p -> (S p < length x)%nat ->
  rounds (10 / 1000 * INR fs) w -> (2 * next_fast_len_c (length x - p) <= w)%nat ->
  (forall a b i, trim_bounds one fs off d x = Ok (a, b, i) -> (length x <= b)%nat) /\
  (forall env, curve_of fs (skipn p x) env -> falling env -> gt env (length env - 1) < gt env 0 -> trim_bounds one fs off d x = Err ValueError).
Proof.
  intros Hf Ho Hd P Hp Hw H. destruct (peak_unique x _ P) as (E & N). set (M := next_fast_len_c (length x - p)) in *.
  assert (NS : skipn p x <> []). { intros Z. apply (f_equal (@length R)) in Z. rewrite skipn_length in Z. cbn in Z. lia. }
  pose proof (next_fast_len_c_ge (length x - p)) as GE. fold M in GE.
  assert (WL : forall ms, In ms windows -> (w <= window_len fs ms)%nat).
  { intros ms Hms. pose proof (window_rounds fs ms) as (W1 & W2). destruct Hw as (W3 & W4). enough (INR w < INR (window_len fs ms) + 1) by (rewrite <- S_INR in H0; apply INR_lt in H0; lia).
    assert (10 <= INR ms). { change 10 with (IZR (Z.of_nat 10)). rewrite <- INR_IZR_INZ. apply le_INR. cbn in Hms. lia. } assert (0 < INR fs) by (apply lt_0_INR; auto).
    assert (10 / 1000 * INR fs <= INR ms / 1000 * INR fs) by nra. lra. }
  assert (WE : forall env, length env = M -> forall ms, In ms windows -> window_end env (window_len fs ms) = M).
  { intros env Le ms Hms. specialize (WL ms Hms). unfold window_end. rewrite Le, (Nat.div_small M (window_len fs ms)) by lia. cbn [decay_run].
    assert (M <= (0 * 2 + window_len fs ms) / 2)%nat by (apply Nat.div_le_lower_bound; lia). lia. }
  assert (CH : forall env cs, length env = M -> seq_result (map (window_corr env) (map (fun ms => window_end env (window_len fs ms)) windows)) = Ok cs ->
    choose_end (length env) cs (map (fun ms => window_end env (window_len fs ms)) windows) = M).
  { intros env cs Le Ec. rewrite Le. apply choose_all; try (unfold windows; discriminate).
    - apply seq_result_inv in Ec. rewrite <- (map_length Ok cs), <- Ec. now rewrite map_length.
    - intros e He. apply in_map_iff in He as (ms & <- & Hms). auto.
    - lia. }
  split.
  - intros a b i T. destruct (C106_safety _ _ _ _ _ _ _ _ Hf Ho Hd T) as (b0 & env & s & c & X). cbv zeta in X. destruct X as (T0 & _ & _ & X1 & _ & X2 & X3).
    destruct (trim_inv _ _ _ _ _ _ _ _ T0) as (_ & A & I & env2 & cs & E1 & E2 & B & _). cbv zeta in *. specialize (B eq_refl). rewrite E in *.
    assert (Le : length env2 = M). { pose proof (curve_spec fs _ env2 Hf E1 NS) as (Le & _). rewrite Le, skipn_length. reflexivity. }
    rewrite CH in B by auto. destruct (Rlt_dec 0 s) as [S0|S0]. { rewrite (X2 S0). lia. } specialize (X3 ltac:(lra)). lia.
  - intros env CE F L. pose proof (curve_unique fs _ env Hf NS CE) as E1. pose proof CE as (Le & _). rewrite skipn_length in Le. fold M in Le.
    rewrite trim_eq by auto. cbv zeta. rewrite E, E1. cbn [bind].
    assert (SC : exists cs, seq_result (map (window_corr env) (map (fun ms => window_end env (window_len fs ms)) windows)) = Ok cs).
    { assert (ALL : forall l, (forall e, In e l -> e = M) -> exists cs, seq_result (map (window_corr env) l) = Ok cs).
      { clear - Le GE Hp. induction l as [|e l IH]; intros H. { exists []. reflexivity. } destruct IH as (cs & IH). { intros; apply H; now right. }
        destruct (window_corr_spec env e) as [(K & _)|(r & K & _)]. { rewrite (H e) by now left. lia. } { rewrite (H e) in K by (now left). lia. }
        exists (r :: cs). cbn [map seq_result]. rewrite K, IH. reflexivity. }
      apply ALL. intros e He. apply in_map_iff in He as (ms & <- & Hms). auto. }
    destruct SC as (cs & SC). rewrite SC. cbn [bind]. rewrite CH by auto. destruct (Req_EM_T d 0); [contradiction|].
    destruct (fit_best one env M) as (s & c & F1 & _ & F3). { lia. } unfold above_noise. rewrite F1. cbn [bind].
    assert (FE : firstn M env = env) by (rewrite <- Le; apply firstn_all). rewrite FE in F3.
    destruct (cov_falling (ramp M) env) as (_ & K). { now rewrite ramp_length. } { rewrite ramp_length. lia. } { intros. now apply ramp_inc. } { auto. } specialize (K L).
    pose proof (cov_inc (ramp M) ltac:(rewrite ramp_length; lia) (ramp_inc M)) as KP.
    assert (s < 0). { rewrite F3. unfold Rdiv. pose proof (Rinv_0_lt_compat _ KP). nra. }
    destruct (Rlt_dec 0 s); [lra|]. destruct (Req_EM_T s 0); [lra|]. rewrite skipn_all2 by lia. reflexivity.
Qed.
Print Assumptions C106_short_refuted.

(** ** The level of the response *)
Lemma analytic_scale g x N z : analytic_of x N z -> analytic_of (map (Rmult g) x) N (fun t => cmul (rc g) (z t)).
Proof.
  intros (A & B & D). assert (S : forall k, cdft N (fun t => cmul (rc g) (z t)) k = cmul (rc g) (cdft N z k)).
  { intros k. unfold cdft. change cmul with (@rmul C CRing_C). rewrite <- (sum_scal_l (HA := CRing_C)). apply (sum_ext (HA := CRing_C)). intros t _. apply c_ext; simpl; ring. }
  split; [|split].
  - intros t Ht. rewrite get_scale, <- A by auto. simpl. ring.
  - intros k Hk H. rewrite S, B by auto. apply c_ext; simpl; ring.
  - intros k Hk H. rewrite S. specialize (D k Hk H). simpl. rewrite D. ring.
Qed.
Lemma cmod_scale g z : 0 <= g -> cmod (cmul (rc g) z) = g * cmod z.
Proof.
  intros H. unfold cmod. replace (cabs2 (cmul (rc g) z)) with (g * g * cabs2 z) by (unfold cabs2; simpl; ring).
  rewrite sqrt_mult. now rewrite sqrt_square. nra. unfold cabs2. nra.
Qed.
Lemma curve_env fs x z env : (0 < fs)%nat -> x <> [] -> curve_of fs x env -> analytic_of x (length env) z -> smooth_curve fs (fun t => mag_level (cmod (z t))) env.
Proof.
  intros Hf Hx (L & z2 & Z2 & D0 & D1) (W1 & W2 & W3). set (N := length env) in *. destruct Z2 as (V1 & V2 & V3).
  assert (NP : (0 < N)%nat). { rewrite L. pose proof (next_fast_len_c_ge (length x)). destruct x; [congruence|]. cbn [length] in *. lia. }
  assert (U : forall t, (t < N)%nat -> z t = z2 t).
  { intros t Ht. set (y := pad_trim_col (HA := CRing_R) N true x). assert (LY : length y = N) by apply pad_trim_length.
    assert (G : forall s, (s < N)%nat -> gt y s = gt x s) by (intros; now apply (pad_trim_end (HA := CRing_R))).
    rewrite (C76_hilbert_unique y z), (C76_hilbert_unique y z2); rewrite ?LY; auto; intros s Hs; rewrite G by auto; auto. }
  split. { rewrite U by auto. auto. } intros n Hn. rewrite U by auto. auto.
Qed.
Lemma q_range fs : (0 < fs)%nat -> 0 < Rpower (5 / 100) (1 / (2 / 100 * INR fs)) < 1.
Proof.
  intros H. split. apply exp_pos. unfold Rpower. apply (Rlt_le_trans _ (exp 0)); [|rewrite exp_0; lra]. apply exp_increasing. assert (0 < INR fs) by (apply lt_0_INR; auto).
  assert (ln (5 / 100) < 0). { rewrite <- ln_1. apply ln_increasing; lra. } assert (P : 0 < 1 / (2 / 100 * INR fs)). { apply Rmult_lt_0_compat; [lra|]. apply Rinv_0_lt_compat. lra. } revert P. generalize (1 / (2 / 100 * INR fs)). intros u P. nra.
Qed.
Lemma env_sign fs l env : (0 < fs)%nat -> smooth_curve fs l env ->
  ((forall t, (t < length env)%nat -> 0 <= l t) -> forall t, (t < length env)%nat -> 0 <= gt env t) /\
  ((forall t, (t < length env)%nat -> l t < 0) -> forall t, (t < length env)%nat -> gt env t < 0).
Proof.
  intros Hf (S0 & S1). destruct (q_range fs Hf) as (Q0 & Q1). set (q := Rpower _ _) in *. split; intros H t Ht; induction t as [|t IH].
  - rewrite S0. auto.
  - rewrite (S1 t) by auto. fold q. specialize (IH ltac:(lia)). specialize (H (S t) Ht). nra.
  - rewrite S0. auto.
  - rewrite (S1 t) by auto. fold q. specialize (IH ltac:(lia)). specialize (H (S t) Ht). nra.
Qed.
Lemma mean_sign env w : (0 < w <= length env)%nat ->
  ((forall t, (t < length env)%nat -> 0 <= gt env t) -> 0 <= win_mean env w 0) /\ ((forall t, (t < length env)%nat -> gt env t < 0) -> win_mean env w 0 < 0).
Proof.
  intros Hw. assert (P : 0 < / INR w) by (apply Rinv_0_lt_compat, lt_0_INR; lia). unfold win_mean, Rdiv. split; intros H.
  - apply Rmult_le_pos; [|lra]. apply sm_nonneg. intros i Hi. apply H. lia.
  - assert (sm w (fun i => gt env (0 * w + i)) < 0). { apply (sm_strict _ _ 0%nat); try lia. intros i Hi. apply Rlt_le, H. lia. apply H. lia. } nra.
Qed.
Lemma level_neg v : 0 < v < 1 -> level true v < 0.
Proof. intros H. unfold level. assert (ln v < 0) by (rewrite <- ln_1; apply ln_increasing; lra). pose proof ln10p. assert (0 < / ln 10) by now apply Rinv_0_lt_compat. unfold Rdiv. nra. Qed.
Lemma small_lt_1 : smallest_normal < 1.
Proof. unfold smallest_normal. rewrite <- Rinv_1. apply Rinv_lt_contravar. rewrite Rmult_1_l. apply pow_lt; lra. apply Rlt_pow_R1; [lra|lia]. Qed.
(** The end found depends on the level of the response: the first window is compared with 0 dB. Amplified enough, every response
    with a nowhere vanishing envelope seems to end in the middle of the first window of each length; attenuated enough, never. *)
Theorem C106_level_refuted fs x z w : (0 < fs)%nat -> x <> [] -> let N := next_fast_len_c (length x) in analytic_of x N z ->
  (forall t, (t < N)%nat -> 0 < cmod (z t)) -> (0 < w <= N)%nat ->
  (exists G, 0 < G /\ forall g env e, G <= g -> curve_of fs (map (Rmult g) x) env -> is_end env w e -> e = (w / 2)%nat) /\
  (exists G, 0 < G /\ forall g env e, 0 < g <= G -> curve_of fs (map (Rmult g) x) env -> is_end env w e -> (Nat.min (w + w / 2) N <= e)%nat /\ (w / 2 < e)%nat).
Proof.
  intros Hf Hx N Z P Hw.
  assert (BD : exists m M, 0 < m /\ 0 < M /\ forall t, (t < N)%nat -> m <= cmod (z t) <= M).
  { assert (HI : forall n, (n <= N)%nat -> exists m M, 0 < m /\ 0 < M /\ forall t, (t < n)%nat -> m <= cmod (z t) <= M).
    { induction n as [|n IH]; intros Hn. { exists 1, 1. split. lra. split. lra. intros; lia. } destruct (IH ltac:(lia)) as (m & M & A & B & D). specialize (P n ltac:(lia)).
      exists (Rmin m (cmod (z n))), (Rmax M (cmod (z n))). split. { now apply Rmin_glb_lt. } split. { pose proof (Rmax_l M (cmod (z n))). lra. }
      intros t Ht. destruct (Nat.eq_dec t n) as [->|]. split. apply Rmin_r. apply Rmax_r. specialize (D t ltac:(lia)). pose proof (Rmin_l m (cmod (z n))). pose proof (Rmax_l M (cmod (z n))). lra. }
    apply HI. lia. }
  destruct BD as (m & M & Hm & HM & BD).
  assert (SC : forall g env, 0 < g -> curve_of fs (map (Rmult g) x) env -> length env = N /\ smooth_curve fs (fun t => mag_level (g * cmod (z t))) env).
  { intros g env Hg CE. pose proof CE as (L & _). rewrite map_length in L. fold N in L. split; auto.
    assert (NX : map (Rmult g) x <> []) by (destruct x; [congruence|discriminate]).
    destruct (curve_env fs _ (fun t => cmul (rc g) (z t)) env Hf NX CE) as (A & B). { rewrite L. now apply analytic_scale. }
    split. rewrite A, cmod_scale by lra. reflexivity. intros n Hn. rewrite B by auto. rewrite cmod_scale by lra. reflexivity. }
  split.
  - exists (/ m). split. { now apply Rinv_0_lt_compat. } intros g env e Hg CE (k & K1 & K2 & K3 & ->). pose proof (Rinv_0_lt_compat m Hm) as IM. destruct (SC g env ltac:(lra) CE) as (L & SM).
    destruct (env_sign fs _ env Hf SM) as (ES & _). destruct (mean_sign env w ltac:(lia)) as (MS & _).
    assert (M0 : 0 <= win_mean env w 0). { apply MS, ES. intros t Ht. unfold mag_level. apply level_nonneg. apply (Rle_trans _ (g * cmod (z t))); [|apply Rmax_l].
      specialize (BD t ltac:(lia)). apply (Rle_trans _ (/ m * m)). rewrite Rinv_l by (apply Rgt_not_eq; lra). lra. apply Rmult_le_compat; lra. }
    destruct k as [|k]. 2: { specialize (K2 0%nat ltac:(lia)). cbn [prev_mean] in K2. lra. }
    rewrite Nat.mul_0_l, Nat.add_0_l. apply Nat.min_l. rewrite L. pose proof (Nat.div_le_upper_bound w 2 w ltac:(lia)). lia.
  - exists (/ (2 * M)). split. { apply Rinv_0_lt_compat. lra. } intros g env e Hg CE (k & K1 & K2 & K3 & ->). destruct (SC g env ltac:(lra) CE) as (L & SM).
    destruct (env_sign fs _ env Hf SM) as (_ & ES). destruct (mean_sign env w ltac:(lia)) as (_ & MS).
    assert (M0 : win_mean env w 0 < 0). { apply MS, ES. intros t Ht. unfold mag_level. pose proof small_le_1. pose proof small_lt_1. apply level_neg. split. apply rmax_pos; lra.
      apply Rmax_lub_lt; auto. specialize (BD t ltac:(lia)). apply (Rle_lt_trans _ (/ (2 * M) * M)). apply Rmult_le_compat; lra. replace (/ (2 * M) * M) with (1 / 2) by (field; lra). lra. }
    assert (ND : (1 <= length env / w)%nat). { apply Nat.div_le_lower_bound; lia. }
    destruct k as [|k]. { exfalso. destruct K3 as [K3|K3]. lia. cbn [prev_mean] in K3. lra. }
    rewrite L. assert (w <= S k * w)%nat by lia. split. lia. pose proof (Nat.div_lt w 2 ltac:(lia) ltac:(lia)). lia.
Qed.
Print Assumptions C106_level_refuted.

(** ** trim_ir *)
(** y holds the samples a to b - 1 of x, as far as they exist. *)
Definition part (x : list R) (a b : nat) (y : list R) : Prop :=
  length y = (Nat.min b (length x) - a)%nat /\ forall k, (k < length y)%nat -> gt y k = gt x (a + k).
Lemma slice_part a b x : part x a b (slice a b x).
Proof.
  assert (L : length (slice a b x) = (Nat.min b (length x) - a)%nat) by (unfold slice; rewrite firstn_length, skipn_length; lia). split; auto.
  intros k Hk. apply slice_get. lia.
Qed.
Lemma fold_min_spec l : forall v, (forall u, In u (v :: l) -> (fold_left Nat.min l v <= u)%nat) /\ In (fold_left Nat.min l v) (v :: l).
Proof.
  induction l as [|u l IH]; intros v; cbn [fold_left]. { split. intros u [<-|[]]. auto. now left. }
  destruct (IH (Nat.min v u)) as (A & B). split.
  - intros w [<-|[<-|Hw]]. + specialize (A _ (or_introl eq_refl)). lia. + specialize (A _ (or_introl eq_refl)). lia. + apply A. now right.
  - destruct B as [B|B]. { rewrite <- B. destruct (Nat.min_spec v u) as [(_ & ->)|(_ & ->)]; [now left|right; now left]. } right. now right.
Qed.
Lemma fold_max_spec l : forall v, (forall u, In u (v :: l) -> (u <= fold_left Nat.max l v)%nat) /\ In (fold_left Nat.max l v) (v :: l).
Proof.
  induction l as [|u l IH]; intros v; cbn [fold_left]. { split. intros u [<-|[]]. auto. now left. }
  destruct (IH (Nat.max v u)) as (A & B). split.
  - intros w [<-|[<-|Hw]]. + specialize (A _ (or_introl eq_refl)). lia. + specialize (A _ (or_introl eq_refl)). lia. + apply A. now right.
  - destruct B as [B|B]. { rewrite <- B. destruct (Nat.max_spec v u) as [(_ & ->)|(_ & ->)]; [right; now left|now left]. } right. now right.
Qed.
(** The offset used by trim_ir: the given one, or the whole length. *)
Definition used_offset (fs n : nat) (offset : option R) : R := match offset with Some o => o | None => INR n / INR fs end.
(** One channel: exactly the part found for it. All channels: the same part of every one of them, which contains the part found
    for each and is the smallest such. The largest sample of each channel is kept. *)
Theorem C106_trim_ir one fs channel offset chs n out a b : (0 < fs)%nat -> (forall x, In x chs -> length x = n) -> chs <> [] ->
  trim_ir one fs channel offset chs = Ok (out, a, b) -> let off := used_offset fs n offset in
  0 <= off /\
  match channel with
  | Some c => exists x y i, nth_error chs c = Some x /\ trim_bounds one fs off 10 x = Ok (a, b, i) /\ out = [y] /\ part x a b y
  | None => length out = length chs /\
      (exists c d bc ic, (c < length chs)%nat /\ trim_bounds one fs off 10 (nth c chs d) = Ok (a, bc, ic)) /\
      (exists c d ac ic, (c < length chs)%nat /\ trim_bounds one fs off 10 (nth c chs d) = Ok (ac, b, ic)) /\
      forall c d, (c < length chs)%nat -> part (nth c chs d) a b (nth c out d) /\
        exists ac bc ic p, trim_bounds one fs off 10 (nth c chs d) = Ok (ac, bc, ic) /\ (a <= ac)%nat /\ (bc <= b)%nat /\
          first_peak (nth c chs d) p /\ (a <= p)%nat /\ (p + 2 <= b)%nat
  end.
Proof.
  intros Hf Hn Hc H off. unfold trim_ir in H. assert (NR : nrows chs = n). { destruct chs as [|x t]; [congruence|]. cbn. apply Hn. now left. }
  rewrite NR in H. change (start_offset fs n offset) with off in H. destruct (Rlt_dec off 0) as [|O]; [discriminate|]. split. lra.
  destruct channel as [c|].
  - destruct (nth_error chs c) as [x|]; [|discriminate]. destruct (length x =? 1)%nat; [discriminate|]. apply bind_inv in H as ([[a' b'] i] & E & H). injection H as <- <- <-.
    exists x, (slice a' b' x), i. split; auto. split; auto. split; auto. apply slice_part.
  - apply bind_inv in H as (rs & E & H). apply seq_result_inv in E. assert (LR : length rs = length chs) by (rewrite <- (map_length Ok rs), <- E; apply map_length).
    destruct rs as [|r t]; [discriminate|]. injection H as <- HA HB.
    assert (EQ : forall c d, (c < length chs)%nat -> trim_bounds one fs off 10 (nth c chs d) = Ok (nth c (r :: t) r)).
    { intros c d L. transitivity (nth c (map (trim_bounds one fs off 10) chs) (Err ValueError)).
      - rewrite (nth_indep _ _ (trim_bounds one fs off 10 d)) by now rewrite map_length. now rewrite map_nth.
      - rewrite E. rewrite (nth_indep _ _ (Ok r)) by (rewrite map_length, LR; auto). now rewrite map_nth. }
    destruct (fold_min_spec (map (fun q => fst (fst q)) t) (fst (fst r))) as (A1 & A2). rewrite HA in A1, A2.
    destruct (fold_max_spec (map (fun q => snd (fst q)) t) (snd (fst r))) as (B1 & B2). rewrite HB in B1, B2.
    change (fst (fst r) :: map (fun q => fst (fst q)) t) with (map (fun q : nat * nat * nat => fst (fst q)) (r :: t)) in A1, A2.
    change (snd (fst r) :: map (fun q => snd (fst q)) t) with (map (fun q : nat * nat * nat => snd (fst q)) (r :: t)) in B1, B2.
    split. { apply map_length. } split; [|split].
    + apply in_map_iff in A2 as (q & A2 & Hq). apply (In_nth _ _ r) in Hq as (c & Lc & Hq). destruct q as [[qa qb] qi]. cbn in A2. subst qa. exists c, [], qb, qi. split. lia. rewrite EQ by lia. now rewrite Hq.
    + apply in_map_iff in B2 as (q & B2 & Hq). apply (In_nth _ _ r) in Hq as (c & Lc & Hq). destruct q as [[qa qb] qi]. cbn in B2. subst qb. exists c, [], qa, qi. split. lia. rewrite EQ by lia. now rewrite Hq.
    + intros c d Lc. split. { rewrite HA, HB. rewrite (nth_map' (slice a b) chs c d d) by auto. apply slice_part. }
      specialize (EQ c d Lc). assert (IN : In (nth c (r :: t) r) (r :: t)) by (apply nth_In; lia). destruct (nth c (r :: t) r) as [[ac bc] ic].
      specialize (A1 ac ltac:(apply in_map_iff; exists (ac, bc, ic); auto)). specialize (B1 bc ltac:(apply in_map_iff; exists (ac, bc, ic); auto)).
      assert (O' : 0 <= off) by lra. destruct (C106_bounds _ _ _ _ _ _ _ _ Hf O' EQ) as (p & q & P & _ & P2 & P3 & P4). exists ac, bc, ic, p. split; auto. split; auto. split; auto. split; auto. lia.
Qed.
Print Assumptions C106_trim_ir.
(** Without an offset nothing is cut at the beginning. *)
Theorem C106_no_offset one fs channel chs n out a b : (0 < fs)%nat -> (forall x, In x chs -> length x = n) -> chs <> [] ->
  trim_ir one fs channel None chs = Ok (out, a, b) -> a = 0%nat.
Proof.
  intros Hf Hn Hc H. destruct (C106_trim_ir _ _ _ _ _ n _ _ _ Hf Hn Hc H) as (O & T). cbn [used_offset] in *.
  assert (K : forall x b' i a', length x = n -> trim_bounds one fs (INR n / INR fs) 10 x = Ok (a', b', i) -> a' = 0%nat).
  { intros x b' i a' L E. destruct (C106_bounds _ _ _ _ _ _ _ _ Hf O E) as (p & r & P & (_ & Q) & -> & _). destruct P as (P & _).
    replace (INR n / INR fs * INR fs) with (INR n) in Q by (field; apply not_0_INR; lia). assert (INR n < INR (S r)) by (rewrite S_INR; lra). apply INR_lt in H0. lia. }
  destruct channel as [c|].
  - destruct T as (x & y & i & X & E & _). eapply K; eauto. apply Hn. eapply nth_error_In; eauto.
  - destruct T as (_ & (c & d & bc & ic & L & E) & _). eapply K; eauto. apply Hn. now apply nth_In.
Qed.
Print Assumptions C106_no_offset.

(** ** Cases *)
Lemma lev_lt u v : 0 < u -> u < v -> level true u < level true v.
Proof. intros H L. unfold level. pose proof (ln_increasing u v H L). pose proof ln10p. assert (0 < / ln 10) by now apply Rinv_0_lt_compat. unfold Rdiv. nra. Qed.
Lemma half_levels : mag_level (cmod (rc (1 / 2))) = level true (1 / 2) /\ mag_level (cmod (rc (1 / 4))) = level true (1 / 4) /\ mag_level (cmod (rc 1)) = 0 /\ level true (1 / 4) < level true (1 / 2) < 0.
Proof.
  assert (CM : forall v, 0 <= v -> cmod (rc v) = v). { intros v H. unfold cmod, cabs2, rc. cbn [fst snd]. replace (v * v + 0 * 0) with (v * v) by ring. now apply sqrt_square. }
  assert (SN : smallest_normal <= 1 / 4). { unfold smallest_normal. replace (1 / 4) with (/ 2 ^ 2) by field. apply Rinv_le_contravar. lra. apply Rle_pow. lra. lia. }
  unfold mag_level. rewrite !CM, !Rmax_left by lra. split; auto. split; auto. split. { unfold level. rewrite ln_1. field. pose proof ln10p. lra. }
  split. apply lev_lt; lra. apply level_neg. lra.
Qed.
(** A response of four samples at 100 Hz: the level falls over the first two samples and rises then. *)
Example C106_example one : let x := [1 / 2; 1 / 4; 1 / 2; 1 / 4] in
  trim_bounds one 100 0 10 x = Ok (0, 2, 0)%nat /\ trim_bounds one 100 0 0 x = Ok (0, 2, 0)%nat /\ trim_ir one 100 None (Some 0) [x; x] = Ok ([[1 / 2; 1 / 4]; [1 / 2; 1 / 4]], 0%nat, 2%nat) /\
  trim_ir one 100 (Some 1%nat) None [x; x] = Ok ([[1 / 2; 1 / 4]], 0%nat, 2%nat).
Proof.
  intros x. destruct half_levels as (HA & HB & _ & LT & L0). set (A := level true (1 / 2)) in *. set (B := level true (1 / 4)) in *.
  destruct (q_range 100 ltac:(lia)) as (Q0 & Q1). set (q := Rpower (5 / 100) (1 / (2 / 100 * INR 100))) in *.
  set (e1 := (1 - q) * B + q * A). set (e2 := (1 - q) * A + q * e1). set (e3 := (1 - q) * B + q * e2). set (env := [A; e1; e2; e3]).
  assert (P : first_peak x 0). { split. cbn; lia. split; intros j Hj; [|lia]. cbn in Hj. unfold x, get. destruct j as [|[|[|[|j]]]]; cbn [nth]; try lia; rewrite !Rabs_right; lra. }
  destruct (peak_unique x 0%nat P) as (E & N).
  assert (NF : next_fast_len_c 4 = 4%nat) by reflexivity.
  assert (CE : curve_of 100 x env).
  { split. { reflexivity. } exists (fun t => rc (gt x t)). split.
    - change (length env) with 4%nat. destruct Claims_deconv.root4 as (R0 & R1 & R2 & R3 & R4 & R6).
      assert (R9 : root 4 (-9) = (0, -1)). { change (-9)%Z with (-1 + Z.of_nat 4 * (-2))%Z. rewrite root_add, root_period, R1 by lia. apply c_ext; simpl; ring. }
      split; [reflexivity|]. split.
      + intros k Hk H. assert (k = 3)%nat as -> by lia. unfold cdft. cbn [sum Z.of_nat Z.mul Z.opp Pos.of_succ_nat Pos.succ Pos.mul Pos.add]. change (-0)%Z with 0%Z. rewrite R0, R3, R6, R9. unfold x, get. cbn [nth]. apply c_ext; simpl; field.
      + intros k Hk [->|H]; [|assert (k = 2)%nat as -> by lia]; unfold cdft; cbn [sum Z.of_nat Z.mul Z.opp Pos.of_succ_nat Pos.succ Pos.mul Pos.add]; change (-0)%Z with 0%Z; rewrite ?R0, ?R2, ?R4, ?R6; simpl; ring.
    - split. { cbn [gt]. unfold x, get. cbn [nth]. symmetry. exact HA. }
      intros [|[|[|n]]] Hn; cbv zeta; fold q; unfold x, env, get; cbn [nth]; try (cbn in Hn; lia); rewrite ?HA, ?HB; reflexivity. }
  pose proof (curve_unique 100 x env ltac:(lia) N CE) as TS.
  assert (W : forall ms, In ms windows -> window_len 100 ms = (ms / 10)%nat). { intros ms [<-|[<-|[<-|[<-|[<-|[]]]]]]; reflexivity. }
  assert (O1 : e1 < A) by (unfold e1; nra). assert (O2 : e1 < e2) by (unfold e2; nra). assert (O3 : e2 < A) by (unfold e2; nra).
  assert (ES : map (fun ms => window_end env (window_len 100 ms)) windows = [2; 4; 2; 3; 4]%nat).
  { cbn [map windows]. rewrite !W by (cbn; tauto). change (10 / 10)%nat with 1%nat. change (30 / 10)%nat with 3%nat. change (50 / 10)%nat with 5%nat. change (70 / 10)%nat with 7%nat. change (90 / 10)%nat with 9%nat.
    assert (E1 : window_end env 1 = 2%nat).
    { unfold window_end. change (length env) with 4%nat. change (4 / 1)%nat with 4%nat. assert (D : decay_run env 1 4 0 0 = 2%nat).
      { cbn [decay_run]. unfold slice, env, average, rtotal. cbn [Nat.add Nat.sub skipn firstn length sum]. unfold get. cbn [nth].
        destruct (Rle_dec 0 _) as [K|_]; [cbn in K; lra|]. destruct (Rle_dec _ _) as [K|_]; [cbn in K; lra|]. destruct (Rle_dec _ _) as [_|K]; [reflexivity|cbn in K; lra]. }
      rewrite D. reflexivity. }
    assert (E3 : window_end env 3 = 4%nat).
    { unfold window_end. change (length env) with 4%nat. change (4 / 3)%nat with 1%nat. assert (D : decay_run env 3 1 0 0 = 3%nat).
      { cbn [decay_run]. unfold slice, env, average, rtotal. cbn [Nat.add Nat.sub skipn firstn length sum]. unfold get. cbn [nth]. destruct (Rle_dec 0 _) as [K|_]; [cbn in K; lra|]. reflexivity. }
      rewrite D. reflexivity. }
    rewrite E1, E3. reflexivity. }
  assert (FALL2 : window_corr env 2 = Ok (Some (-1))).
  { destruct (window_corr_spec env 2) as [(K & _)|(r & K & (_ & C1 & C2))]; [cbn; lia|lia|]. rewrite K. f_equal. destruct r as [r|].
    - f_equal. specialize (C2 r eq_refl). unfold dev in C2. cbn [sum] in C2. unfold env, get in C2. cbn [nth INR] in C2. 
      match type of C2 with _ * sqrt ?u * sqrt ?v = ?w => replace u with (1 / 2) in C2 by (cbn; field); replace v with (((A - e1) / 2) * ((A - e1) / 2) * 2) in C2 by (cbn; field); replace w with (- ((A - e1) / 2)) in C2 by (cbn; field) end.
      rewrite sqrt_mult, sqrt_square in C2 by nra. assert (SS : sqrt (1 / 2) * sqrt 2 = 1). { rewrite <- sqrt_mult by lra. replace (1 / 2 * 2) with 1 by lra. apply sqrt_1. }
      assert (C3 : r * ((A - e1) / 2) * (sqrt (1 / 2) * sqrt 2) = - ((A - e1) / 2)) by (rewrite <- C2; ring). rewrite SS in C3. apply (Rmult_eq_reg_r ((A - e1) / 2)); lra.
    - destruct C1 as (C1 & _). specialize (C1 eq_refl 1%nat ltac:(lia)). unfold env, get in C1. cbn [nth] in C1. lra. }
  assert (SR : exists c4 c3, window_corr env 4 = Ok c4 /\ window_corr env 3 = Ok c3 /\ argmin_nan [Some (-1); c4; Some (-1); c3; c4] = 0%nat).
  { assert (G : forall e, (2 <= e <= 4)%nat -> exists r, window_corr env e = Ok (Some r) /\ -1 <= r).
    { intros e He. destruct (window_corr_spec env e) as [(K & _)|(r & K & (_ & C1 & C2))]; [cbn; lia|lia|]. destruct r as [r|].
      - exists r. split; auto. destruct (Rle_dec (-1) r) as [|NR]; auto. exfalso. specialize (C2 r eq_refl).
        pose proof (cov_dev e (ramp e) (ramp e) INR INR (ramp_length e) (ramp_length e) (get_ramp e) (get_ramp e)) as V1.
        assert (LF : length (firstn e env) = e) by (rewrite firstn_length; cbn [length env]; lia).
        pose proof (cov_dev e (ramp e) (firstn e env) INR (gt env) (ramp_length e) LF (get_ramp e) (get_firstn' e env)) as V2.
        pose proof (cov_dev e (firstn e env) (firstn e env) (gt env) (gt env) LF LF (get_firstn' e env) (get_firstn' e env)) as V3.
        rewrite <- V1, <- V2, <- V3 in C2. pose proof (cov_inc (ramp e) ltac:(rewrite ramp_length; lia) (ramp_inc e)) as P1.
        assert (P2 : 0 < cov (firstn e env) (firstn e env)). { destruct (cov_pos (firstn e env)) as [|Z]; auto. exfalso. symmetry in Z. apply (proj1 (cov_zero (firstn e env) ltac:(lia))) with (i := 1%nat) in Z; [|lia]. rewrite !get_firstn' in Z by lia. unfold env, get in Z. cbn [nth] in Z. lra. }
        pose proof (cauchy (ramp e) (firstn e env) ltac:(now rewrite ramp_length) ltac:(rewrite ramp_length; lia) P1) as CY.
        pose proof (sqrt_lt_R0 _ P1) as S1. pose proof (sqrt_lt_R0 _ P2) as S2. pose proof (sqrt_sqrt _ (Rlt_le _ _ P1)) as T1. pose proof (sqrt_sqrt _ (Rlt_le _ _ P2)) as T2.
        set (u := sqrt (cov (ramp e) (ramp e))) in *. set (v := sqrt (cov (firstn e env) (firstn e env))) in *. clearbody u v. rewrite <- C2, <- T1, <- T2 in CY. 
        assert (W0 : 0 < (u * v) * (u * v)) by (apply Rmult_lt_0_compat; apply Rmult_lt_0_compat; auto). assert (W1 : 1 < r * r) by nra. replace (r * u * v * (r * u * v)) with (r * r * ((u * v) * (u * v))) in CY by ring. replace (u * u * (v * v)) with ((u * v) * (u * v)) in CY by ring. clear - CY W0 W1. set (w := u * v * (u * v)) in *. clearbody w. nra.
      - exfalso. destruct C1 as (C1 & _). specialize (C1 eq_refl 1%nat ltac:(lia)). unfold env, get in C1. cbn [nth] in C1. lra. }
    destruct (G 4%nat ltac:(lia)) as (r4 & K4 & L4). destruct (G 3%nat ltac:(lia)) as (r3 & K3 & L3). exists (Some r4), (Some r3). split; auto. split; auto.
    apply (best_argmin _ 0 (-1)); [|cbn; lia]. split; auto. intros j Hj. cbn [length] in Hj. destruct j as [|[|[|[|[|j]]]]]; try lia; cbn [nth]; eexists; (split; [reflexivity|]); split; try lra; lia. }
  destruct SR as (c4 & c3 & K4 & K3 & AM).
  assert (T : forall off d, trim_bounds one 100 off d x = Ok (0, 2, 0)%nat).
  { intros off d. rewrite trim_eq by auto. cbv zeta. rewrite E. change (skipn 0 x) with x. rewrite TS. cbn [bind]. rewrite ES. cbn [map seq_result]. rewrite FALL2, K4, K3. cbn [bind].
    unfold choose_end. rewrite AM. cbn [nth at_most]. destruct (Rle_dec (-1) (-95 / 100)) as [_|K]; [|lra].
    destruct (Req_EM_T d 0); [reflexivity|]. destruct (fit_best one env 2) as (s & c & F1 & _ & F3). { cbn; lia. } unfold above_noise. rewrite F1. cbn [bind].
    assert (S0 : s < 0).
    { rewrite F3. destruct (cov_falling (ramp 2) (firstn 2 env)) as (_ & K). reflexivity. cbn; lia. intros; now apply ramp_inc.
      { intros u v Huv Hv. cbn in Hv. destruct u as [|[|u]], v as [|[|v]]; try lia; unfold env, get; cbn [firstn nth]; lra. }
      pose proof (cov_inc (ramp 2) ltac:(cbn; lia) (ramp_inc 2)) as KP. pose proof (Rinv_0_lt_compat _ KP). unfold Rdiv. specialize (K ltac:(unfold env, get; cbn; lra)). nra. }
    destruct (Rlt_dec 0 s); [lra|]. destruct (Req_EM_T s 0); [lra|]. change (length (firstn 2 env)) with 2%nat. cbn [skipn Nat.add x M_reverb.variance option_map].
    change ((3 * 2 + 2) / 4)%nat with 2%nat. change (Z.of_nat 2) with 2%Z. match goal with |- context [Z.max 2 ?i] => replace (Z.min 2 (Z.max 2 i)) with 2%Z by lia end. reflexivity. }
  split. apply T. split. apply T. split.
  - unfold trim_ir. cbn [start_offset]. destruct (Rlt_dec 0 0); [lra|]. cbn [map seq_result]. rewrite T. reflexivity.
  - unfold trim_ir. cbn [start_offset nth_error]. destruct (Rlt_dec _ 0) as [K|_]. { exfalso. change (INR 4 / INR 100 < 0) in K. assert (0 <= INR 4 / INR 100) by (apply Rmult_le_pos; [apply pos_INR|apply Rlt_le, Rinv_0_lt_compat, lt_0_INR; lia]). lra. } change (length x =? 1)%nat with false. cbv iota. rewrite T. reflexivity.
Qed.
(** Two samples after the largest one at 1 kHz cannot be trimmed; the response above has a nowhere vanishing envelope. *)
Example C106_short_case one : trim_bounds one 1000 (2 / 100) 10 [1; 1 / 2] = Err ValueError /\ trim_bounds one 1000 (2 / 100) 10 [1 / 2; 1] = Err ValueError.
Proof.
  assert (R2 : root 2 0 = (1, 0) /\ root 2 (-1) = (-1, 0)). { split. apply root_0. unfold root, cis. replace (2 * PI * IZR (-1) / INR 2) with (- PI) by (cbn; field). rewrite cos_neg, sin_neg, cos_PI, sin_PI. apply c_ext; cbn; ring. }
  split.
  - set (x := [1; 1 / 2]). assert (P : first_peak x 0). { split. cbn; lia. split; intros j Hj; [|lia]. cbn in Hj. unfold x, get. destruct j as [|[|j]]; cbn [nth]; try lia; rewrite !Rabs_right; lra. }
    destruct half_levels as (HA & _ & H1 & _ & L0). destruct (q_range 1000 ltac:(lia)) as (Q0 & Q1). set (q := Rpower (5 / 100) (1 / (2 / 100 * INR 1000))) in *.
    destruct (C106_short_refuted one 1000 (2 / 100) 10 x 0 10) as (_ & K).
    { lia. } { lra. } { lra. } { exact P. } { cbn; lia. }
    { pose proof (window_rounds 1000 10) as W. rewrite (INR_IZR_INZ 10) in W. change (IZR (Z.of_nat 10)) with 10 in W. replace (window_len 1000 10) with 10%nat in W by (vm_compute; reflexivity). exact W. }
    { change (length x - 0)%nat with 2%nat. change (next_fast_len_c 2) with 2%nat. lia. }
    apply (K [0; (1 - q) * level true (1 / 2) + q * 0]).
    + split. reflexivity. exists (fun t => rc (gt x t)). split.
      * split; [reflexivity|]. split. { intros k Hk H. cbn [length] in Hk, H. lia. } destruct R2 as (R20 & R21). intros k Hk _. cbn [length] in Hk. destruct k as [|[|k]]; [| |lia]; unfold cdft; cbn [length sum Z.of_nat Z.mul Z.opp Pos.of_succ_nat Pos.succ Pos.mul]; change (-0)%Z with 0%Z; rewrite ?R20, ?R21; simpl; ring.
      * split. { unfold x, get. cbn [nth skipn]. symmetry. exact H1. } intros [|n] Hn; [|cbn [length] in Hn; lia]. cbv zeta. fold q. unfold x, get. cbn [nth skipn]. rewrite HA. reflexivity.
    + intros i j Hij Hj. cbn [length] in Hj. unfold get. destruct i as [|[|i]], j as [|[|j]]; try lia; cbn [nth]; nra.
    + unfold get. cbn [nth length Nat.sub]. nra.
  - apply C106_last_peak_refuted. split. cbn; lia. split; intros j Hj; cbn in Hj; unfold get; destruct j as [|[|j]]; cbn [nth length Nat.sub]; try lia; rewrite !Rabs_right; lra.
Qed.
Example C106_level_case : analytic_of [1 / 2; 1 / 4; 1 / 2; 1 / 4] 4 (fun t => rc (get (HA := CRing_R) [1 / 2; 1 / 4; 1 / 2; 1 / 4] t)) /\ next_fast_len_c 4 = 4%nat /\
  forall t, (t < 4)%nat -> 0 < cmod (rc (get (HA := CRing_R) [1 / 2; 1 / 4; 1 / 2; 1 / 4] t)).
Proof.
  destruct Claims_deconv.root4 as (R0 & R1 & R2 & R3 & R4 & R6).
  assert (R9 : root 4 (-9) = (0, -1)). { change (-9)%Z with (-1 + Z.of_nat 4 * (-2))%Z. rewrite root_add, root_period, R1 by lia. apply c_ext; simpl; ring. }
  split; [split; [reflexivity|]; split|split; [reflexivity|]].
  - intros k Hk H. assert (k = 3)%nat as -> by lia. unfold cdft. cbn [sum Z.of_nat Z.mul Z.opp Pos.of_succ_nat Pos.succ Pos.mul Pos.add]. change (-0)%Z with 0%Z. rewrite R0, R3, R6, R9. unfold get. cbn [nth]. apply c_ext; simpl; field.
  - intros k Hk [->|H]; [|assert (k = 2)%nat as -> by lia]; unfold cdft; cbn [sum Z.of_nat Z.mul Z.opp Pos.of_succ_nat Pos.succ Pos.mul Pos.add]; change (-0)%Z with 0%Z; rewrite ?R0, ?R2, ?R4, ?R6; simpl; ring.
  - intros t Ht. unfold cmod. apply sqrt_lt_R0. unfold cabs2, rc, get. destruct t as [|[|[|[|t]]]]; cbn; try lia; lra.
Qed.
