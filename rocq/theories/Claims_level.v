(** C51 decibel conversion, C52 normalisation and gains. *)
From Coq Require Import List Arith Lia ZArith Bool Reals Lra.
From Verif Require Import Alg Spec M_arrays M_signal P_signal M_dynamics M_level.
Import ListNotations.
Local Open Scope R_scope.

Lemma ln10p : 0 < ln 10.
Proof. rewrite <- ln_1. apply ln_increasing; lra. Qed.
Lemma dbf_pos amp : 0 < db_factor amp.
Proof. destruct amp; unfold db_factor; lra. Qed.
Lemma from_db_pos amp x : 0 < from_db amp x.
Proof. apply exp_pos. Qed.
Lemma rpow10_log x : 0 < x -> Rpower 10 (ln x / ln 10) = x.
Proof. intros H. unfold Rpower. replace (ln x / ln 10 * ln 10) with (ln x) by (field; pose proof ln10p; lra). now apply exp_ln. Qed.
Lemma log_rpow10 x : ln (Rpower 10 x) / ln 10 = x.
Proof. unfold Rpower. rewrite ln_exp. field. pose proof ln10p; lra. Qed.
(** The level of an absolute value v: the spec of this file. *)
Definition level (amp : bool) (v : R) : R := (if amp then 20 else 10) * (ln v / ln 10).
Lemma to_db1_pos amp v : 0 < v -> to_db1 amp v = Some (level amp v).
Proof. intros H. unfold to_db1, log10o. destruct (Req_EM_T v 0); [lra|]. reflexivity. Qed.
Lemma from_level amp v : 0 < v -> from_db amp (level amp v) = v.
Proof.
  intros H. unfold from_db, level. replace (_ / db_factor amp) with (ln v / ln 10); [now apply rpow10_log|].
  pose proof ln10p. destruct amp; unfold db_factor; field; lra.
Qed.
Lemma level_from amp y : level amp (from_db amp y) = y.
Proof. unfold level, from_db. rewrite log_rpow10. destruct amp; unfold db_factor; field. Qed.
Lemma level_le amp u v : 0 < u -> u <= v -> level amp u <= level amp v.
Proof.
  intros H L. unfold level. assert (ln u <= ln v) by (destruct L as [L| ->]; [left; now apply ln_increasing|lra]).
  assert (ln u / ln 10 <= ln v / ln 10) by (apply Rmult_le_compat_r; auto; left; apply Rinv_0_lt_compat, ln10p).
  destruct amp; nra.
Qed.
Lemma level_mul amp u v : 0 < u -> 0 < v -> level amp (u * v) = level amp u + level amp v.
Proof. intros. unfold level. rewrite ln_mult by auto. destruct amp; field; pose proof ln10p; lra. Qed.
Lemma rmax_pos a b : 0 < b -> 0 < Rmax a b.
Proof. intros. pose proof (Rmax_r a b). lra. Qed.

(** ** C51 *)
(** Converting to decibels and back is the clipping of the absolute value, so exact above min_value. *)
Theorem C51_there_and_back :
  forall (amp : bool) (m : R) (x : list R), 0 < m ->
  exists y, to_db amp None (Some m) x = Ok (map Some y) /\ length y = length x /\
    map (from_db amp) y = map (fun v => Rmax (Rabs v) m) x.
Proof.
  intros amp m x H. exists (map (fun v => level amp (Rmax (Rabs v) m)) x). split; [|split].
  - unfold to_db. rewrite map_map. f_equal. apply map_ext. intros v. apply to_db1_pos, rmax_pos, H.
  - apply map_length.
  - rewrite map_map. apply map_ext. intros v. apply from_level, rmax_pos, H.
Qed.
Print Assumptions C51_there_and_back.

(** Every list of levels that the minimum does not clip comes back unchanged. *)
Theorem C51_back_and_there :
  forall (amp : bool) (m : R) (y : list R), 0 < m -> Forall (fun v => m <= from_db amp v) y ->
  to_db amp None (Some m) (map (from_db amp) y) = Ok (map Some y) /\
  to_db amp None None (map (from_db amp) y) = Ok (map Some y).
Proof.
  intros amp m y H F. unfold to_db. rewrite !map_map. split; f_equal; apply map_ext_in; intros v Hv;
  rewrite (Rabs_right (from_db amp v)) by (pose proof (from_db_pos amp v); lra).
  - rewrite Forall_forall in F. rewrite Rmax_left by (now apply F). rewrite to_db1_pos by apply from_db_pos. f_equal. apply level_from.
  - rewrite to_db1_pos by apply from_db_pos. f_equal. apply level_from.
Qed.
Print Assumptions C51_back_and_there.

(** Amplitudes and powers: 20 log of x is 10 log of the square; levels are monotone and add under multiplication. *)
Theorem C51_amplitude_power :
  forall (m : R) (x : list R), 0 < m ->
  to_db true None (Some m) x = to_db false None (Some (m * m)) (map (fun v => v * v) x).
Proof.
  intros m x H. unfold to_db. rewrite map_map. f_equal. apply map_ext. intros v.
  assert (E : Rmax (Rabs (v * v)) (m * m) = Rmax (Rabs v) m * Rmax (Rabs v) m).
  { rewrite Rabs_mult. pose proof (Rabs_pos v). destruct (Rle_dec (Rabs v) m).
    - rewrite !Rmax_right; nra.
    - rewrite !Rmax_left; nra. }
  rewrite E. pose proof (rmax_pos (Rabs v) m H). rewrite !to_db1_pos by nra. f_equal. unfold level.
  rewrite ln_mult by auto. field. pose proof ln10p; lra.
Qed.
Print Assumptions C51_amplitude_power.

Theorem C51_gains_add :
  forall amp a b, from_db amp (a + b) = from_db amp a * from_db amp b /\ from_db amp 0 = 1 /\ from_db amp (- a) = / from_db amp a /\
    (a < b -> from_db amp a < from_db amp b).
Proof.
  intros amp a b. pose proof (dbf_pos amp). unfold from_db. split; [|split; [|split]].
  - rewrite <- Rpower_plus. f_equal. field. lra.
  - replace (0 / db_factor amp) with 0 by (field; lra). apply Rpower_O. lra.
  - rewrite <- Rpower_Ropp. f_equal. field. lra.
  - intros L. apply Rpower_lt; [lra|]. unfold Rdiv. apply Rmult_lt_compat_r; auto. now apply Rinv_0_lt_compat.
Qed.
Print Assumptions C51_gains_add.

Lemma peak_nonzero x v : In v x -> v <> 0 -> 0 < vpeak x.
Proof. intros H N. pose proof (vpeak_ge _ _ H). pose proof (Rabs_pos_lt v N). lra. Qed.

(** With a dynamic range, the largest level is kept and everything below the range is raised to its lower end,
    whatever min_value is. *)
Theorem C51_dynamic_range :
  forall (amp : bool) (d : R) (minv : option R) (x : list R) (v0 : R), In v0 x -> v0 <> 0 ->
  (forall v, In v x -> Rabs v <= Rabs v0) ->
  exists y, to_db amp (Some d) minv x = Ok (map Some y) /\ length y = length x /\
    let top := level amp (Rabs v0) in
    In top y /\
    forall i, (i < length x)%nat ->
      nth i y 0 = if Req_EM_T (nth i x 0) 0 then top - Rabs d else Rmax (level amp (Rabs (nth i x 0))) (top - Rabs d).
Proof.
  intros amp d minv x v0 Hin N Hmax.
  assert (P : vpeak x = Rabs v0).
  { apply Rle_antisym; [|now apply vpeak_ge]. destruct (vpeak_att x) as [E|[w [Hw E]]]; [subst; destruct Hin|]. rewrite E. now apply Hmax. }
  pose proof (Rabs_pos_lt _ N) as P0.
  set (q := Rpower 10 (- Rabs d / db_factor amp)). assert (Q : 0 < q) by apply exp_pos.
  assert (Q1 : q <= 1).
  { unfold q. rewrite <- (Rpower_O 10) by lra. apply Rle_Rpower; [lra|]. pose proof (Rabs_pos d). pose proof (dbf_pos amp).
    unfold Rdiv. pose proof (Rinv_0_lt_compat _ H0). nra. }
  assert (LQ : level amp q = - Rabs d).
  { unfold q. change (Rpower 10 (- Rabs d / db_factor amp)) with (from_db amp (- Rabs d)). apply level_from. }
  assert (M0 : 0 < Rabs v0 * q) by nra.
  assert (LM : level amp (Rabs v0 * q) = level amp (Rabs v0) - Rabs d) by (rewrite level_mul by auto; rewrite LQ; ring).
  exists (map (fun v => level amp (Rmax (Rabs v) (Rabs v0 * q))) x). split; [|split; [apply map_length|split]].
  - unfold to_db. destruct x as [|w t]; [destruct Hin|]. set (l := w :: t) in *. rewrite P. fold q. rewrite map_map.
    destruct minv; f_equal; apply map_ext; intros v; apply to_db1_pos, rmax_pos, M0.
  - apply in_map_iff. exists v0. split; auto. rewrite Rmax_left; [reflexivity|nra].
  - intros i Hi. rewrite (nth_indep _ 0 ((fun v => level amp (Rmax (Rabs v) (Rabs v0 * q))) 0)) by (now rewrite map_length).
    rewrite (map_nth (fun v => level amp (Rmax (Rabs v) (Rabs v0 * q)))). rewrite <- LM.
    destruct (Req_EM_T (nth i x 0) 0) as [E|E].
    + rewrite E, Rabs_R0, Rmax_right by lra. reflexivity.
    + pose proof (Rabs_pos_lt _ E). destruct (Rle_dec (Rabs (nth i x 0)) (Rabs v0 * q)) as [L|L].
      * rewrite Rmax_right by auto. rewrite Rmax_right; auto. now apply level_le.
      * rewrite Rmax_left by lra. rewrite Rmax_left; auto. apply level_le; lra.
Qed.
Print Assumptions C51_dynamic_range.

(** The clipping is documented to avoid -inf. It does not for silence when a dynamic range is given, although a
    min_value is given too. *)
Theorem C51_silence_refuted :
  forall (amp : bool) (d : R) (minv : option R) (n : nat), (0 < n)%nat ->
  to_db amp (Some d) minv (repeat 0 n) = Ok (repeat None n).
Proof.
  intros amp d minv n H. assert (P : vpeak (repeat 0 n) = 0).
  { clear. induction n; simpl; auto. rewrite IHn, Rabs_R0. apply Rmax_left. lra. }
  unfold to_db. destruct n; [lia|]. set (l := repeat 0 (S n)) in *.
  assert (E : map (fun v => to_db1 amp (Rmax (Rabs v) (vpeak l * Rpower 10 (- Rabs d / db_factor amp)))) l = repeat None (S n)).
  { rewrite P. unfold l. generalize (S n). intros k. induction k; simpl; auto. rewrite IHk. f_equal.
    rewrite Rabs_R0, Rmult_0_l, Rmax_left by lra. unfold to_db1, log10o. destruct (Req_EM_T 0 0); [reflexivity|lra]. }
  assert (L : exists a t, l = a :: t) by (now exists 0, (repeat 0 n)). destruct L as [a [t L]]. rewrite L in *.
  destruct minv; now rewrite E.
Qed.
Print Assumptions C51_silence_refuted.

Lemma rp1 : Rpower 10 1 = 10. Proof. apply Rpower_1. lra. Qed.
Lemma log_10 : ln 10 / ln 10 = 1. Proof. field. pose proof ln10p; lra. Qed.
Example C51_example :
  to_db true (Some 60) (Some smallest_normal) [0; -10; 1] = Ok [Some (-40); Some 20; Some 0] /\
  to_db true None (Some 10) [-100; 0] = Ok [Some 40; Some 20] /\ to_db true None None [0] = Ok [None].
Proof.
  assert (L100 : level true 100 = 40).
  { replace 100 with (10 * 10) by lra. rewrite level_mul by lra. unfold level. rewrite log_10. lra. }
  assert (L10 : level true 10 = 20) by (unfold level; rewrite log_10; lra).
  assert (L1 : level true 1 = 0) by (unfold level; rewrite ln_1; field; pose proof ln10p; lra).
  split; [|split].
  - destruct (C51_dynamic_range true 60 (Some smallest_normal) [0; -10; 1] (-10)) as [y [E [Ly [_ V]]]].
    + simpl; auto. + lra.
    + intros v [<-|[<-|[<-|[]]]]; repeat (rewrite ?Rabs_R0, ?Rabs_R1, ?Rabs_Ropp); try rewrite !(Rabs_left (-10)) by lra; lra.
    + cbv zeta in V. rewrite E. destruct y as [|a [|b [|c [|]]]]; try discriminate. simpl in Ly.
      pose proof (V 0%nat ltac:(simpl; lia)) as V0. pose proof (V 1%nat ltac:(simpl; lia)) as V1. pose proof (V 2%nat ltac:(simpl; lia)) as V2.
      simpl nth in V0, V1, V2. rewrite (Rabs_left (-10)) in V0, V1, V2 by lra.
      replace (- -10) with 10 in * by lra. rewrite L10, (Rabs_right 60) in V0, V1, V2 by lra.
      destruct (Req_EM_T 0 0); [|lra]. destruct (Req_EM_T (-10) 0); [lra|]. destruct (Req_EM_T 1 0); [lra|].
      rewrite Rabs_R1, L1 in V2. rewrite Rmax_left in V1, V2 by lra. simpl. rewrite V0, V1, V2. repeat f_equal; lra.
  - unfold to_db. cbn [map]. rewrite (Rabs_left (-100)), Rabs_R0 by lra. replace (- -100) with 100 by lra.
    rewrite Rmax_left, Rmax_right by lra. rewrite !to_db1_pos by lra. now rewrite L100, L10.
  - unfold to_db. cbn [map]. rewrite Rabs_R0. unfold to_db1, log10o. destruct (Req_EM_T 0 0); [reflexivity|lra].
Qed.

(** ** C52 *)
(** T is the largest absolute value of the samples of the channels m *)
Definition loudest (m : mat) (T : R) : Prop :=
  (forall c v, In c m -> In v c -> Rabs v <= T) /\ exists c v, In c m /\ In v c /\ Rabs v = T.
(** average, average of the squares and average of the squared deviations *)
Definition total (x : list R) : R := fold_right Rplus 0 x.
Definition avg (x : list R) : R := total x / INR (length x).
Definition mean_square (x : list R) : R := avg (map (fun v => v * v) x).
Definition variance (x : list R) : R := avg (map (fun v => (v - avg x) * (v - avg x)) x).
Definition true_rms (x : list R) : R := sqrt (mean_square x).

Lemma set_real constr fs m n k : shape m n k -> (0 < k)%nat -> (k <= n)%nat -> (2 <= n)%nat ->
  set_time_data constr fs (mkIn m None false) =
  Ok (if constr then if Rlt_dec 1 (M_signal.peak m) then mkSig (mdiv m (M_signal.peak m)) None (1 / M_signal.peak m) constr fs
                     else mkSig m None 1 constr fs else mkSig m None 1 constr fs).
Proof.
  intros Hs Hk Hkn Hn. unfold set_time_data. cbn [i_re i_im i_int]. rewrite (shape_nrows _ n k), (shape_ncols _ n k) by auto.
  replace (n =? 1)%nat with false by (symmetry; apply Nat.eqb_neq; lia).
  replace (n <? k)%nat with false by (symmetry; apply Nat.ltb_ge; lia). simpl.
  destruct constr; auto. destruct (Rlt_dec 1 (M_signal.peak m)); auto.
Qed.
Lemma shape_map m n k (f : list R -> list R) : (forall c, length (f c) = length c) -> shape m n k -> shape (map f m) n k.
Proof.
  intros Hf [H1 H2]. split; [now rewrite map_length|]. rewrite Forall_forall in *. intros c Hc. apply in_map_iff in Hc.
  destruct Hc as [d [<- Hd]]. rewrite Hf. now apply H2.
Qed.
Lemma scale_length g c : length (scale g c) = length c.
Proof. apply map_length. Qed.
Lemma loudest_scale m T g : 0 < g -> loudest m T -> loudest (map (scale g) m) (T * g).
Proof.
  intros Hg [H1 [c [v [Hc [Hv E]]]]]. split.
  - intros c' v' Hc' Hv'. apply in_map_iff in Hc'. destruct Hc' as [d [<- Hd]]. apply in_map_iff in Hv'. destruct Hv' as [w [<- Hw]].
    rewrite Rabs_mult, (Rabs_right g) by lra. apply Rmult_le_compat_r; [lra|]. now apply (H1 d).
  - exists (scale g c), (v * g). split; [now apply in_map|]. split; [now apply (in_map (fun u => u * g))|]. now rewrite Rabs_mult, (Rabs_right g), E by lra.
Qed.
Lemma loudest_peak m T : loudest m T -> M_signal.peak m = T.
Proof.
  intros [H1 [c [v [Hc [Hv E]]]]]. apply Rle_antisym; [|rewrite <- E; now apply (peak_ge m c)].
  assert (T0 : 0 <= T) by (rewrite <- E; apply Rabs_pos). clear - H1 T0. induction m as [|c m IH]; simpl; auto.
  apply Rmax_lub; [|apply IH; intros; eapply H1; [right; eauto|eauto]].
  destruct (vpeak_att c) as [-> |[x [Hx ->]]]; [apply T0|]. apply (H1 c); [now left|auto].
Qed.
Lemma peak_loudest m c v : In c m -> In v c -> loudest m (M_signal.peak m).
Proof.
  intros Hc Hv. split; [intros; eapply peak_ge; eauto|]. revert c v Hc Hv. induction m as [|d m IH]; intros c v Hc Hv; [easy|].
  simpl. destruct (Rle_dec (vpeak d) (M_signal.peak m)) as [L|L].
  - rewrite Rmax_right by auto.
    destruct Hc as [->|Hc].
    + pose proof (vpeak_ge c v Hv). pose proof (Rabs_pos v).
      assert (In v c /\ True) by auto.
      (* the peak of the rest is reached in the rest, or everything is zero *)
      destruct m as [|e m'].
      * exists c, v. simpl in *. assert (Rabs v = 0) by lra. auto.
      * destruct (concat (e :: m')) as [|w ws] eqn:EC.
        -- assert (P0 : M_signal.peak (e :: m') = 0).
           { clear - EC. revert EC. generalize (e :: m'). intros l. induction l as [|a l IHl]; auto. simpl. intros E. apply app_eq_nil in E.
             destruct E as [-> E2]. rewrite IHl by auto. simpl. apply Rmax_left. lra. }
           exists c, v. rewrite P0 in *. assert (Rabs v = 0) by lra. split; [now left|auto].
        -- assert (In w (concat (e :: m'))) by (rewrite EC; now left). apply in_concat in H2. destruct H2 as [c' [Hc' Hw]].
           destruct (IH c' w Hc' Hw) as [a [b [A [B C]]]]. exists a, b. split; [now right|auto].
    + destruct (IH c v Hc Hv) as [a [b [A [B C]]]]. exists a, b. split; [now right|auto].
  - rewrite Rmax_left by lra. destruct (vpeak_att d) as [->|[x [Hx Ex]]].
    + simpl in L. pose proof (peak_pos m). lra.
    + exists d, x. split; [now left|]. split; auto.
Qed.
Lemma vpeak_loudest c v : In v c -> loudest [c] (vpeak c).
Proof.
  intros H. pose proof (peak_loudest [c] c v (or_introl eq_refl) H) as L. simpl in L. rewrite Rmax_left in L by apply vpeak_pos. exact L.
Qed.
Lemma vpeak_concat m : vpeak (concat m) = M_signal.peak m.
Proof.
  induction m as [|c m IH]; auto. simpl. rewrite <- IH. generalize (concat m). intros l. induction c as [|a c IHc]; simpl.
  - symmetry. apply Rmax_right, vpeak_pos.
  - rewrite IHc. unfold Rmax. repeat destruct (Rle_dec _ _); lra.
Qed.
Lemma opt_seq_map {T U} (f : T -> option U) (g : T -> U) l : (forall x, In x l -> f x = Some (g x)) -> opt_seq (map f l) = Some (map g l).
Proof.
  induction l as [|a l IH]; intros H; auto. simpl. rewrite (H a) by now left. now rewrite IH by (intros; apply H; now right).
Qed.
Lemma norm_col_ok dbfs b c : b <> 0 -> norm_col dbfs b c = Some (scale (from_db true dbfs / b) c).
Proof. intros H. unfold norm_col, div_opt. destruct (Req_EM_T b 0); [easy|]. reflexivity. Qed.

(** Peak normalisation of the whole signal: every sample is multiplied by one positive number and the loudest sample gets
    the requested level; with constrain_amplitude not more than full scale. *)
Theorem C52_peak_whole :
  forall (dbfs : R) (s : signal) (n k : nat), sig_ok s n k -> (exists c v, In c (s_re s) /\ In v c /\ v <> 0) ->
  exists g s', 0 < g /\ normalize_signal dbfs true false s = Some (Ok s') /\
    s_re s' = map (map (fun v => v * g)) (s_re s) /\
    loudest (s_re s') (if s_constr s then Rmin 1 (Rpower 10 (dbfs / 20)) else Rpower 10 (dbfs / 20)) /\
    s_constr s' = s_constr s /\ s_fs s' = s_fs s.
Proof.
  intros dbfs s n k Hok [c [v [Hc [Hv N]]]]. destruct Hok as [h1 h2 h3 h4 h5 h6 h7].
  set (p := M_signal.peak (s_re s)). pose proof (peak_loudest _ c v Hc Hv) as L. fold p in L.
  assert (P : 0 < p) by (pose proof (peak_ge _ _ _ Hc Hv); pose proof (Rabs_pos_lt v N); unfold p; lra).
  set (T := Rpower 10 (dbfs / 20)). assert (HT : 0 < T) by apply exp_pos.
  assert (E : normalize_signal dbfs true false s = Some (set_data s (mkIn (map (scale (T / p)) (s_re s)) None false))).
  { unfold normalize_signal, normalize. cbv iota. rewrite (opt_seq_map _ (scale (T / p))); [reflexivity|].
    intros d Hd. unfold norm_base. rewrite vpeak_concat. fold p. rewrite norm_col_ok by lra. reflexivity. }
  assert (G : 0 < T / p) by (apply Rdiv_lt_0_compat; auto).
  pose proof (loudest_scale _ _ _ G L) as L2. replace (p * (T / p)) with T in L2 by (field; lra).
  assert (Sh : shape (map (scale (T / p)) (s_re s)) n k) by (apply shape_map; auto; intros; apply scale_length).
  rewrite E. unfold set_data. rewrite (set_real _ _ _ n k) by auto. rewrite (loudest_peak _ _ L2).
  destruct (s_constr s) eqn:Ec.
  - destruct (Rlt_dec 1 T) as [HT1|HT1].
    + exists (T / p / T). eexists. split; [apply Rdiv_lt_0_compat; auto|]. split; [reflexivity|]. cbn [s_re s_constr s_fs].
      assert (EM : mdiv (map (scale (T / p)) (s_re s)) T = map (scale (T / p / T)) (s_re s)).
      { unfold mdiv. rewrite map_map. apply map_ext. intros d. unfold scale. rewrite map_map. apply map_ext. intros w. field. lra. }
      rewrite EM. split; [reflexivity|]. split; [|now split]. rewrite Rmin_left by lra.
      pose proof (loudest_scale _ _ (T / p / T) ltac:(apply Rdiv_lt_0_compat; auto) L) as L3.
      replace (p * (T / p / T)) with 1 in L3 by (field; lra). exact L3.
    + exists (T / p). eexists. split; [exact G|]. split; [reflexivity|]. cbn [s_re s_constr s_fs]. split; [reflexivity|].
      rewrite Rmin_right by lra. split; [exact L2|]. now split.
  - exists (T / p). eexists. split; [exact G|]. split; [reflexivity|]. cbn [s_re s_constr s_fs]. split; [reflexivity|]. split; [exact L2|]. now split.
Qed.
Print Assumptions C52_peak_whole.

(** Peak normalisation of each channel (no amplitude constraint): every channel by its own positive factor. *)
Theorem C52_peak_each :
  forall (dbfs : R) (s : signal) (n k : nat), sig_ok s n k -> s_constr s = false ->
  (forall c, In c (s_re s) -> exists v, In v c /\ v <> 0) ->
  exists s', normalize_signal dbfs true true s = Some (Ok s') /\
    Forall2 (fun c c' => (exists g, 0 < g /\ c' = map (fun v => v * g) c) /\ loudest [c'] (Rpower 10 (dbfs / 20))) (s_re s) (s_re s').
Proof.
  intros dbfs s n k Hok Ec H. destruct Hok as [h1 h2 h3 h4 h5 h6 h7].
  set (T := Rpower 10 (dbfs / 20)). assert (HT : 0 < T) by apply exp_pos.
  set (f := fun c => scale (T / vpeak c) c).
  assert (P : forall c, In c (s_re s) -> 0 < vpeak c).
  { intros c Hc. destruct (H c Hc) as [v [Hv N]]. now apply (peak_nonzero c v). }
  assert (E : normalize_signal dbfs true true s = Some (set_data s (mkIn (map f (s_re s)) None false))).
  { unfold normalize_signal, normalize. cbv iota. rewrite (opt_seq_map _ f); [reflexivity|].
    intros d Hd. unfold norm_base. pose proof (P d Hd). rewrite norm_col_ok by lra. reflexivity. }
  assert (Sh : shape (map f (s_re s)) n k) by (apply shape_map; auto; intros; apply scale_length).
  rewrite E. unfold set_data. rewrite (set_real _ _ _ n k) by auto. rewrite Ec. eexists. split; [reflexivity|]. cbn [s_re].
  clear - P HT H. induction (s_re s) as [|c m IH]; constructor.
  - specialize (P c (or_introl eq_refl)). split; [exists (T / vpeak c); split; [apply Rdiv_lt_0_compat; auto|reflexivity]|].
    destruct (H c (or_introl eq_refl)) as [v [Hv N]].
    pose proof (loudest_scale [c] (vpeak c) (T / vpeak c) ltac:(apply Rdiv_lt_0_compat; auto) (vpeak_loudest c v Hv)) as L.
    replace (vpeak c * (T / vpeak c)) with T in L by (field; lra). exact L.
  - apply IH; intros; [apply H|apply P]; now right.
Qed.
Print Assumptions C52_peak_each.

(** statistics of scaled data *)
Lemma total_scale g x : total (scale g x) = total x * g.
Proof. unfold total, scale. induction x; simpl; [lra|]. rewrite IHx. lra. Qed.
Lemma avg_scale g x : avg (scale g x) = avg x * g.
Proof. unfold avg. rewrite total_scale, scale_length. unfold Rdiv. ring. Qed.
Lemma total_map_scale (f : R -> R) g x : total (map (fun v => f v * g) x) = total (map f x) * g.
Proof. unfold total. induction x; simpl; [lra|]. rewrite IHx. lra. Qed.
Lemma variance_scale g x : variance (scale g x) = variance x * (g * g).
Proof.
  unfold variance. rewrite avg_scale. set (m := avg x).
  assert (E : map (fun v => (v - m * g) * (v - m * g)) (scale g x) = map (fun v => (v - m) * (v - m) * (g * g)) x)
    by (unfold scale; rewrite map_map; apply map_ext; intros; ring).
  rewrite E. unfold avg. rewrite !map_length, total_map_scale. unfold Rdiv. ring.
Qed.
Lemma std_variance x : std x = sqrt (variance x).
Proof. unfold std, variance. f_equal. unfold M_dynamics.mean, avg, total. rewrite !map_length. do 2 f_equal. apply map_ext. intros. ring. Qed.
Lemma total_nonneg (f : R -> R) x : (forall v, 0 <= f v) -> 0 <= total (map f x).
Proof. intros H. unfold total. induction x; simpl; [lra|]. specialize (H a). lra. Qed.
Lemma inr_pos (x : list R) : x <> [] -> 0 < INR (length x).
Proof. intros H. apply lt_0_INR. destruct x; [easy|simpl; lia]. Qed.
Lemma variance_nonneg x : 0 <= variance x.
Proof.
  unfold variance, avg. destruct x as [|a x]; [simpl; unfold Rdiv; rewrite Rmult_0_l; lra|].
  apply Rmult_le_pos; [apply total_nonneg; intros; apply Rle_0_sqr|]. rewrite map_length. left. apply Rinv_0_lt_compat. apply inr_pos. easy.
Qed.
Lemma variance_mean_square x : x <> [] -> variance x = mean_square x - avg x * avg x.
Proof.
  intros H. pose proof (inr_pos x H) as N. unfold variance, mean_square. set (m := avg x).
  assert (E : forall m, total (map (fun v => (v - m) * (v - m)) x) = total (map (fun v => v * v) x) - 2 * m * total x + INR (length x) * (m * m)).
  { clear. intros m. unfold total. induction x as [|a x IH]; [simpl; lra|]. cbn [map fold_right length]. rewrite S_INR, IH. ring. }
  unfold avg. rewrite !map_length, E. assert (T : total x = m * INR (length x)) by (unfold m, avg; field; lra). rewrite T. field. lra.
Qed.

(** RMS normalisation: the deviation from the mean of the samples gets the requested level, per channel ... *)
Theorem C52_rms_each :
  forall (dbfs : R) (s : signal) (n k : nat), sig_ok s n k -> s_constr s = false ->
  (forall c, In c (s_re s) -> 0 < variance c) ->
  exists s', normalize_signal dbfs false true s = Some (Ok s') /\
    Forall2 (fun c c' => (exists g, 0 < g /\ c' = map (fun v => v * g) c) /\ sqrt (variance c') = Rpower 10 (dbfs / 20)) (s_re s) (s_re s').
Proof.
  intros dbfs s n k Hok Ec H. destruct Hok as [h1 h2 h3 h4 h5 h6 h7].
  set (T := Rpower 10 (dbfs / 20)). assert (HT : 0 < T) by apply exp_pos.
  set (f := fun c => scale (T / std c) c).
  assert (P : forall c, In c (s_re s) -> 0 < std c) by (intros c Hc; rewrite std_variance; now apply sqrt_lt_R0, H).
  assert (E : normalize_signal dbfs false true s = Some (set_data s (mkIn (map f (s_re s)) None false))).
  { unfold normalize_signal, normalize. cbv iota. rewrite (opt_seq_map _ f); [reflexivity|].
    intros d Hd. unfold norm_base, rms. pose proof (P d Hd). rewrite norm_col_ok by lra. reflexivity. }
  assert (Sh : shape (map f (s_re s)) n k) by (apply shape_map; auto; intros; apply scale_length).
  rewrite E. unfold set_data. rewrite (set_real _ _ _ n k) by auto. rewrite Ec. eexists. split; [reflexivity|]. cbn [s_re].
  clear - P HT. induction (s_re s) as [|c m IH]; constructor.
  - specialize (P c (or_introl eq_refl)). split; [exists (T / std c); split; [apply Rdiv_lt_0_compat; auto|reflexivity]|].
    unfold f. rewrite variance_scale. rewrite sqrt_mult_alt by apply variance_nonneg. rewrite <- std_variance, sqrt_square.
    + fold T. field. lra. + left. apply Rdiv_lt_0_compat; auto.
  - apply IH. intros. apply P. now right.
Qed.
Print Assumptions C52_rms_each.

(** ... and over all samples of all channels. *)
Theorem C52_rms_whole :
  forall (dbfs : R) (s : signal) (n k : nat), sig_ok s n k -> s_constr s = false -> 0 < variance (concat (s_re s)) ->
  exists g s', 0 < g /\ normalize_signal dbfs false false s = Some (Ok s') /\ s_re s' = map (map (fun v => v * g)) (s_re s) /\
    sqrt (variance (concat (s_re s'))) = Rpower 10 (dbfs / 20).
Proof.
  intros dbfs s n k Hok Ec H. destruct Hok as [h1 h2 h3 h4 h5 h6 h7].
  set (T := Rpower 10 (dbfs / 20)). assert (HT : 0 < T) by apply exp_pos. set (b := std (concat (s_re s))).
  assert (P : 0 < b) by (unfold b; rewrite std_variance; now apply sqrt_lt_R0).
  assert (E : normalize_signal dbfs false false s = Some (set_data s (mkIn (map (scale (T / b)) (s_re s)) None false))).
  { unfold normalize_signal, normalize. cbv iota. rewrite (opt_seq_map _ (scale (T / b))); [reflexivity|].
    intros d Hd. unfold norm_base, rms. fold b. rewrite norm_col_ok by lra. reflexivity. }
  assert (Sh : shape (map (scale (T / b)) (s_re s)) n k) by (apply shape_map; auto; intros; apply scale_length).
  assert (G : 0 < T / b) by (apply Rdiv_lt_0_compat; auto).
  rewrite E. unfold set_data. rewrite (set_real _ _ _ n k) by auto. rewrite Ec. exists (T / b). eexists. split; [exact G|].
  split; [reflexivity|]. cbn [s_re]. split; [reflexivity|].
  assert (EC : concat (map (scale (T / b)) (s_re s)) = scale (T / b) (concat (s_re s))) by (unfold scale at 2; rewrite concat_map; reflexivity).
  rewrite EC, variance_scale, sqrt_mult_alt by apply variance_nonneg. rewrite <- std_variance, sqrt_square by lra. fold b. field. lra.
Qed.
Print Assumptions C52_rms_whole.

(** The value that is called RMS is the RMS after removing the mean: it equals the root mean square exactly for
    signals with zero mean, and is smaller otherwise. *)
Theorem C52_rms_is_deviation :
  forall x, x <> [] ->
  rms x * rms x = mean_square x - avg x * avg x /\ rms x <= true_rms x /\ (rms x = true_rms x <-> avg x = 0).
Proof.
  intros x H. pose proof (variance_nonneg x) as V. pose proof (variance_mean_square x H) as E.
  assert (M : 0 <= mean_square x) by nra.
  unfold rms, true_rms. rewrite std_variance. split; [|split].
  - rewrite sqrt_sqrt by auto. exact E.
  - apply sqrt_le_1_alt. nra.
  - split; intros Q.
    + apply sqrt_inj in Q; auto. nra.
    + f_equal. rewrite E, Q. ring.
Qed.
Print Assumptions C52_rms_is_deviation.

(** So after RMS normalisation the root mean square is above the requested level whenever the mean is not zero. *)
Theorem C52_rms_level_refuted :
  forall (dbfs : R) (c : list R), 0 < variance c -> avg c <> 0 ->
  exists c', norm_col dbfs (norm_base false c) c = Some c' /\ Rpower 10 (dbfs / 20) < true_rms c'.
Proof.
  intros dbfs c V A. assert (P : 0 < std c) by (rewrite std_variance; now apply sqrt_lt_R0).
  exists (scale (Rpower 10 (dbfs / 20) / std c) c). unfold norm_base, rms. rewrite norm_col_ok by lra. split; [reflexivity|].
  set (T := Rpower 10 (dbfs / 20)). assert (HT : 0 < T) by apply exp_pos. set (g := T / std c). assert (G : 0 < g) by (apply Rdiv_lt_0_compat; auto).
  assert (NE : c <> []) by (intros ->; apply A; unfold avg; simpl; unfold Rdiv; ring).
  assert (NE2 : scale g c <> []) by (intros Q; apply NE; now apply map_eq_nil in Q).
  destruct (C52_rms_is_deviation (scale g c) NE2) as [_ [L [_ C]]].
  assert (R1 : rms (scale g c) = T).
  { unfold rms. rewrite std_variance, variance_scale, sqrt_mult_alt by apply variance_nonneg. rewrite <- std_variance, sqrt_square by lra. unfold g. field. lra. }
  rewrite R1 in L. destruct L as [L|L]; auto. exfalso.
  destruct (C52_rms_is_deviation (scale g c) NE2) as [_ [_ [Q _]]]. rewrite R1 in Q. specialize (Q L). rewrite avg_scale in Q. nra.
Qed.
Print Assumptions C52_rms_level_refuted.

(** A constant channel, whose RMS is its absolute value, cannot be RMS-normalised: nan. *)
Theorem C52_constant_refuted :
  forall (dbfs v : R) (n : nat), norm_col dbfs (norm_base false (repeat v n)) (repeat v n) = None.
Proof.
  intros dbfs v n. unfold norm_base, rms, norm_col, div_opt. assert (E : std (repeat v n) = 0); [|destruct (Req_EM_T _ 0); [reflexivity|easy]].
  rewrite std_variance. destruct n.
  - unfold variance, avg. simpl. replace (0 / 0) with 0 by (unfold Rdiv; ring). apply sqrt_0.
  - assert (T : forall k, total (repeat v k) = INR k * v) by (induction k; [simpl; lra|cbn [repeat total fold_right]; rewrite S_INR; unfold total in IHk; rewrite IHk; ring]).
    assert (A : avg (repeat v (S n)) = v) by (unfold avg; rewrite T, repeat_length; field; apply not_0_INR; lia).
    assert (V : variance (repeat v (S n)) = 0).
    { unfold variance. rewrite A. unfold avg. assert (Z : forall k, total (map (fun u => (u - v) * (u - v)) (repeat v k)) = 0).
      { induction k; [reflexivity|]. cbn [repeat map total fold_right]. unfold total in IHk. rewrite IHk. ring. }
      rewrite Z. unfold Rdiv. ring. }
    rewrite V. apply sqrt_0.
Qed.
Print Assumptions C52_constant_refuted.

(** ** gains *)
Lemma scale_scale a b c : scale b (scale a c) = scale (a * b) c.
Proof. unfold scale. rewrite map_map. apply map_ext. intros. ring. Qed.

(** Without amplitude constraint: gains in decibels add up, for one gain and for one gain per channel. *)
Theorem C52_gains_add :
  forall (s : signal) (n k : nat) (a b : list R), sig_ok s n k -> s_constr s = false ->
  length a = length b -> (length a = 1%nat \/ length a = k) ->
  exists s1, apply_gain a s = Ok s1 /\
    apply_gain b s1 = apply_gain (map (fun p => fst p + snd p) (combine a b)) s /\
    (exists s2, apply_gain b s1 = Ok s2 /\ sig_ok s2 n k).
Proof.
  intros s n k a b Hok Ec Hab Hk. destruct Hok as [h1 h2 h3 h4 h5 h6 h7].
  assert (LK : length (s_re s) = k) by (destruct h4; auto).
  assert (D : forall g m, (length g = 1%nat \/ length g = length m) ->
    gain_data g m = Ok (map (fun p => scale (fst p) (snd p)) (combine (map (from_db true) (if (length g =? 1)%nat then repeat (hd 0 g) (length m) else g)) m))).
  { intros g m Hg. unfold gain_data. destruct g as [|g1 [|g2 g]].
    - destruct Hg as [Hg|Hg]; [discriminate|]. destruct m; [reflexivity|discriminate].
    - simpl. f_equal. clear. induction m as [|c m IH]; auto. simpl. now rewrite IH.
    - destruct Hg as [Hg|Hg]; [discriminate|]. cbn [map]. cbn [length] in Hg |- *. rewrite !map_length. rewrite <- Hg, Nat.eqb_refl. reflexivity. }
  assert (Sh : forall g m, shape m n k -> length g = k -> shape (map (fun p => scale (fst p) (snd p)) (combine g m)) n k).
  { intros g m [S1 S2] Hg. split; [rewrite map_length, combine_length, Hg, S1; apply Nat.min_id|].
    rewrite Forall_forall in *. intros c Hc. apply in_map_iff in Hc. destruct Hc as [[u w] [<- Hp]]. apply in_combine_r in Hp.
    rewrite scale_length. now apply S2. }
  set (ex := fun g : list R => if (length g =? 1)%nat then repeat (hd 0 g) k else g).
  assert (LE : forall g, (length g = 1%nat \/ length g = k) -> length (ex g) = k).
  { intros g Hg. unfold ex. destruct (Nat.eqb_spec (length g) 1); [apply repeat_length|]. tauto. }
  assert (AG : forall g t, (length g = 1%nat \/ length g = k) -> shape (s_re t) n k -> s_constr t = false ->
     apply_gain g t = Ok (mkSig (map (fun p => scale (fst p) (snd p)) (combine (map (from_db true) (ex g)) (s_re t))) None 1 false (s_fs t))).
  { intros g t Hg St Ct. assert (Lt : length (s_re t) = k) by (destruct St; auto).
    unfold apply_gain. rewrite D by (rewrite Lt; auto). rewrite Lt. fold (ex g). simpl bind. unfold set_data.
    rewrite (set_real _ _ _ n k); auto. now rewrite Ct. apply Sh; auto. rewrite map_length. now apply LE. }
  rewrite AG by auto. eexists. split; [reflexivity|]. set (s1 := mkSig _ _ _ _ _).
  assert (S1 : shape (s_re s1) n k) by (apply Sh; auto; rewrite map_length; apply LE; auto).
  assert (LC : length (map (fun p => fst p + snd p) (combine a b)) = length a) by (rewrite map_length, combine_length; lia).
  rewrite (AG b s1); auto; [|rewrite <- Hab; auto]. rewrite (AG (map _ _) s); auto; [|rewrite LC; auto]. split.
  - f_equal. f_equal. unfold s1. cbn [s_re].
    assert (EX : ex (map (fun p => fst p + snd p) (combine a b)) = map (fun p => fst p + snd p) (combine (ex a) (ex b))).
    { unfold ex. rewrite LC, <- Hab. destruct (Nat.eqb_spec (length a) 1) as [E1|E1]; [|reflexivity].
      destruct a as [|x [|? ?]]; try discriminate. destruct b as [|y [|? ?]]; try discriminate. simpl. clear.
      induction k; auto. simpl. now rewrite IHk. }
    rewrite EX. assert (LA : length (ex a) = k) by (apply LE; auto). assert (LB : length (ex b) = k) by (apply LE; rewrite <- Hab; auto).
    revert LA LB LK. generalize (ex a) (ex b) (s_re s). clear. intros a b m. revert k a b. induction m as [|c m IH]; intros k a b LA LB LK.
    + destruct a; [|simpl in *; lia]. destruct b; [|simpl in *; lia]. reflexivity.
    + destruct a as [|x a]; [simpl in *; lia|]. destruct b as [|y b]; [simpl in *; lia|]. destruct k; [discriminate|]. simpl in *.
      rewrite (IH k) by lia. f_equal. rewrite scale_scale. f_equal. destruct (C51_gains_add true x y) as [-> _]. reflexivity.
  - eexists. split; [reflexivity|]. constructor; cbn [s_re s_im s_constr]; auto; try easy.
    apply Sh; auto. rewrite map_length. apply LE. rewrite <- Hab; auto.
Qed.
Print Assumptions C52_gains_add.

(** The imaginary part of a complex signal is lost by apply_gain and by normalize. *)
Theorem C52_complex_refuted :
  forall (s s' : signal) (gs : list R), apply_gain gs s = Ok s' -> s_im s' = None.
Proof.
  intros s s' gs. unfold apply_gain. destruct (gain_data gs (s_re s)); simpl; [|discriminate]. unfold set_data, set_time_data. cbn [i_re i_im i_int].
  destruct (_ && _); [discriminate|]. destruct (s_constr s); [destruct (Rlt_dec _ _)|]; simpl; intros E; inversion E; reflexivity.
Qed.
Print Assumptions C52_complex_refuted.
Theorem C52_normalize_complex_refuted :
  forall (s s' : signal) dbfs pk per, normalize_signal dbfs pk per s = Some (Ok s') -> s_im s' = None.
Proof.
  intros s s' dbfs pk per. unfold normalize_signal. destruct (opt_seq _); simpl; [|discriminate]. unfold set_data, set_time_data. cbn [i_re i_im i_int].
  destruct (_ && _); [discriminate|]. destruct (s_constr s); [destruct (Rlt_dec _ _)|]; simpl; intros E; inversion E; reflexivity.
Qed.
Print Assumptions C52_normalize_complex_refuted.

(** A wrong number of gains: an exception, except for one channel, which is then copied once for every gain. *)
Theorem C52_gain_count :
  forall (s : signal) (n k : nat) (gs : list R), sig_ok s n k -> length gs <> 1%nat -> length gs <> k ->
  (2 <= k)%nat -> apply_gain gs s = Err ValueError.
Proof.
  intros s n k gs Hok H1 Hk K. destruct Hok as [h1 h2 h3 h4 h5 h6 h7]. assert (LK : length (s_re s) = k) by (destruct h4; auto).
  unfold apply_gain, gain_data. destruct (map (from_db true) gs) as [|a [|b l]] eqn:E.
  - apply map_eq_nil in E. subst gs. destruct (s_re s) as [|c [|d m]]; simpl in LK; try lia. reflexivity.
  - assert (length (map (from_db true) gs) = 1%nat) by now rewrite E. rewrite map_length in H. easy.
  - rewrite <- E, map_length, LK. apply Nat.eqb_neq in Hk. rewrite Hk. destruct (s_re s) as [|c [|d m]]; simpl in LK; try lia. reflexivity.
Qed.
Print Assumptions C52_gain_count.
Theorem C52_gains_on_mono_refuted :
  exists s s', sig_ok s 4 1 /\ apply_gain [0; 0; 0] s = Ok s' /\ length (s_re s') = 3%nat /\ sig_ok s' 4 3.
Proof.
  exists (mkSig [[1; 2; 3; 4]] None 1 false 48000%Z).
  assert (E : from_db true 0 = 1) by (unfold from_db; replace (0 / db_factor true) with 0 by (unfold db_factor; field); apply Rpower_O; lra).
  eexists. split; [constructor; simpl; auto; try easy; try lia; split; [reflexivity|repeat constructor]|].
  split; [unfold apply_gain, gain_data; simpl; reflexivity|]. cbn [s_re]. split; [reflexivity|].
  constructor; simpl; auto; try easy; try lia. split; [reflexivity|repeat constructor].
Qed.
Print Assumptions C52_gains_on_mono_refuted.

(** ** filters *)
From Verif Require Import M_filter P_arrays P_conv.
(** the output of a filter from rest *)
Definition filter_output (f : frep) (x : list R) : list R :=
  match f with
  | FSos _ sos => fst (sosfilt sos x (repeat [0; 0] (length sos)))
  | FBa b a => fst (lfilter b a x (repeat 0 (lf_order b a)))
  end.
Lemma get_scale g l i : get (scale g l) i = get l i * g.
Proof.
  unfold get, scale. destruct (Nat.lt_ge_cases i (length l)) as [H|H].
  - rewrite (nth_indep _ _ ((fun v => v * g) r0)) by now rewrite map_length. now rewrite (map_nth (fun v => v * g)).
  - rewrite !nth_overflow by (rewrite ?map_length; lia). change (0 = 0 * g). ring.
Qed.
Lemma lf_sample_scale g b a z v :
  lf_sample (scale g b) a (scale g z) v = (fst (lf_sample b a z v) * g, scale g (snd (lf_sample b a z v))).
Proof.
  unfold lf_sample. cbn [fst snd]. rewrite !get_scale. f_equal.
  - cbn. ring.
  - rewrite scale_length. unfold scale. unfold mk. rewrite map_map. apply map_ext. intros i.
    fold (scale g z). rewrite !get_scale. fold (scale g b). rewrite get_scale. cbn. ring.
Qed.
Lemma lfilter_scale g b a x : forall z,
  lfilter (scale g b) a x (scale g z) = (scale g (fst (lfilter b a x z)), scale g (snd (lfilter b a x z))).
Proof.
  induction x as [|v x IH]; intros z; [reflexivity|]. cbn [lfilter]. rewrite lf_sample_scale.
  destruct (lf_sample b a z v) as [y z1]. cbn [fst snd]. rewrite IH. destruct (lfilter b a x z1) as [ys z2]. reflexivity.
Qed.
Lemma scale_zeros g n : scale g (repeat 0 n) = repeat 0 n.
Proof. induction n; auto. simpl. rewrite IHn. f_equal. ring. Qed.
Lemma fst_sosfilt (b a : list R) t x z : fst (sosfilt ((b, a) :: t) x z) = fst (sosfilt t (fst (lfilter b a x (hd [] z))) (tl z)).
Proof. cbn [sosfilt]. destruct (lfilter b a x (hd [] z)) as [y z1]. cbn [fst]. destruct (sosfilt t y (tl z)). reflexivity. Qed.
Lemma sosfilt_scale_last g sos : sos <> [] -> forall x,
  fst (sosfilt (scale_last g sos) x (repeat [0; 0] (length (scale_last g sos)))) =
  scale g (fst (sosfilt sos x (repeat [0; 0] (length sos)))).
Proof.
  induction sos as [|[b a] sos IH]; intros H x; [easy|]. destruct sos as [|ba sos].
  - simpl. assert (Z : [0; 0] = scale g [0; 0]) by (unfold scale; simpl; repeat f_equal; ring).
    rewrite Z at 1. rewrite lfilter_scale. destruct (lfilter b a x [0; 0]) as [y z1]. reflexivity.
  - change (scale_last g ((b, a) :: ba :: sos)) with ((b, a) :: scale_last g (ba :: sos)). cbn [length]. cbn [repeat].
    rewrite !fst_sosfilt. cbn [hd tl]. apply IH. discriminate.
Qed.

(** A gain on a filter multiplies its output by the gain, in every representation; the gain of the zpk form follows. *)
Theorem C52_filter_gain :
  forall (db : R) (f : frep) (x : list R), (forall k sos, f = FSos k sos -> sos <> []) ->
  filter_output (filter_gain db f) x = map (fun v => v * Rpower 10 (db / 20)) (filter_output f x) /\
  (forall k sos, f = FSos (Some k) sos -> exists sos', filter_gain db f = FSos (Some (k * Rpower 10 (db / 20))) sos').
Proof.
  intros db f x H. split; [|intros k sos ->; eexists; reflexivity]. destruct f as [k sos|b a]; unfold filter_output, filter_gain.
  - apply sosfilt_scale_last. eapply H; reflexivity.
  - assert (L : lf_order (scale (from_db true db) b) a = lf_order b a) by (unfold lf_order; now rewrite scale_length).
    rewrite L. rewrite <- (scale_zeros (from_db true db)) at 1. rewrite lfilter_scale. reflexivity.
Qed.
Print Assumptions C52_filter_gain.

(** A FilterBank: one gain for all filters or one for each; any other number is refused. *)
Theorem C52_bank_gain :
  forall (gs : list R) (fs : list frep),
  (forall i r, bank_gain gs fs = Ok r -> (i < length fs)%nat -> length r = length fs /\
     forall d, nth i r d = filter_gain (if (length gs =? 1)%nat then hd 0 gs else nth i gs 0) (nth i fs (FBa [] []))) /\
  (bank_gain gs fs = Err AssertionError <-> length gs <> 1%nat /\ length gs <> length fs).
Proof.
  intros gs fs. unfold bank_gain. split.
  - intros i r E Hi. destruct gs as [|g [|g2 gs]].
    + destruct fs; [simpl in Hi; lia|discriminate].
    + inversion E. split; [apply map_length|]. intros d. simpl.
      rewrite (nth_indep _ _ (filter_gain g (FBa [] []))) by now rewrite map_length. apply map_nth.
    + destruct (Nat.eqb_spec (length (g :: g2 :: gs)) (length fs)) as [L|]; [|discriminate].
      match type of E with Ok ?X = _ => assert (ER : r = X) by congruence; subst r; clear E end.
      split; [rewrite map_length, combine_length, L; apply Nat.min_id|]. intros d.
      rewrite (nth_indep _ _ ((fun p => filter_gain (fst p) (snd p)) (0, FBa [] []))) by (rewrite map_length, combine_length, L, Nat.min_id; auto).
      rewrite (map_nth (fun p => filter_gain (fst p) (snd p))). rewrite combine_nth by auto. reflexivity.
  - destruct gs as [|g [|g2 gs]].
    + destruct fs; simpl; split; try discriminate; [intros [_ H]; lia|intros _; split; discriminate|reflexivity].
    + split; [discriminate|]. intros [H _]. now destruct H.
    + destruct (Nat.eqb_spec (length (g :: g2 :: gs)) (length fs)) as [L|L]; split; try discriminate; try tauto. intros _. split; [discriminate|auto].
Qed.
Print Assumptions C52_bank_gain.

(** ** crest factor *)
Theorem C52_crest_at_least_one :
  forall (c : list R), 0 < variance c -> exists q, crest_linear [c] = [Some q] /\ 1 <= q /\ q * rms c = vpeak c.
Proof.
  intros c V. assert (P : 0 < rms c) by (unfold rms; rewrite std_variance; now apply sqrt_lt_R0). exists (vpeak c / rms c).
  split; [|split].
  - unfold crest_linear, div_opt. simpl. destruct (Req_EM_T (rms c) 0); [lra|reflexivity].
  - assert (NE : c <> []) by (intros ->; unfold variance, avg in V; simpl in V; unfold Rdiv in V; lra).
    assert (L : rms c <= vpeak c).
    { destruct (C52_rms_is_deviation c NE) as [_ [L _]]. eapply Rle_trans; [exact L|]. unfold true_rms.
      rewrite <- (sqrt_square (vpeak c)) by apply vpeak_pos. apply sqrt_le_1_alt. unfold mean_square, avg. rewrite map_length.
      assert (B : forall l, (forall v, In v l -> Rabs v <= vpeak c) -> total (map (fun v => v * v) l) <= INR (length l) * (vpeak c * vpeak c)).
      { induction l as [|a l IH]; intros Hl; [simpl; lra|]. cbn [map total fold_right length]. rewrite S_INR. unfold total in IH.
        specialize (IH (fun v Hv => Hl v (or_intror Hv))). specialize (Hl a (or_introl eq_refl)).
        assert (a * a <= vpeak c * vpeak c); [|lra]. assert (a * a = Rabs a * Rabs a) by (rewrite <- Rabs_mult, Rabs_right; nra).
        pose proof (Rabs_pos a). nra. }
      specialize (B c (fun v Hv => vpeak_ge c v Hv)). pose proof (inr_pos c NE).
      apply (Rmult_le_reg_r (INR (length c))); auto. unfold Rdiv. rewrite Rmult_assoc, Rinv_l by lra. lra. }
    apply (Rmult_le_reg_r (rms c)); auto. unfold Rdiv. rewrite Rmult_assoc, Rinv_l by lra. lra.
  - field. lra.
Qed.
Print Assumptions C52_crest_at_least_one.

(** For a MultiBandSignal the decibel conversion is made twice: the result is the level of the level. *)
Lemma small_le_1 : 0 < smallest_normal <= 1.
Proof.
  unfold smallest_normal. split; [apply Rinv_0_lt_compat, pow_lt; lra|]. rewrite <- Rinv_1. apply Rinv_le_contravar; [lra|]. apply pow_R1_Rle. lra.
Qed.
Lemma db_default_big v : 0 <= v -> db_default v = Some (level true (Rmax v smallest_normal)).
Proof. intros H. unfold db_default. rewrite Rabs_right by lra. apply to_db1_pos, rmax_pos, small_le_1. Qed.
Lemma level_nonneg q : 1 <= q -> 0 <= level true q.
Proof. intros H. replace 0 with (level true 1) by (unfold level; rewrite ln_1; field; pose proof ln10p; lra). apply level_le; lra. Qed.
Theorem C52_crest_bands_law :
  forall (bands : list mat) (i c : nat) (q : R), nth c (crest_linear (nth i bands [])) None = Some q -> 1 <= q ->
  (i < length bands)%nat -> (c < length (nth i bands []))%nat ->
  nth c (crest_factor true (nth i bands [])) None = Some (level true q) /\
  nth c (nth i (crest_factor_bands true bands) []) None = Some (level true (Rmax (level true q) smallest_normal)) /\
  nth c (nth i (crest_factor_bands false bands) []) None = Some q.
Proof.
  intros bands i c q E Hq Hi Hc. pose proof small_le_1 as S1. pose proof (level_nonneg q Hq) as LP.
  assert (E1 : nth c (crest_factor true (nth i bands [])) None = Some (level true q)).
  { unfold crest_factor. rewrite (nth_indep _ _ (obind None db_default)) by (unfold crest_linear; now rewrite !map_length).
    rewrite (map_nth (fun o => obind o db_default)), E. simpl. rewrite db_default_big, Rmax_left by lra. reflexivity. }
  split; [exact E1|]. split.
  - unfold crest_factor_bands.
    rewrite (nth_indep _ _ ((fun b => map (fun o => obind o db_default) (crest_factor true b)) [])) by now rewrite map_length.
    rewrite (map_nth (fun b => map (fun o => obind o db_default) (crest_factor true b))).
    rewrite (nth_indep _ _ (obind None db_default)) by (unfold crest_factor, crest_linear; now rewrite !map_length).
    rewrite (map_nth (fun o => obind o db_default)), E1. cbn [obind]. now apply db_default_big.
  - unfold crest_factor_bands.
    rewrite (nth_indep _ _ ((fun b => map (fun o => o) (crest_factor false b)) [])) by now rewrite map_length.
    rewrite (map_nth (fun b => map (fun o => o) (crest_factor false b))). rewrite map_id. unfold crest_factor. now rewrite map_id.
Qed.
Print Assumptions C52_crest_bands_law.

(** A full-scale square wave has a crest factor of 0 dB. As a band of a MultiBandSignal it is reported below -6000 dB. *)
Lemma std_square : rms [1; -1] = 1.
Proof.
  unfold rms. rewrite std_variance. unfold variance, avg, total. simpl.
  match goal with |- sqrt ?v = 1 => replace v with 1 by field end. apply sqrt_1.
Qed.
Theorem C52_crest_bands_refuted :
  crest_factor true [[1; -1]] = [Some 0] /\
  exists d, crest_factor_bands true [[[1; -1]]] = [[Some d]] /\ d < -6000.
Proof.
  assert (Q : crest_linear [[1; -1]] = [Some 1]).
  { unfold crest_linear, div_opt. cbn [map]. rewrite std_square. destruct (Req_EM_T 1 0); [lra|]. do 2 f_equal.
    unfold vpeak. simpl. rewrite Rabs_R1, (Rabs_left (-1)) by lra. rewrite (Rmax_left (- -1) 0), Rmax_left by lra. field. }
  assert (L1 : level true 1 = 0) by (unfold level; rewrite ln_1; field; pose proof ln10p; lra). pose proof small_le_1 as SM.
  assert (A : crest_factor true [[1; -1]] = [Some 0]).
  { unfold crest_factor. rewrite Q. cbn [map obind]. rewrite db_default_big, Rmax_left by lra. now rewrite L1. }
  split; [exact A|].
  - exists (level true smallest_normal). split.
    + unfold crest_factor_bands. cbn [map]. rewrite A. cbn [map obind]. rewrite db_default_big, Rmax_right by lra. reflexivity.
    + unfold level, smallest_normal. rewrite ln_Rinv by (apply pow_lt; lra).
      assert (LP : ln (2 ^ 1022) = 1022 * ln 2).
      { rewrite <- Rpower_pow by lra. unfold Rpower. rewrite ln_exp. f_equal. rewrite INR_IZR_INZ. reflexivity. }
      rewrite LP. assert (K : 3 * ln 10 < 10 * ln 2).
      { assert (P : forall x k, 0 < x -> ln (x ^ k) = INR k * ln x) by (intros x k Hx; rewrite <- Rpower_pow by auto; unfold Rpower; now rewrite ln_exp).
        replace 3 with (INR 3) by (simpl; ring). replace 10 with (INR 10) at 2 by (simpl; ring).
        rewrite <- !P by lra. apply ln_increasing; [lra|]. simpl. lra. }
      pose proof ln10p. apply (Rmult_lt_reg_r (ln 10)); auto.
      replace (20 * (- (1022 * ln 2) / ln 10) * ln 10) with (- 20440 * ln 2) by (field; lra). lra.
Qed.
Print Assumptions C52_crest_bands_refuted.

Example C52_example :
  let s := mkSig [[1; -2; 0]; [0; 0; 1/2]] None 1 false 48000%Z in
  sig_ok s 3 2 /\ (exists c v, In c (s_re s) /\ In v c /\ v <> 0) /\ (forall c, In c (s_re s) -> exists v, In v c /\ v <> 0) /\
  normalize_signal 0 true false s = Some (Ok (mkSig [[1/2; -1; 0]; [0; 0; 1/4]] None 1 false 48000%Z)) /\
  apply_gain [20; -20] s = Ok (mkSig [[10; -20; 0]; [0; 0; 1/20]] None 1 false 48000%Z) /\
  0 < variance [1; -2; 0] /\ avg [1; -2; 0] <> 0.
Proof.
  cbv zeta. assert (F0 : from_db true 0 = 1) by (destruct (C51_gains_add true 0 0) as [_ [E _]]; exact E).
  assert (F20 : from_db true 20 = 10) by (unfold from_db, db_factor; replace (20 / 20) with 1 by field; apply rp1).
  assert (Fm : from_db true (-20) = / 10).
  { replace (-20) with (- (20)) by lra. destruct (C51_gains_add true 20 0) as [_ [_ [E _]]]. now rewrite E, F20. }
  split; [constructor; simpl; auto; try easy; try lia; split; [reflexivity|repeat constructor]|].
  split; [exists [1; -2; 0], 1; simpl; repeat split; auto; lra|].
  split; [intros c [<-|[<-|[]]]; [exists 1|exists (1/2)]; simpl; repeat split; auto; lra|].
  split; [|split; [|split]].
  - unfold normalize_signal, normalize, norm_base. cbn [s_re].
    assert (P : vpeak (concat [[1; -2; 0]; [0; 0; 1 / 2]]) = 2).
    { unfold vpeak. simpl. rewrite Rabs_R0, Rabs_R1, (Rabs_left (-2)), (Rabs_right (1/2)) by lra. unfold Rmax. repeat destruct (Rle_dec _ _); lra. }
    rewrite P. cbn [map]. rewrite !norm_col_ok by lra. rewrite F0. cbn [opt_seq option_map scale map].
    unfold set_data, set_time_data. cbn [s_constr s_fs i_re i_im i_int nrows ncols hd length Nat.eqb Nat.ltb Nat.leb andb option_map].
    replace (1 * (1 / 2)) with (1 / 2) by field. replace (-2 * (1 / 2)) with (-1) by field. replace (0 * (1 / 2)) with 0 by field.
    replace (1 / 2 * (1 / 2)) with (1 / 4) by field. reflexivity.
  - unfold apply_gain, gain_data. cbn [map s_re length Nat.eqb combine fst snd bind]. rewrite F20, Fm. unfold set_data, set_time_data, scale.
    cbn [map s_constr s_fs i_re i_im i_int nrows ncols hd length Nat.eqb Nat.ltb Nat.leb andb option_map].
    replace (1 * 10) with 10 by field. replace (-2 * 10) with (-20) by field. replace (0 * 10) with 0 by field.
    replace (0 * / 10) with 0 by field. replace (1 / 2 * / 10) with (1 / 20) by field. reflexivity.
  - unfold variance, avg, total. simpl. match goal with |- 0 < ?v => replace v with (14 / 9) by field end. lra.
  - unfold avg, total. simpl. lra.
Qed.
