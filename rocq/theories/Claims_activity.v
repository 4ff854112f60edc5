(** C54 activity detector. *)
From Coq Require Import List Arith Lia ZArith Bool Reals Lra.
From Verif Require Import Alg Spec M_arrays M_signal P_signal M_dynamics M_level Claims_level Claims_dynamics.
Import ListNotations.
Local Open Scope R_scope.

(** Putting the two parts together again: the samples marked true are taken from the first list, the others from the second. *)
Fixpoint merge {T} (m : list bool) (d n : list T) : list T :=
  match m with
  | [] => []
  | true :: m' => match d with v :: d' => v :: merge m' d' n | [] => [] end
  | false :: m' => match n with v :: n' => v :: merge m' d n' | [] => [] end
  end.
Definition count (b : bool) (m : list bool) : nat := length (filter (Bool.eqb b) m).

Lemma merge_select {T} m : forall x : list T, length m = length x -> merge m (select_mask m x) (select_mask (map negb m) x) = x.
Proof.
  induction m as [|b m IH]; intros [|v x] H; simpl in H; try discriminate; auto. destruct b; simpl; rewrite IH; auto.
Qed.
Lemma select_len {T} m : forall x : list T, length m = length x -> length (select_mask m x) = count true m.
Proof. induction m as [|b m IH]; intros [|v x] H; simpl in H; try discriminate; auto. destruct b; simpl; rewrite IH by lia; reflexivity. Qed.
Lemma select_neg_len {T} m : forall x : list T, length m = length x -> length (select_mask (map negb m) x) = count false m.
Proof. induction m as [|b m IH]; intros [|v x] H; simpl in H; try discriminate; auto. destruct b; simpl; rewrite IH by lia; reflexivity. Qed.
Lemma select_in {T} m : forall (x : list T) v, In v (select_mask m x) -> In v x.
Proof. induction m as [|b m IH]; intros [|w x] v H; simpl in *; try tauto. destruct b; simpl in *; [destruct H; auto|]; right; now apply IH. Qed.

Lemma act_loop_len ca cr p : forall g v, length (act_loop ca cr g v p) = length p.
Proof. induction p; intros; simpl; auto. Qed.
Lemma act_gain_len ca cr p : length (act_gain ca cr p) = length p.
Proof. destruct p; simpl; auto. now rewrite act_loop_len. Qed.
Lemma act_mask_len thr ca cr nm x : length (act_mask thr ca cr nm x) = length x.
Proof. unfold act_mask. destruct nm; [destruct (Req_EM_T _ 0)|]; now rewrite ?map_length, ?act_gain_len, ?map_length. Qed.

(** one-column assignment *)
Lemma shape1 (x : list R) n : length x = n -> shape [x] n 1.
Proof. intros H. split; auto. Qed.
Lemma assign_long s x : (2 <= length x)%nat -> (s_constr s = true -> forall v, In v x -> Rabs v <= 1) ->
  assign_selection s x = Ok (mkSig [x] None 1 (s_constr s) (s_fs s)).
Proof.
  intros H B. destruct x as [|v x]; [simpl in H; lia|]. unfold assign_selection, set_data.
  rewrite (set_real _ _ _ (length (v :: x)) 1); auto; [|now apply shape1|lia]. destruct (s_constr s); auto.
  destruct (Rlt_dec _ _) as [L|]; auto. exfalso.
  assert (loudest [v :: x] (M_signal.peak [v :: x])) as [_ [c [w [Hc [Hw E]]]]] by (apply (peak_loudest _ (v :: x) v); simpl; auto).
  destruct Hc as [<-|[]]. specialize (B eq_refl w Hw). lra.
Qed.
Lemma assign_one s v : assign_selection s [v] = Err IndexError.
Proof. reflexivity. Qed.

Section Det.
Variables (s : signal) (n k : nat).
Hypothesis Hok : sig_ok s n k.
Lemma chan ch q : py_index k ch = Some q ->
  exists s1, get_channels [ch] s = Ok s1 /\ s_re s1 = [nth q (s_re s) []] /\ s_constr s1 = s_constr s /\ s_fs s1 = s_fs s /\
    length (nth q (s_re s) []) = n /\ (s_constr s = true -> forall v, In v (nth q (s_re s) []) -> Rabs v <= 1).
Proof.
  intros E. rewrite (get_channels_eq s n k Hok [ch] [q]); auto; [|discriminate|destruct Hok; simpl; lia].
  eexists. split; [reflexivity|]. cbn [s_re s_constr s_fs]. split; [reflexivity|]. split; auto. split; auto.
  pose proof (py_index_lt _ _ _ E) as Hq. destruct Hok. split; [now apply (shape_col _ n k)|].
  intros C v Hv. apply (In_nth _ _ 0) in Hv. destruct Hv as [i [Hi Hv]]. rewrite (shape_col _ n k) in Hi by auto. rewrite <- Hv.
  apply (ok_bre C i q Hi Hq).
Qed.
End Det.

(** ** C54 *)
(** What is returned, for every admissible call: the two masks are complementary and as long as the channel; when both parts
    have two samples or more they are the marked and the other samples in their order, so that the channel can be put
    together from them; a part of one sample makes the call fail. *)
Theorem C54_partition :
  forall (s : signal) (n k q : nat) (ch : Z) (thr : R) (rel : bool) (pre : option (list R -> list R)) (att_ms rel_ms : R),
  sig_ok s n k -> py_index k ch = Some q -> thr < 0 -> 0 <= att_ms -> 0 <= rel_ms ->
  (forall f, pre = Some f -> forall x, length (f x) = length x) ->
  exists mask, length mask = n /\
    (count true mask = 1%nat \/ count false mask = 1%nat -> activity_detector thr ch rel pre att_ms rel_ms s = Err IndexError) /\
    ((2 <= count true mask)%nat -> (2 <= count false mask)%nat ->
      exists d nz, activity_detector thr ch rel pre att_ms rel_ms s =
        Ok (mkAct (mkSig [d] None 1 (s_constr s) (s_fs s)) (mkSig [nz] None 1 (s_constr s) (s_fs s)) mask (map negb mask)) /\
        length d = count true mask /\ length nz = count false mask /\ merge mask d nz = nth q (s_re s) []).
Proof.
  intros s n k q ch thr rel pre att rl Hok Eq Ht Ha Hr Hpre.
  destruct (chan s n k Hok ch q Eq) as [s1 [E1 [R1 [C1 [F1 [L1 B1]]]]]].
  set (x := nth q (s_re s) []) in *.
  set (y := match pre with Some f => f x | None => x end).
  assert (Ly : length y = n) by (unfold y; destruct pre; auto; rewrite Hpre; auto).
  set (mask := act_mask thr (ema_factor (att / 1000) (IZR (s_fs s))) (ema_factor (rl / 1000) (IZR (s_fs s))) rel y).
  assert (LM : length mask = n) by (unfold mask; now rewrite act_mask_len).
  assert (EA : activity_detector thr ch rel pre att rl s =
     bind (assign_selection s1 (select_mask mask x)) (fun d => bind (assign_selection s1 (select_mask (map negb mask) x)) (fun nz => Ok (mkAct d nz mask (map negb mask))))).
  { unfold activity_detector. destruct (Rlt_dec thr 0); [|easy]. destruct (Rlt_dec rl 0); [lra|]. destruct (Rlt_dec att 0); [lra|].
    rewrite E1. cbn [bind]. rewrite R1. cbn [hd]. reflexivity. }
  exists mask. split; auto. rewrite EA.
  assert (LX : length mask = length x) by congruence.
  pose proof (select_len mask x LX) as Ls. pose proof (select_neg_len mask x LX) as Ln.
  assert (BD : forall m, s_constr s1 = true -> forall v, In v (select_mask m x) -> Rabs v <= 1) by (intros m C v Hv; apply B1; [congruence|now apply (select_in m)]).
  split.
  - intros H. assert (AE : forall z : list R, length z <> 1%nat -> exists r, assign_selection s1 z = Ok r).
    { intros z Hz. destruct z as [|a [|b z]]; [|simpl in Hz; lia|].
      - unfold assign_selection. destruct (s_constr s1); [|eauto]. unfold set_data. rewrite (set_real _ _ _ 500 1); try lia; [eauto|]. apply shape1, repeat_length.
      - unfold assign_selection, set_data. rewrite (set_real _ _ _ (length (a :: b :: z)) 1); simpl length; try lia; [eauto|]. now apply shape1. }
    destruct (Nat.eq_dec (length (select_mask mask x)) 1) as [Q|Q].
    + destruct (select_mask mask x) as [|v [|w l]]; simpl in Q; try lia. now rewrite assign_one.
    + destruct (AE _ Q) as [r ->]. cbn [bind]. destruct H as [H|H]; [lia|].
      destruct (select_mask (map negb mask) x) as [|v [|w l]]; simpl in Ln; try lia. now rewrite assign_one.
  - intros H1 H2. exists (select_mask mask x), (select_mask (map negb mask) x).
    rewrite (assign_long s1 (select_mask mask x)) by first [lia | apply BD]. rewrite (assign_long s1 (select_mask (map negb mask) x)) by first [lia | apply BD]. cbn [bind]. rewrite C1, F1. split; auto.
    split; auto. split; auto. now apply merge_select.
Qed.
Print Assumptions C54_partition.

(** The documented fall-back for an empty part (a vector of zeros) only exists with constrain_amplitude: otherwise a
    Signal without channels is returned. *)
Theorem C54_empty_part :
  forall s : signal, (s_constr s = false -> exists r, assign_selection s [] = Ok r /\ s_re r = []) /\
  (s_constr s = true -> exists r, assign_selection s [] = Ok r /\ s_re r = [repeat 0 500]).
Proof.
  intros s. unfold assign_selection. split; intros C; rewrite C.
  - eexists. split; reflexivity.
  - unfold set_data. rewrite (set_real _ _ _ 500 1); try lia; [|apply shape1, repeat_length]. rewrite C.
    destruct (Rlt_dec _ _) as [L|]; [|eexists; split; reflexivity]. exfalso.
    assert (P : forall j, vpeak (repeat 0 j) = 0) by (induction j; simpl; auto; rewrite IHj, Rabs_R0; apply Rmax_left; lra).
    cbn [M_signal.peak fold_right] in L. rewrite P, Rmax_left in L by lra. lra.
Qed.
Print Assumptions C54_empty_part.

(** ** which samples are marked *)
Definition marked (thr g : R) : bool := if Rlt_dec 0 g then if Rlt_dec (Rpower 10 (thr / 10)) g then true else false else false.
Lemma above_marked thr g : 0 <= g -> above thr g = marked thr g.
Proof.
  intros H. unfold above, marked. destruct (Rlt_dec 0 g) as [P|P].
  - rewrite to_db1_pos by auto.
    assert (E : thr < level false g <-> Rpower 10 (thr / 10) < g).
    { change (Rpower 10 (thr / 10)) with (from_db false thr). split; intros L.
      - rewrite <- (from_level false g) by auto. now apply C51_gains_add.
      - rewrite <- (level_from false thr). destruct (Rle_dec (level false g) (level false (from_db false thr))) as [C|C]; [|lra].
        rewrite level_from in C. exfalso. assert (g <= from_db false thr); [|lra].
        rewrite <- (from_level false g) by auto. destruct C as [C| ->]; [left; now apply C51_gains_add|lra]. }
    destruct (Rlt_dec thr (level false g)), (Rlt_dec (Rpower 10 (thr / 10)) g); tauto.
  - assert (g = 0) by lra. subst. unfold to_db1, log10o. destruct (Req_EM_T 0 0); [reflexivity|easy].
Qed.

(** For a channel without zero samples the level that is compared is the exponential average of the power with the release
    coefficient, started at zero; the first sample is never marked. The smoothing of the attack does not occur. *)
Theorem C54_level_follows_release :
  forall (thr ca cr : R) (x : list R), 0 < cr <= 1 -> (forall v, In v x -> v <> 0) -> x <> [] ->
  exists g, length g = length x /\ nth 0 g 0 = 0 /\
    (forall i, (S i < length x)%nat -> nth (S i) g 0 = cr * (nth (S i) x 0 * nth (S i) x 0) + (1 - cr) * nth i g 0) /\
    act_mask thr ca cr false x = map (marked thr) g /\ nth 0 (act_mask thr ca cr false x) true = false.
Proof.
  intros thr ca cr x Hc Hnz Hne.
  assert (LP : forall p g v, (forall u, In u p -> 0 < u) -> 0 < v -> 0 <= g ->
    (forall i, (i < length p)%nat -> nth i (act_loop ca cr g v p) 0 = cr * nth i p 0 + (1 - cr) * nth i (g :: act_loop ca cr g v p) 0) /\
    Forall (fun u => 0 <= u) (act_loop ca cr g v p)).
  { induction p as [|u p IH]; intros g v Hp Hv Hg; [split; [simpl; lia|constructor]|]. simpl act_loop.
    assert (EC : act_coeff ca cr v = cr) by (unfold act_coeff; destruct (Rlt_dec v 0); [lra|]; destruct (Rlt_dec 0 v); [reflexivity|lra]).
    rewrite EC. assert (Hu : 0 < u) by (apply Hp; now left).
    assert (G' : 0 <= cr * u + (1 - cr) * g) by (assert (0 < cr * u) by nra; assert (0 <= (1 - cr) * g) by (apply Rmult_le_pos; lra); lra).
    destruct (IH (cr * u + (1 - cr) * g) u (fun w Hw => Hp w (or_intror Hw)) Hu G') as [A B].
    split; [|now constructor]. intros [|i] Hi; simpl in Hi; [reflexivity|]. exact (A i ltac:(lia)). }
  destruct x as [|a x]; [easy|].
  set (p := map (fun v => v ^ 2) x).
  assert (Hp : forall u, In u p -> 0 < u).
  { intros u Hu. apply in_map_iff in Hu. destruct Hu as [w [<- Hw]]. assert (w <> 0) by (apply Hnz; now right). simpl. nra. }
  assert (Ha : 0 < a ^ 2) by (assert (a <> 0) by (apply Hnz; now left); simpl; nra).
  destruct (LP p 0 (a ^ 2) Hp Ha ltac:(lra)) as [A B].
  exists (0 :: act_loop ca cr 0 (a ^ 2) p). split; [simpl; rewrite act_loop_len; unfold p; now rewrite map_length|]. split; [reflexivity|].
  assert (LPn : length p = length x) by apply map_length.
  assert (EM : act_mask thr ca cr false (a :: x) = map (marked thr) (0 :: act_loop ca cr 0 (a ^ 2) p)).
  { unfold act_mask. cbn [map act_gain]. fold p. f_equal; [apply above_marked; lra|]. apply map_ext_in. intros u Hu. apply above_marked.
    rewrite Forall_forall in B. now apply B. }
  split; [|split; [exact EM|]].
  - intros i Hi. simpl in Hi. specialize (A i ltac:(lia)). cbn [nth] in *. rewrite A. f_equal. f_equal. unfold p.
    rewrite (nth_indep _ 0 ((fun v => v ^ 2) 0)) by (rewrite map_length; lia). rewrite (map_nth (fun v => v ^ 2)). simpl. ring.
  - rewrite EM. cbn [map nth]. unfold marked. destruct (Rlt_dec 0 0); [lra|reflexivity].
Qed.
Print Assumptions C54_level_follows_release.

(** A steady tone of power p is marked from the first sample at which p (1 - (1-c)^i) passes the threshold. *)
Theorem C54_steady :
  forall (thr ca cr a : R) (n i : nat), 0 < cr <= 1 -> a <> 0 -> (i < n)%nat ->
  nth i (act_mask thr ca cr false (repeat a n)) false = marked thr (a * a * (1 - (1 - cr) ^ i)).
Proof.
  intros thr ca cr a n i Hc Ha Hi.
  destruct (C54_level_follows_release thr ca cr (repeat a n)) as [g [Lg [G0 [GS [EM _]]]]]; auto.
  { intros v Hv. apply repeat_spec in Hv. now subst. } { destruct n; [lia|discriminate]. }
  rewrite repeat_length in *. rewrite EM. rewrite (nth_indep _ _ (marked thr 0)) by (rewrite map_length; lia). rewrite map_nth. f_equal.
  assert (RP : forall m j, (j < m)%nat -> nth j (repeat a m) 0 = a) by (induction m; intros [|j] Hj; simpl; try lia; auto; apply IHm; lia).
  induction i as [|i IH]; [rewrite G0; simpl; ring|]. rewrite GS by auto. rewrite IH by lia. rewrite RP by auto. simpl. ring.
Qed.
Print Assumptions C54_steady.

(** The attack time has no effect at all: documented as a lag for detecting activity. *)
Lemma act_loop_attack ca ca' cr p : forall g v, 0 <= v -> (forall u, In u p -> 0 <= u) -> act_loop ca cr g v p = act_loop ca' cr g v p.
Proof.
  induction p as [|u p IH]; intros g v Hv Hp; auto. simpl. assert (E : act_coeff ca cr v = act_coeff ca' cr v) by (unfold act_coeff; destruct (Rlt_dec v 0); [lra|auto]).
  rewrite E, IH; auto; intros; apply Hp; simpl; auto.
Qed.
Lemma act_gain_attack ca ca' cr p : (forall u, In u p -> 0 <= u) -> act_gain ca cr p = act_gain ca' cr p.
Proof. destruct p as [|u p]; intros H; auto. simpl. f_equal. apply act_loop_attack; intros; apply H; simpl; auto. Qed.
Lemma sq_nonneg (f : R -> R) x u : In u (map (fun v => f v ^ 2) x) -> 0 <= u.
Proof. intros H. apply in_map_iff in H. destruct H as [w [<- _]]. simpl. rewrite Rmult_1_r. apply Rle_0_sqr. Qed.
Theorem C54_attack_ignored_refuted :
  forall (thr : R) (ch : Z) (rel : bool) (pre : option (list R -> list R)) (att att' rel_ms : R) (s : signal),
  0 <= att -> 0 <= att' -> activity_detector thr ch rel pre att rel_ms s = activity_detector thr ch rel pre att' rel_ms s.
Proof.
  intros thr ch rel pre att att' rl s H H'. unfold activity_detector. destruct (Rlt_dec thr 0); auto. destruct (Rlt_dec rl 0); auto.
  destruct (Rlt_dec att 0); [lra|]. destruct (Rlt_dec att' 0); [lra|]. destruct (get_channels [ch] s) as [s1|]; auto. cbn [bind].
  set (y := match pre with Some f => _ | None => _ end).
  assert (E : forall ca ca' cr, act_mask thr ca cr rel y = act_mask thr ca' cr rel y).
  { intros ca ca' cr. unfold act_mask. destruct rel; [destruct (Req_EM_T _ 0); auto|]; f_equal; apply act_gain_attack; intros u Hu.
    - now apply (sq_nonneg (fun v => v / vpeak y) y). - now apply (sq_nonneg (fun v => v) y). }
  now rewrite (E _ (ema_factor (att' / 1000) (IZR (s_fs s)))).
Qed.
Print Assumptions C54_attack_ignored_refuted.

(** The level stops after a zero sample. A full-scale signal in which every other sample is zero is never detected,
    however low the threshold. *)
Fixpoint alternating (n : nat) : list R := match n with O => [] | S m => 0 :: 1 :: alternating m end.
Theorem C54_alternating_refuted :
  forall (thr ca cr : R) (n : nat), count true (act_mask thr ca cr true (alternating n)) = 0%nat /\
    count true (act_mask thr ca cr false (alternating n)) = 0%nat.
Proof.
  intros thr ca cr n.
  assert (L : forall m, act_loop ca cr 0 1 (alternating m) = repeat 0 (2 * m)).
  { induction m as [|m IH]; auto. replace (2 * S m)%nat with (S (S (2 * m))) by lia. cbn [alternating act_loop repeat].
    assert (C1 : forall w, act_coeff ca cr 0 * w + (1 - act_coeff ca cr 0) * 0 = 0) by (intros w; unfold act_coeff; destruct (Rlt_dec 0 0); [lra|]; ring).
    replace (act_coeff ca cr 1 * 0 + (1 - act_coeff ca cr 1) * 0) with 0 by ring. rewrite C1. now rewrite IH. }
  assert (G : act_gain ca cr (alternating n) = repeat 0 (2 * n)).
  { destruct n as [|n]; auto. replace (2 * S n)%nat with (S (S (2 * n))) by lia. cbn [alternating act_gain act_loop repeat].
    assert (C1 : forall w, act_coeff ca cr 0 * w + (1 - act_coeff ca cr 0) * 0 = 0) by (intros w; unfold act_coeff; destruct (Rlt_dec 0 0); [lra|]; ring).
    rewrite C1. now rewrite L. }
  assert (P : forall m, (1 <= m)%nat -> vpeak (alternating m) = 1).
  { induction m as [|m IH]; intros H; [lia|]. simpl. rewrite Rabs_R0, Rabs_R1. destruct m.
    - simpl. unfold Rmax. repeat destruct (Rle_dec _ _); lra.
    - rewrite IH by lia. unfold Rmax. repeat destruct (Rle_dec _ _); lra. }
  assert (S2 : forall m (f : R -> R), f 0 = 0 -> f 1 = 1 -> map f (alternating m) = alternating m).
  { intros m f F0 F1. induction m; auto. simpl. now rewrite F0, F1, IHm. }
  assert (A0 : above thr 0 = false) by (unfold above, to_db1, log10o; destruct (Req_EM_T 0 0); [reflexivity|easy]).
  assert (CR : forall m, count true (map (above thr) (repeat 0 m)) = 0%nat).
  { induction m; auto. cbn [repeat map]. rewrite A0. exact IHm. }
  assert (CF : forall (y : list R), count true (map (fun _ => false) y) = 0%nat) by (induction y; auto).
  unfold act_mask. split.
  - destruct (Req_EM_T _ 0); [apply CF|]. destruct n as [|n]; [reflexivity|]. rewrite P by lia.
    rewrite S2; [|field|field]. rewrite G. apply CR.
  - rewrite S2; [|ring|ring]. rewrite G. apply CR.
Qed.
Print Assumptions C54_alternating_refuted.

(** A constant channel with immediate release: everything but the first sample is activity, and the call fails because
    the noise is one sample. *)
Theorem C54_constant_raises_refuted :
  forall (s : signal) (n k q : nat) (ch : Z) (thr a att_ms : R), sig_ok s n k -> py_index k ch = Some q -> thr < 0 -> 0 <= att_ms ->
  nth q (s_re s) [] = repeat a n -> a <> 0 ->
  activity_detector thr ch true None att_ms 0 s = Err IndexError.
Proof.
  intros s n k q ch thr a att Hok Eq Ht Ha Ex Hne.
  destruct (chan s n k Hok ch q Eq) as [s1 [E1 [R1 [C1 [F1 [L1 B1]]]]]].
  destruct Hok as [h1 h2 h3 _ _ _ _].
  unfold activity_detector. destruct (Rlt_dec thr 0); [|easy]. destruct (Rlt_dec 0 0); [lra|]. destruct (Rlt_dec att 0); [lra|].
  rewrite E1. cbn [bind]. rewrite R1. cbn [hd]. rewrite Ex. set (ca := ema_factor (att / 1000) _).
  assert (ER : ema_factor (0 / 1000) (IZR (s_fs s)) = 1).
  { unfold ema_factor. destruct (Req_EM_T (0 / 1000) 0) as [|N]; [reflexivity|]. exfalso. apply N. field. }
  rewrite ER. unfold act_mask.
  assert (P : vpeak (repeat a n) = Rabs a).
  { clear - h3. destruct n as [|n]; [lia|]. clear h3. induction n; simpl in *; [apply Rmax_left, Rabs_pos|]. rewrite IHn. apply Rmax_left. lra. }
  rewrite P. pose proof (Rabs_pos_lt a Hne) as PA. destruct (Req_EM_T (Rabs a) 0); [lra|].
  assert (SQ : map (fun v => (v / Rabs a) ^ 2) (repeat a n) = repeat 1 n).
  { clear - PA Hne. assert (E : (a / Rabs a) ^ 2 = 1).
    { assert (Q : a * a = Rabs a * Rabs a) by (rewrite <- Rabs_mult, Rabs_right; [reflexivity|nra]). simpl. rewrite Rmult_1_r.
      replace (a / Rabs a * (a / Rabs a)) with (a * a / (Rabs a * Rabs a)) by (field; lra). rewrite Q. field. lra. }
    induction n; auto. cbn [repeat map]. now rewrite E, IHn. }
  rewrite SQ. destruct n as [|[|n]]; try lia.
  assert (LO : forall m g, act_loop ca 1 g 1 (repeat 1 m) = repeat 1 m).
  { induction m; intros g; auto. cbn [repeat act_loop]. unfold act_coeff. destruct (Rlt_dec 1 0); [lra|]. destruct (Rlt_dec 0 1); [|lra].
    replace (1 * 1 + (1 - 1) * g) with 1 by ring. f_equal. apply IHm. }
  change (repeat 1 (S (S n))) with (1 :: repeat 1 (S n)). cbn [act_gain]. rewrite LO.
  assert (A0 : above thr 0 = false) by (unfold above, to_db1, log10o; destruct (Req_EM_T 0 0); [reflexivity|easy]).
  assert (A1 : above thr 1 = true).
  { rewrite above_marked by lra. unfold marked. destruct (Rlt_dec 0 1); [|lra]. destruct (Rlt_dec _ 1) as [|N]; auto. exfalso. apply N.
    rewrite <- (Rpower_O 10) by lra. apply Rpower_lt; lra. }
  cbn [map]. rewrite A0. assert (MM : forall j, map (above thr) (repeat 1 j) = repeat true j) by (induction j; auto; cbn [repeat map]; now rewrite A1, IHj).
  rewrite MM. change (repeat a (S (S n))) with (a :: repeat a (S n)). cbn [select_mask negb map].
  assert (SM : forall j, select_mask (map negb (repeat true j)) (repeat a j) = []) by (induction j; auto).
  rewrite SM. rewrite assign_one.
  assert (exists r, assign_selection s1 (select_mask (repeat true (S n)) (repeat a (S n))) = Ok r \/ assign_selection s1 (select_mask (repeat true (S n)) (repeat a (S n))) = Err IndexError) as [rr [-> | ->]]; [|reflexivity|reflexivity].
  assert (SE : forall j, select_mask (repeat true j) (repeat a j) = repeat a j) by (induction j; simpl; congruence).
  rewrite SE. destruct n as [|n].
  + exists s1. right. reflexivity.
  + unfold assign_selection. cbn [repeat]. unfold set_data. rewrite (set_real _ _ _ (S (S n)) 1); try lia; [eexists; left; reflexivity|].
    apply shape1. simpl. now rewrite repeat_length.
Qed.
Print Assumptions C54_constant_raises_refuted.

(** Lowering the threshold never unmarks a sample; relative detection does not depend on the scale of the channel. *)
Theorem C54_threshold_monotone :
  forall (thr thr' ca cr : R) (rel : bool) (x : list R) (i : nat), thr' <= thr ->
  nth i (act_mask thr ca cr rel x) false = true -> nth i (act_mask thr' ca cr rel x) false = true.
Proof.
  intros thr thr' ca cr rel x i H.
  assert (M : forall l, nth i (map (above thr) l) false = true -> nth i (map (above thr') l) false = true).
  { intros l. destruct (Nat.lt_ge_cases i (length l)) as [Hi|Hi]; [|rewrite nth_overflow by (now rewrite map_length); discriminate].
    rewrite !(nth_indep (map _ l) false (above thr 0)) by now rewrite map_length. rewrite map_nth.
    rewrite (nth_indep _ (above thr 0) (above thr' 0)) by now rewrite map_length. rewrite map_nth. unfold above.
    destruct (to_db1 false (nth i l 0)); [|auto]. destruct (Rlt_dec thr r); [|discriminate]. destruct (Rlt_dec thr' r); [auto|lra]. }
  unfold act_mask. destruct rel; [destruct (Req_EM_T _ 0); auto|]; apply M.
Qed.
Print Assumptions C54_threshold_monotone.
Theorem C54_relative_scale :
  forall (thr ca cr c : R) (x : list R), c <> 0 -> act_mask thr ca cr true (map (fun v => v * c) x) = act_mask thr ca cr true x.
Proof.
  intros thr ca cr c x H. unfold act_mask. pose proof (Rabs_pos_lt c H) as P.
  assert (E : vpeak (map (fun v => v * c) x) = vpeak x * Rabs c).
  { induction x as [|a x IH]; simpl; [ring|]. rewrite IH, Rabs_mult. unfold Rmax. repeat destruct (Rle_dec _ _); nra. }
  rewrite E. destruct (Req_EM_T (vpeak x) 0) as [Z|Z].
  - destruct (Req_EM_T _ 0) as [|N]; [now rewrite map_map|]. exfalso. apply N. rewrite Z. ring.
  - destruct (Req_EM_T _ 0) as [N|_]; [apply Rmult_integral in N; destruct N; lra|]. f_equal. f_equal. rewrite map_map. apply map_ext. intros v.
    assert (Q : c * c = Rabs c * Rabs c) by (rewrite <- Rabs_mult, Rabs_right; [reflexivity|nra]). simpl. rewrite !Rmult_1_r.
    replace (v * c / (vpeak x * Rabs c) * (v * c / (vpeak x * Rabs c))) with (v / vpeak x * (v / vpeak x) * ((c * c) / (Rabs c * Rabs c))) by (field; lra).
    rewrite Q. field. lra.
Qed.
Print Assumptions C54_relative_scale.

Example C54_example :
  let s := mkSig [[1/1000; 1; -1; 1/1000; 1/1000]] None 1 false 48000%Z in
  sig_ok s 5 1 /\ py_index 1 0 = Some 0%nat /\
  exists d nz, activity_detector (-20) 0 false None 1 0 s = Ok (mkAct d nz [false; true; true; false; false] [true; false; false; true; true]) /\
   s_re d = [[1; -1]] /\ s_re nz = [[1/1000; 1/1000; 1/1000]].
Proof.
  cbv zeta. split; [constructor; simpl; auto; try easy; try lia; split; [reflexivity|repeat constructor]|]. split; [reflexivity|].
  unfold activity_detector. destruct (Rlt_dec (-20) 0); [|lra]. destruct (Rlt_dec 0 0); [lra|]. destruct (Rlt_dec 1 0); [lra|].
  unfold get_channels, set_data, set_time_data. cbn [resolve_all py_index ncols s_re length].
  change (py_index 1 0) with (Some 0%nat). cbn [map_data get_data select map nth i_re i_im i_int s_re s_im s_constr s_fs nrows ncols hd length Nat.eqb Nat.ltb Nat.leb andb option_map bind].
  set (ca := ema_factor _ _). assert (ER : ema_factor (0 / 1000) (IZR 48000) = 1).
  { unfold ema_factor. destruct (Req_EM_T (0 / 1000) 0) as [|N]; [reflexivity|]. exfalso. apply N. field. }
  rewrite ER. unfold act_mask. cbn [map act_gain act_loop].
  assert (AC : forall u, 0 < u -> act_coeff ca 1 u = 1) by (intros u Hu; unfold act_coeff; destruct (Rlt_dec u 0); [lra|]; destruct (Rlt_dec 0 u); [reflexivity|lra]).
  rewrite !AC by (simpl; lra).
  assert (MT : forall g, 1/100 < g -> above (-20) g = true).
  { intros g Hg. rewrite above_marked by lra. unfold marked. destruct (Rlt_dec 0 g); [|lra]. destruct (Rlt_dec _ g) as [|N]; auto. exfalso. apply N.
    replace (-20 / 10) with (- (2)) by field. rewrite Rpower_Ropp. replace 2 with (INR 2) by (simpl; ring). rewrite Rpower_pow by lra. simpl. lra. }
  assert (MF : forall g, 0 <= g < 1/100 -> above (-20) g = false).
  { intros g Hg. rewrite above_marked by lra. unfold marked. destruct (Rlt_dec 0 g); [|auto]. destruct (Rlt_dec _ g) as [N|]; auto. exfalso. revert N.
    replace (-20 / 10) with (- (2)) by field. rewrite Rpower_Ropp. replace 2 with (INR 2) by (simpl; ring). rewrite Rpower_pow by lra. simpl. lra. }
  rewrite (MF 0) by lra.
  match goal with |- context [[false; above _ ?a; above _ ?b; above _ ?c; above _ ?d]] =>
    rewrite (MT a) by (simpl; lra); rewrite (MT b) by (simpl; lra); rewrite (MF c) by (simpl; lra); rewrite (MF d) by (simpl; lra) end.
  cbn [select_mask map negb]. unfold assign_selection, set_data, set_time_data.
  cbn [i_re i_im i_int s_re s_im s_constr s_fs nrows ncols hd length Nat.eqb Nat.ltb Nat.leb andb option_map bind].
  eexists. eexists. split; [reflexivity|]. split; reflexivity.
Qed.
