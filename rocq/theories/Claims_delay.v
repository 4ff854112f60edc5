(** C37, C38: digital delay and musical rhythm. *)
From Coq Require Import Ascii String List Arith Lia Reals Lra Bool QArith Psatz.
From Verif Require Import Alg Spec M_dynamics M_delay Claims_dynamics.
Import ListNotations.
Local Open Scope R_scope.

(** ** C37 *)
(** Loop invariant: after the iterations d .. d+m-1, y obeys the recurrence below d+m and equals the input from there on. *)
Lemma delay_loop_spec d fb sat td : (0 < d)%nat -> forall m, (d + m <= Nat.max d (length td))%nat ->
  let y := fold_left (delay_body d fb sat) (seq d m) td in
  length y = length td /\ (forall i, (i < d)%nat \/ (d + m <= i)%nat -> nth i y 0 = nth i td 0) /\
  (forall i, (d <= i < d + m)%nat -> nth i y 0 = nth i td 0 + fb * sat (nth (i - d) y 0)).
Proof.
  intros Hd. induction m; intros Hm.
  - cbn. split; auto. split; auto. intros; lia.
  - rewrite seq_S, fold_left_app. cbv zeta. destruct (IHm ltac:(lia)) as (L & A & B). set (y := fold_left _ (seq d m) td) in *.
    cbn [fold_left]. unfold delay_body. rewrite upd_length. split; auto. split.
    + intros i Hi. rewrite nth_upd_neq by lia. apply A. lia.
    + intros i Hi. rewrite !nth_upd by lia.
      destruct (Nat.eqb_spec (i - d) (d + m)); [lia|].
      destruct (Nat.eqb_spec i (d + m)).
      * subst i. rewrite A by lia. reflexivity.
      * apply B. lia.
Qed.
Lemma delay_loop_zero fb sat td m : (m <= length td)%nat -> let y := fold_left (delay_body 0 fb sat) (seq 0 m) td in
  length y = length td /\ forall i, nth i y 0 = if (i <? m)%nat then nth i td 0 + fb * sat (nth i td 0) else nth i td 0.
Proof.
  induction m; intros Hm. cbn. auto. rewrite seq_S, fold_left_app. cbv zeta. destruct (IHm ltac:(lia)) as (L & A). set (y := fold_left _ (seq 0 m) td) in *.
  cbn [fold_left]. unfold delay_body. rewrite upd_length. split; auto. intros i. rewrite Nat.sub_0_r, nth_upd by lia. cbn [Nat.add].
  destruct (Nat.eqb_spec i m).
  - subst. rewrite A. rewrite Nat.ltb_irrefl. replace (m <? S m)%nat with true by (symmetry; apply Nat.ltb_lt; lia). reflexivity.
  - rewrite A. destruct (i <? m)%nat eqn:E1, (i <? S m)%nat eqn:E2; auto; rewrite ?Nat.ltb_lt, ?Nat.ltb_ge in *; lia.
Qed.
Lemma nth_pad (x : list R) p i : nth i (x ++ repeat 0 p) 0 = nth i x 0.
Proof.
  destruct (lt_dec i (length x)). now apply app_nth1. rewrite app_nth2 by lia. rewrite (nth_overflow x) by lia.
  destruct (lt_dec (i - length x) p). apply nth_repeat. apply nth_overflow. rewrite repeat_length. lia.
Qed.
Lemma delay_line_length d fb sat x : length (delay_line d fb sat x) = (length x + delay_padding d fb)%nat.
Proof.
  unfold delay_line, delay_loop. destruct d.
  - destruct (delay_loop_zero fb sat (x ++ repeat 0 (delay_padding 0 fb)) (length (x ++ repeat 0 (delay_padding 0 fb)) - 0) ltac:(lia)) as [L _].
    rewrite L, app_length, repeat_length. reflexivity.
  - destruct (delay_loop_spec (S d) fb sat (x ++ repeat 0 (delay_padding (S d) fb)) ltac:(lia) (length (x ++ repeat 0 (delay_padding (S d) fb)) - S d) ltac:(lia)) as [L _].
    rewrite L, app_length, repeat_length. reflexivity.
Qed.
(** Samples outside the input count as 0: the recurrence y[n] = x[n] + feedback * sat(y[n - d]). *)
Lemma delay_line_rec d fb sat x n : (0 < d)%nat -> (n < length x + delay_padding d fb)%nat ->
  nth n (delay_line d fb sat x) 0 = nth n x 0 + (if (n <? d)%nat then 0 else fb * sat (nth (n - d) (delay_line d fb sat x) 0)).
Proof.
  intros Hd Hn. unfold delay_line at 1 2, delay_loop. set (td := x ++ _).
  assert (L : length td = (length x + delay_padding d fb)%nat) by (unfold td; rewrite app_length, repeat_length; auto).
  destruct (delay_loop_spec d fb sat td Hd (length td - d) ltac:(lia)) as (_ & A & B).
  destruct (Nat.ltb_spec n d).
  - rewrite A by lia. unfold td. rewrite nth_pad. lra.
  - rewrite B by lia. unfold td at 1. now rewrite nth_pad.
Qed.
Lemma rsum_split_first f m : fold_right Rplus 0 (map f (seq 0 (S m))) = f 0%nat + fold_right Rplus 0 (map (fun k => f (S k)) (seq 0 m)).
Proof. cbn [seq map fold_right]. f_equal. rewrite <- seq_shift, map_map. reflexivity. Qed.

(** Sum of the echoes that have arrived up to sample n. *)
Definition echoes (d : nat) (fb : R) (x : list R) (n : nat) : R := fold_right Rplus 0 (map (fun k => fb ^ k * nth (n - k * d) x 0) (seq 0 (S (n / d)))).
Lemma echoes_rec d fb x n : (0 < d)%nat -> echoes d fb x n = nth n x 0 + (if (n <? d)%nat then 0 else fb * echoes d fb x (n - d)).
Proof.
  intros Hd. unfold echoes. rewrite rsum_split_first. cbn [pow Nat.mul]. rewrite Nat.sub_0_r, Rmult_1_l. f_equal.
  destruct (Nat.ltb_spec n d).
  - rewrite Nat.div_small by auto. reflexivity.
  - replace (n / d)%nat with (S ((n - d) / d)).
    2:{ replace n with ((n - d) + 1 * d)%nat at 2 by lia. rewrite Nat.div_add by lia. lia. }
    generalize (seq 0 (S ((n - d) / d))). intros l. induction l as [|k l IH]; cbn [map fold_right]. lra.
    rewrite IH. cbn [pow Nat.mul]. replace (n - (d + k * d))%nat with (n - d - k * d)%nat by lia. ring.
Qed.
Theorem C37_feedback_comb :
  forall d fb x n, (0 < d)%nat -> (n < length x + delay_padding d fb)%nat -> nth n (delay_line d fb sat_digital x) 0 = echoes d fb x n.
Proof.
  intros d fb x n Hd. induction n as [n IH] using lt_wf_ind. intros Hn. rewrite delay_line_rec, echoes_rec by auto.
  destruct (Nat.ltb_spec n d); auto. unfold sat_digital at 1. rewrite IH by lia. reflexivity.
Qed.
Print Assumptions C37_feedback_comb.
Lemma int_part_half r : 0 <= r -> (0 <= Int_part r)%Z.
Proof. intros H. destruct (base_Int_part r) as [A B]. assert (IZR (Int_part r) > -1) by lra. apply (lt_IZR (-1)) in H0. lia. Qed.
Lemma np_round_pos r : 0 <= r -> (0 < np_round r)%Z <-> 1 / 2 < r.
Proof.
  intros H. pose proof (int_part_half r H) as I. destruct (base_Int_part r) as [A B]. unfold np_round.
  assert (P : forall z, (0 <= z)%Z -> z = 0%Z \/ 1 <= IZR z). { intros z Hz. destruct (Z.eq_dec z 0); auto. right. apply (IZR_le 1). lia. }
  split.
  - destruct (Rlt_dec (r - IZR (Int_part r)) (1 / 2)).
    + intros Hp. apply (IZR_lt 0) in Hp. destruct (P _ I) as [E|E]; [rewrite E in Hp|]; lra.
    + destruct (Rlt_dec (1 / 2) (r - IZR (Int_part r))). intros _. apply IZR_le in I. lra.
      destruct (P _ I) as [E|E]; [|lra]. rewrite E. intros C; exfalso; revert C. simpl. lia.
  - intros Hr. destruct (Rlt_dec (r - IZR (Int_part r)) (1 / 2)).
    + destruct (P _ I) as [E|E]; [rewrite E in *; lra|]. apply (le_IZR 1) in E. lia.
    + destruct (Rlt_dec (1 / 2) (r - IZR (Int_part r))). lia. destruct (P _ I) as [E|E]; [rewrite E in *; lra|]. apply (le_IZR 1) in E.
      destruct (Z.even _); lia.
Qed.
Lemma padding_ge d fb : 0 < fb -> (d <= delay_padding d fb)%nat.
Proof.
  intros H. unfold delay_padding. pose proof (pos_INR d). set (r := INR d * (1 + fb * 15)). assert (INR d <= r) by (unfold r; nra).
  destruct (base_Int_part r) as [A B]. assert (IZR (Z.of_nat d) < IZR (Int_part r + 1)) by (rewrite plus_IZR, <- INR_IZR_INZ; lra).
  apply lt_IZR in H2. lia.
Qed.
(** The result has at least one delay of extra samples; it is longer than the input exactly when the delay exceeds half a sample. *)
Theorem C37_length :
  forall ms fs fb sat x, 0 < ms -> 0 < fs -> 0 < fb ->
  let d := delay_samples ms fs in
  (length x + d <= length (delay_line d fb sat x))%nat /\ ((length x < length (delay_line d fb sat x))%nat <-> 1 / 2 < ms / 1000 * fs).
Proof.
  intros ms fs fb sat x Hm Hf Hb d. rewrite delay_line_length. pose proof (padding_ge d fb Hb). split. lia.
  assert (Hr : 0 <= ms * (1 / 1000) * fs) by nra. pose proof (np_round_pos _ Hr) as P. replace (ms / 1000 * fs) with (ms * (1 / 1000) * fs) by lra.
  rewrite <- P. unfold d in *. unfold delay_samples in *. destruct (Z_lt_dec 0 (np_round (ms * (1 / 1000) * fs))).
  - split; auto. intros _. lia.
  - split; [|tauto]. replace (Z.to_nat (np_round (ms * (1 / 1000) * fs))) with 0%nat by lia. unfold delay_padding. simpl INR. rewrite Rmult_0_l.
    replace (Int_part 0) with 0%Z. lia. unfold Int_part. replace (up 0) with 1%Z; auto. apply tech_up; simpl; lra.
Qed.
Print Assumptions C37_length.
(** A delay below half a sample does not delay: it only scales before the peak is restored. *)
Theorem C37_zero_delay : forall fb x, delay_line 0 fb sat_digital x = map (fun v => (1 + fb) * v) x.
Proof.
  intros fb x. assert (P : delay_padding 0 fb = 0%nat). { unfold delay_padding. simpl INR. rewrite Rmult_0_l. replace (Int_part 0) with 0%Z; auto. unfold Int_part. replace (up 0) with 1%Z; auto. apply tech_up; simpl; lra. }
  apply (nth_ext _ _ 0 0). rewrite delay_line_length, map_length, P. lia. rewrite delay_line_length, P, Nat.add_0_r. intros n Hn.
  unfold delay_line, delay_loop. rewrite P. cbn [repeat]. rewrite app_nil_r.
  destruct (delay_loop_zero fb sat_digital x (length x - 0) ltac:(lia)) as [_ ->]. rewrite Nat.sub_0_r. apply Nat.ltb_lt in Hn as Hn'. rewrite Hn'.
  rewrite (nth_indep (map (fun v => (1 + fb) * v) x) 0 ((1 + fb) * 0)) by (rewrite map_length; auto). rewrite (map_nth (fun v => (1 + fb) * v)). unfold sat_digital. ring.
Qed.
Print Assumptions C37_zero_delay.
Lemma peak_zero x : peak x = 0 <-> forall n, nth n x 0 = 0.
Proof.
  split.
  - intros H n. destruct (lt_dec n (length x)); [|apply nth_overflow; lia]. pose proof (peak_bound x (nth n x 0) (nth_In _ _ l)). rewrite H in H0.
    pose proof (Rabs_pos (nth n x 0)). destruct (Req_dec (nth n x 0) 0); auto. apply Rabs_pos_lt in H2. lra.
  - intros H. destruct x as [|a t]; auto. destruct (peak_in (a :: t) ltac:(discriminate)) as (v & Hv & <-). destruct (In_nth _ _ 0 Hv) as (n & _ & <-). rewrite H. apply Rabs_R0.
Qed.
Lemma peak_scale c x : 0 <= c -> peak (map (fun v => v * c) x) = peak x * c.
Proof.
  intros Hc. induction x as [|a x IH]; cbn [map peak fold_right]. lra. fold (peak x). fold (peak (map (fun v => v * c) x)). rewrite IH, Rabs_mult, (Rabs_pos_eq c) by auto.
  unfold Rmax. destruct (Rle_dec (Rabs a) (peak x)), (Rle_dec (Rabs a * c) (peak x * c)); auto; nra.
Qed.
Lemma first_nz (x : list R) : (exists n, nth n x 0 <> 0) -> exists n, nth n x 0 <> 0 /\ forall k, (k < n)%nat -> nth k x 0 = 0.
Proof.
  intros [n Hn]. revert Hn. induction n as [n IH] using lt_wf_ind. intros Hn.
  destruct (Exists_dec (fun k => nth k x 0 <> 0) (seq 0 n)) as [E|E].
  { intros k. destruct (Req_EM_T (nth k x 0) 0); [right|left]; auto. }
  - apply Exists_exists in E as (k & Hk & Hx). apply in_seq in Hk. apply (IH k); auto; lia.
  - exists n. split; auto. intros k Hk. destruct (Req_EM_T (nth k x 0) 0); auto. exfalso. apply E. apply Exists_exists. exists k. split; auto. apply in_seq. lia.
Qed.
(** The whole effect keeps each channel's peak, is the delay line up to one positive factor, and turns a silent channel into nan. *)
Theorem C37_peak_kept :
  forall d fb sat x, 0 < fb -> (sat = sat_digital \/ (sat = sat_arctan /\ (0 < d)%nat)) ->
  ((exists n, nth n x 0 <> 0) -> exists y g, digital_delay d fb sat x = Some y /\ peak y = peak x /\ 0 < g /\ y = map (fun v => v * g) (delay_line d fb sat x)) /\
  ((forall n, nth n x 0 = 0) -> digital_delay d fb sat x = None).
Proof.
  intros d fb sat x Hb Hs.
  assert (S0 : sat 0 = 0). { destruct Hs as [->|[-> _]]; unfold sat_digital, sat_arctan; auto. rewrite Rmult_0_r, atan_0. lra. }
  assert (Y0 : forall n, (forall k, (k <= n)%nat -> nth k x 0 = 0) -> nth n (delay_line d fb sat x) 0 = 0).
  { destruct d as [|d].
    - assert (sat = sat_digital) as -> by (destruct Hs as [|[_ H]]; [auto|lia]). intros n Hn. rewrite C37_zero_delay.
      replace (nth n (map (fun v => (1 + fb) * v) x) 0) with ((1 + fb) * nth n x 0). rewrite Hn by lia; lra.
      rewrite <- (map_nth (fun v => (1 + fb) * v)). f_equal. lra.
    - induction n as [n IH] using lt_wf_ind. intros Hn. destruct (lt_dec n (length x + delay_padding (S d) fb)).
      + rewrite delay_line_rec by lia. rewrite Hn by lia. destruct (Nat.ltb_spec n (S d)). lra. rewrite IH, S0. lra. lia. intros; apply Hn; lia.
      + apply nth_overflow. rewrite delay_line_length. lia. }
  split.
  - intros Hx. destruct (first_nz x Hx) as (n & N & F). assert (Ln : (n < length x)%nat). { destruct (lt_dec n (length x)); auto. exfalso; apply N, nth_overflow; lia. }
    assert (P : peak (delay_line d fb sat x) <> 0).
    { intros C. apply (proj1 (peak_zero _)) with (n := n) in C. destruct d as [|d].
      - assert (sat = sat_digital) as E by (destruct Hs as [|[_ H]]; [auto|lia]). rewrite E, C37_zero_delay in C.
        replace (nth n (map (fun v => (1 + fb) * v) x) 0) with ((1 + fb) * nth n x 0) in C. nra.
        rewrite <- (map_nth (fun v => (1 + fb) * v)). f_equal. lra.
      - rewrite delay_line_rec in C by lia. destruct (Nat.ltb_spec n (S d)). lra. rewrite Y0, S0 in C. lra. intros; apply F; lia. }
    pose proof (peak_nonneg (delay_line d fb sat x)). pose proof (peak_nonneg x).
    assert (P' : peak x <> 0) by (intros C; apply N; now apply peak_zero).
    unfold digital_delay, restore_peak. destruct (Req_EM_T (peak (delay_line d fb sat x)) 0); [congruence|].
    assert (0 < peak x / peak (delay_line d fb sat x)) by (apply Rmult_lt_0_compat; [|apply Rinv_0_lt_compat]; lra).
    eexists. exists (peak x / peak (delay_line d fb sat x)). split; [reflexivity|]. split; auto. rewrite peak_scale by lra. field. lra.
  - intros Hx. unfold digital_delay, restore_peak. destruct (Req_EM_T (peak (delay_line d fb sat x)) 0) as [|C]; auto. exfalso; apply C. apply peak_zero. intros n. apply Y0. auto.
Qed.
Print Assumptions C37_peak_kept.
Example C37_example : 0 < 1 / 2 /\ (0 < 2)%nat /\ echoes 2 (1 / 2) [1; 0; 0] 4 = 1 / 4 /\ delay_padding 2 (1 / 2) = 17%nat.
Proof.
  split; [lra|]. split; [lia|]. split. unfold echoes. cbn. lra.
  unfold delay_padding. replace (INR 2 * (1 + 1 / 2 * 15)) with 17 by (simpl; lra). unfold Int_part. replace (up 17) with 18%Z; auto. apply tech_up; simpl; lra.
Qed.

(** Parameters: whatever the calls, the stored delay and feedback are positive; a call with None never succeeds
    (documented: None leaves the value unchanged); a refused feedback leaves the new delay behind; no callable is accepted as saturation. *)
Theorem C37_parameters :
  (forall s calls, 0 < fst s /\ 0 < snd s -> let s' := final delay_set s calls in 0 < fst s' /\ 0 < snd s') /\
  (forall s ms fb, (ms = None \/ fb = None) -> snd (delay_set s (ms, fb)) <> Ok tt) /\
  (forall s ms fb, snd (delay_set s (Some ms, Some fb)) = Ok tt <-> 0 < ms /\ 0 < fb) /\
  (forall s a, snd (delay_set s a) = Ok tt -> a = (Some (fst (fst (delay_set s a))), Some (snd (fst (delay_set s a))))) /\
  ~ (forall s a e, snd (delay_set s a) = Err e -> fst (delay_set s a) = s) /\
  (forall s ms fb, 0 < ms -> (forall f, fb = Some f -> f <= 0) -> fst (delay_set s (Some ms, fb)) = (ms, snd s)) /\
  (forall s ms fb, (forall m, ms = Some m -> m <= 0) -> fst (delay_set s (ms, fb)) = s) /\
  (forall f, set_advanced (SatFun f) = Err AttributeError).
Proof.
  assert (I : forall s a, 0 < fst s /\ 0 < snd s -> 0 < fst (fst (delay_set s a)) /\ 0 < snd (fst (delay_set s a))).
  { intros s [[ms|] [fb|]] H; unfold delay_set; cbn [fst snd]; try destruct (Rlt_dec 0 ms); try destruct (Rlt_dec 0 fb); cbn [fst snd]; tauto. }
  split; [|split; [|split; [|split; [|split; [|split; [|split]]]]]].
  - intros s calls. revert s. induction calls as [|a t IH]; intros s H; cbn; auto.
  - intros s ms fb H. unfold delay_set. cbn [fst snd]. destruct ms; [|discriminate]. destruct H as [H | ->]; [discriminate|]. destruct (Rlt_dec 0 r); discriminate.
  - intros s ms fb. unfold delay_set. cbn [fst snd]. destruct (Rlt_dec 0 ms); [destruct (Rlt_dec 0 fb)|]; cbn; split; try discriminate; auto; lra.
  - intros s [[ms|] [fb|]]; unfold delay_set; cbn [fst snd]; try destruct (Rlt_dec 0 ms); try destruct (Rlt_dec 0 fb); cbn [fst snd]; intros H; try discriminate H; reflexivity.
  - intros H. specialize (H (1, 1) (Some 2, None) TypeError). unfold delay_set in H. cbn [fst snd] in H. destruct (Rlt_dec 0 2); [|lra]. specialize (H eq_refl). injection H. lra.
  - intros s ms fb Hm Hf. unfold delay_set. cbn [fst snd]. destruct (Rlt_dec 0 ms); [|lra]. destruct fb as [f|]; auto. specialize (Hf f eq_refl). destruct (Rlt_dec 0 f); [lra|auto].
  - intros s ms fb Hm. unfold delay_set. cbn [fst snd]. destruct ms as [m|]; auto. specialize (Hm m eq_refl). destruct (Rlt_dec 0 m); [lra|auto].
  - reflexivity.
Qed.
Print Assumptions C37_parameters.

(** ** C38 *)
Local Open Scope string_scope.
Local Open Scope Q_scope.
Fixpoint has_space (s : string) : bool := match s with EmptyString => false | String a t => Ascii.eqb a " " || has_space t end.
Lemma prefix_app sub n w : has_space sub = false -> prefix sub (n ++ String " " w) = prefix sub n.
Proof.
  revert sub. induction n as [|a n IH]; intros sub H.
  - destruct sub as [|b sub]; auto. cbn [append prefix]. cbn [has_space] in H. apply orb_false_iff in H as [H _]. destruct (ascii_dec b " "); auto. subst. discriminate.
  - destruct sub as [|b sub]; auto. cbn [append prefix]. cbn [has_space] in H. apply orb_false_iff in H as [_ H]. destruct (ascii_dec b a); auto.
Qed.
Lemma contains_app sub n w : has_space sub = false -> contains sub (n ++ String " " w) = contains sub n || contains sub w.
Proof.
  intros H. induction n as [|a n IH].
  - cbn [append contains]. rewrite (prefix_app sub "" w H : prefix sub (String " " w) = prefix sub ""). now rewrite orb_false_r.
  - change (String a n ++ String " " w) with (String a (n ++ String " " w)). cbn [contains]. rewrite IH.
    rewrite (prefix_app sub (String a n) w H : prefix sub (String a (n ++ String " " w)) = prefix sub (String a n)). now rewrite orb_assoc.
Qed.
(** Two results of the same kind whose values stand in a fixed ratio. *)
Definition scaled (k : Q) (r r' : result Q) : Prop :=
  match r, r' with Ok f, Ok f' => f' == k * f | Err e, Err e' => e = e' | _, _ => False end.
Lemma freq_scale note note' bpm k : ~ k == 0 -> note_factor note' == k * note_factor note -> scaled (/ k) (rhythm_frequency note bpm) (rhythm_frequency note' bpm).
Proof.
  intros Hk H. unfold rhythm_frequency. destruct (Qeq_bool (note_factor note) 0) eqn:E.
  - apply Qeq_bool_iff in E. replace (Qeq_bool (note_factor note') 0) with true. reflexivity. symmetry. apply Qeq_bool_iff. rewrite H, E. ring.
  - apply Qeq_bool_neq in E. replace (Qeq_bool (note_factor note') 0) with false.
    2:{ symmetry. apply not_true_iff_false. rewrite Qeq_bool_iff, H. intros C. apply Qmult_integral in C. tauto. }
    destruct (Qeq_bool bpm 0) eqn:B. reflexivity. apply Qeq_bool_neq in B. unfold scaled. rewrite H. field. auto.
Qed.
(** Appending the suffix of a dotted or triplet duration scales the frequency by 2/3 or 3/2, whatever the rest of the string. *)
Theorem C38_dotted_and_triplets :
  forall note bpm,
  (contains "dotted" note = false -> scaled (2 # 3) (rhythm_frequency note bpm) (rhythm_frequency (note ++ " dotted") bpm)) /\
  (contains "3" note = false -> scaled (3 # 2) (rhythm_frequency note bpm) (rhythm_frequency (note ++ " 3") bpm)).
Proof.
  intros note bpm. split; intros H.
  - change (2 # 3) with (/ (3 # 2)). apply freq_scale. discriminate. unfold note_factor. rewrite !contains_app by reflexivity. rewrite H.
    replace (contains "dotted" "dotted") with true by reflexivity.
    replace (contains "quarter" "dotted") with false by reflexivity. replace (contains "half" "dotted") with false by reflexivity.
    replace (contains "whole" "dotted") with false by reflexivity. replace (contains "eighth" "dotted") with false by reflexivity.
    replace (contains "sixteenth" "dotted") with false by reflexivity. replace (contains "32th" "dotted") with false by reflexivity.
    replace (contains "quintuplet" "dotted") with false by reflexivity. replace (contains "3" "dotted") with false by reflexivity.
    rewrite !orb_false_r. cbn [orb]. ring.
  - change (3 # 2) with (/ (2 # 3)). apply freq_scale. discriminate. unfold note_factor. rewrite !contains_app by reflexivity. rewrite H.
    replace (contains "dotted" "3") with false by reflexivity.
    replace (contains "quarter" "3") with false by reflexivity. replace (contains "half" "3") with false by reflexivity.
    replace (contains "whole" "3") with false by reflexivity. replace (contains "eighth" "3") with false by reflexivity.
    replace (contains "sixteenth" "3") with false by reflexivity. replace (contains "32th" "3") with false by reflexivity.
    replace (contains "quintuplet" "3") with false by reflexivity. replace (contains "3" "3") with true by reflexivity.
    rewrite !orb_false_r. cbn [orb]. destruct (contains "dotted" note); ring.
Qed.
Print Assumptions C38_dotted_and_triplets.
(** Frequency and period are reciprocal; both fail together; the value is inversely proportional to the tempo. *)
Theorem C38_reciprocal :
  forall note bpm,
  match rhythm_frequency note bpm, rhythm_period note bpm with Ok f, Ok p => f * p == 1 | Err e, Err e' => e = e' | _, _ => False end.
Proof.
  intros note bpm. unfold rhythm_period, rhythm_frequency. destruct (Qeq_bool (note_factor note) 0) eqn:E. reflexivity. destruct (Qeq_bool bpm 0) eqn:B. reflexivity.
  apply Qeq_bool_neq in E, B. field. auto.
Qed.
Print Assumptions C38_reciprocal.
(** Lengths of the plain notes in quarters; the 32nd is left out: see below. *)
Definition plain_notes : list (string * Q) :=
  [("quarter", 1); ("half", 2); ("whole", 4); ("eighth", 1 # 2); ("sixteenth", 1 # 4); ("quintuplet", 1 # 5)].
(** The returned number is 60/bpm/length: the duration of one beat in seconds over the length. It halves when the note doubles, but it is the
    frequency bpm/60/length only at 60 beats per minute. *)
Theorem C38_plain_notes :
  forall name q bpm, In (name, q) plain_notes -> ~ bpm == 0 ->
  (exists f, rhythm_frequency name bpm = Ok f /\ f == 60 / (bpm * q) /\ (f == bpm / 60 / q <-> bpm * bpm == 3600)) /\
  (exists f, rhythm_frequency (name ++ " dotted") bpm = Ok f /\ f == 60 / (bpm * (q * (3 # 2)))) /\
  (exists f, rhythm_frequency (name ++ " 3") bpm = Ok f /\ f == 60 / (bpm * (q * (2 # 3)))).
Proof.
  intros name q bpm Hin Hb. assert (Hb' : Qeq_bool bpm 0 = false) by (apply not_true_iff_false; rewrite Qeq_bool_iff; auto).
  assert (F : note_factor name = q /\ note_factor (name ++ " dotted") == q * (3 # 2) /\ note_factor (name ++ " 3") == q * (2 # 3) /\ ~ q == 0).
  { cbn [plain_notes In] in Hin. repeat (destruct Hin as [[= <- <-]|Hin]; [repeat split; try reflexivity; discriminate|]). contradiction. }
  destruct F as (F1 & F2 & F3 & Hq). unfold rhythm_frequency. rewrite F1, Hb'. replace (Qeq_bool q 0) with false by (symmetry; apply not_true_iff_false; rewrite Qeq_bool_iff; auto).
  split; [|split].
  - eexists. split; [reflexivity|]. split. field; auto. split; intros H.
    + assert (E : 60 / bpm / q * (60 * bpm * q) == bpm / 60 / q * (60 * bpm * q)) by (rewrite H; reflexivity).
      transitivity (bpm / 60 / q * (60 * bpm * q)). field; auto. rewrite <- E. field; auto.
    + assert (E : bpm == 3600 / bpm) by (rewrite <- H; field; auto). rewrite E at 2. field; auto.
  - replace (Qeq_bool (note_factor (name ++ " dotted")) 0) with false. eexists. split; [reflexivity|]. rewrite F2. field; auto.
    symmetry; apply not_true_iff_false; rewrite Qeq_bool_iff, F2. intros C. apply Qmult_integral in C as [C|C]; [tauto|discriminate].
  - replace (Qeq_bool (note_factor (name ++ " 3")) 0) with false. eexists. split; [reflexivity|]. rewrite F3. field; auto.
    symmetry; apply not_true_iff_false; rewrite Qeq_bool_iff, F3. intros C. apply Qmult_integral in C as [C|C]; [tauto|discriminate].
Qed.
Print Assumptions C38_plain_notes.
Example C38_example : contains "dotted" "half" = false /\ rhythm_frequency "half dotted" 120 = Ok (60 / 120 / (2 * (3 # 2))) /\ rhythm_frequency "crotchet" 120 = Err ValueError.
Proof. repeat split; reflexivity. Qed.
(** The documented 32nd note is read as a triplet: its value is 3/2 of 60/bpm/(1/8) for every tempo. *)
Theorem C38_32nd_refuted :
  (forall bpm, ~ bpm == 0 -> exists f, rhythm_frequency "32th" bpm = Ok f /\ f == (3 # 2) * (60 / (bpm * (1 # 8)))) /\
  ~ (forall bpm f, rhythm_frequency "32th" bpm = Ok f -> f == 60 / (bpm * (1 # 8))).
Proof.
  split.
  - intros bpm Hb. unfold rhythm_frequency. replace (Qeq_bool (note_factor "32th") 0) with false by reflexivity.
    replace (Qeq_bool bpm 0) with false by (symmetry; apply not_true_iff_false; rewrite Qeq_bool_iff; auto). eexists. split; [reflexivity|].
    replace (note_factor "32th") with ((1 # 8) * (2 # 3)) by reflexivity. field; auto.
  - intros H. specialize (H 60 _ eq_refl). revert H. vm_compute. discriminate.
Qed.
Print Assumptions C38_32nd_refuted.
(** The tempo acts the wrong way round: a quarter note at 120 beats per minute recurs at 2 Hz, not at 1/2 Hz. *)
Theorem C38_tempo_refuted : ~ (forall bpm f, 0 < bpm -> rhythm_frequency "quarter" bpm = Ok f -> f == bpm / 60).
Proof. intros H. specialize (H 120 _ eq_refl eq_refl). revert H. vm_compute. discriminate. Qed.
Print Assumptions C38_tempo_refuted.
