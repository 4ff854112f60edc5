(** C56: the start of an impulse response and the descriptors computed from it. *)
From Coq Require Import List Arith Lia ZArith Bool Reals Lra.
From Verif Require Import Alg Spec Dft M_arrays M_signal M_latency M_dynamics M_level M_room Claims_level.
Import ListNotations.
Local Open Scope R_scope.

(** ** Specification *)
(** p is the position of the (first) largest magnitude. *)
Definition first_peak (x : list R) (p : nat) : Prop :=
  (p < length x)%nat /\ (forall j, (j < length x)%nat -> Rabs (get x j) <= Rabs (get x p)) /\
  (forall j, (j < p)%nat -> Rabs (get x j) < Rabs (get x p)).
(** i is where the response starts: between i and the peak everything reaches the threshold, and i itself is the last sample
    below it, or the first sample of all. *)
Definition starts_at (level : R) (x : list R) (p i : nat) : Prop :=
  (i <= p)%nat /\ (forall j, (i < j <= p)%nat -> level <= Rabs (get x j)) /\ (Rabs (get x i) < level \/ (i = 0%nat /\ level <= Rabs (get x 0))).
(** The energy of the samples i, ..., i + n - 1. *)
Definition energy (x : list R) (i n : nat) : R := rsum n (fun k => get x (i + k) * get x (i + k)).

(** ** Auxiliary facts *)
Lemma argmax_go_spec l : forall i bi b, let r := argmax_go l i bi b in
  (r = bi /\ (forall j, (j < length l)%nat -> nth j l 0 <= b)) \/
  ((i <= r < i + length l)%nat /\ b < nth (r - i) l 0 /\ (forall j, (j < length l)%nat -> nth j l 0 <= nth (r - i) l 0) /\
   (forall j, (j < r - i)%nat -> nth j l 0 < nth (r - i) l 0)).
Proof.
  induction l as [|v t IH]; intros i bi b; cbn [argmax_go]. left. split; auto. simpl. lia.
  destruct (Rlt_dec b v) as [H|H].
  - specialize (IH (S i) i v). cbn zeta in *. set (r := argmax_go t (S i) i v) in *. right. destruct IH as [(E & A)|(B1 & B2 & B3 & B4)].
    + rewrite E, Nat.sub_diag. cbn [length nth]. repeat split; auto; try lia. intros [|j] Hj; cbn [nth]; try lra. apply A. lia.
    + replace (r - i)%nat with (S (r - S i)) by lia. cbn [length nth]. repeat split; try lia; try lra.
      * intros [|j] Hj; cbn [nth]. lra. apply B3. lia.
      * intros [|j] Hj; cbn [nth]. lra. apply B4. lia.
  - apply Rnot_lt_le in H. specialize (IH (S i) bi b). cbn zeta in *. set (r := argmax_go t (S i) bi b) in *. destruct IH as [(E & A)|(B1 & B2 & B3 & B4)].
    + left. split; auto. intros [|j] Hj; cbn [nth]; auto. apply A. simpl in Hj. lia.
    + right. replace (r - i)%nat with (S (r - S i)) by lia. cbn [length nth]. repeat split; try lia; try lra.
      * intros [|j] Hj; cbn [nth]. lra. apply B3. lia.
      * intros [|j] Hj; cbn [nth]. lra. apply B4. lia.
Qed.
Lemma argmax_spec l : l <> [] -> let r := argmax l in (r < length l)%nat /\ (forall j, (j < length l)%nat -> nth j l 0 <= nth r l 0) /\
  (forall j, (j < r)%nat -> nth j l 0 < nth r l 0).
Proof.
  destruct l as [|v t]; intros N; [congruence|]. cbn [argmax]. destruct (argmax_go_spec t 1 0 v) as [(E & A)|(B1 & B2 & B3 & B4)]; cbn zeta in *.
  - rewrite E. cbn [length nth]. repeat split; try lia. intros [|j] Hj; cbn [nth]; try lra. apply A. lia. 
  - set (r := argmax_go t 1 0 v) in *. destruct r as [|r]; [lia|]. replace (S r - 1)%nat with r in * by lia. cbn [length nth]. repeat split; try lia.
    + intros [|j] Hj; cbn [nth]. lra. apply B3. lia.
    + intros [|j] Hj; cbn [nth]. lra. apply B4. lia.
Qed.
Lemma get_abs x j : get (map Rabs x) j = Rabs (get x j).
Proof. unfold get. rewrite <- (Rabs_R0) at 1. apply map_nth. Qed.
Lemma first_peak_argmax x : x <> [] -> first_peak x (argmax (map Rabs x)).
Proof.
  intros N. destruct (argmax_spec (map Rabs x)) as (H1 & H2 & H3). { destruct x; [congruence|discriminate]. }
  rewrite map_length in *. unfold first_peak. split; auto. split; intros j Hj; rewrite <- !get_abs; unfold get; [apply H2|apply H3]; auto.
Qed.
Lemma first_peak_unique x p q : first_peak x p -> first_peak x q -> p = q.
Proof.
  intros (A1 & A2 & A3) (B1 & B2 & B3). destruct (lt_eq_lt_dec p q) as [[H|H]|H]; auto.
  - specialize (B3 p H). specialize (A2 q B1). lra.
  - specialize (A3 q H). specialize (B2 p A1). lra.
Qed.
Lemma back_spec x thr p : (p < length x)%nat -> starts_at thr x p (back (map Rabs x) thr p).
Proof.
  induction p as [|p IH]; intros H; cbn [back]; rewrite get_abs; destruct (Rlt_dec _ _) as [L|L]; unfold starts_at.
  - repeat split; auto. intros; lia.
  - apply Rnot_lt_le in L. repeat split; auto. intros; lia.
  - repeat split; auto. intros; lia.
  - apply Rnot_lt_le in L. destruct IH as (A & B & D). lia. split. lia. split; auto. intros j Hj.
    destruct (Nat.eq_dec j (S p)) as [->|]; auto. apply B. lia.
Qed.
Lemma starts_unique thr x p i j : starts_at thr x p i -> starts_at thr x p j -> i = j.
Proof.
  intros (A1 & A2 & A3) (B1 & B2 & B3). destruct (lt_eq_lt_dec i j) as [[H|H]|H]; auto.
  - destruct B3 as [B3|[B3 _]]; [|lia]. specialize (A2 j ltac:(lia)). lra.
  - destruct A3 as [A3|[A3 _]]; [|lia]. specialize (B2 i ltac:(lia)). lra.
Qed.
Lemma find_start_iff thr x i : x <> [] -> find_ir_start1 thr x = Ok i <->
  exists p, first_peak x p /\ starts_at (Rabs (get x p) * from_db true (- Rabs thr)) x p i.
Proof.
  intros N. pose proof (first_peak_argmax x N) as FP. set (p := argmax (map Rabs x)) in *.
  assert (E : find_ir_start1 thr x = Ok (back (map Rabs x) (Rabs (get x p) * from_db true (- Rabs thr)) p)).
  { destruct x; [congruence|]. unfold find_ir_start1. fold p. now rewrite get_abs. }
  rewrite E. assert (Hp : (p < length x)%nat) by apply FP. pose proof (back_spec x (Rabs (get x p) * from_db true (- Rabs thr)) p Hp) as B. split.
  - intros [= <-]. exists p. auto.
  - intros (q & Q & S). rewrite (first_peak_unique _ _ _ Q FP) in S. f_equal. eapply starts_unique; eauto.
Qed.
Lemma esum_energy x : esum x = energy x 0 (length x).
Proof.
  unfold energy. assert (G : forall y k, rsum k (fun i => get y i * get y i) = esum (firstn k y)).
  { induction y as [|v t IH]; intros k.
    - rewrite firstn_nil. cbn [esum fold_right]. induction k; cbn [sum]; auto. rewrite IHk. unfold get. destruct k; cbn; ring.
    - destruct k. reflexivity. rewrite sum_S_front. cbn [firstn esum fold_right]. rewrite <- IH. reflexivity. }
  rewrite <- (firstn_all x) at 1. rewrite <- G. reflexivity.
Qed.
Lemma get_skip (x : list R) i k : get (skipn i x) k = get x (i + k).
Proof. unfold get. revert x. induction i; intros x; auto. destruct x; simpl. destruct k; auto. apply IHi. Qed.
Lemma get_first (x : list R) n k : (k < n)%nat -> get (firstn n x) k = get x k.
Proof. unfold get. revert n k. induction x; intros [|n] [|k] H; simpl; auto; try lia. apply IHx. lia. Qed.
Lemma esum_cut x i n : esum (firstn n (skipn i x)) = energy x i n.
Proof.
  rewrite esum_energy. unfold energy. destruct (Nat.le_gt_cases n (length (skipn i x))) as [H|H].
  - rewrite firstn_length_le by auto. apply sum_ext. intros k Hk. cbn [Nat.add]. rewrite get_first by auto. now rewrite get_skip.
  - rewrite firstn_all2 by lia. rewrite (sum_trunc (length (skipn i x)) n) by (try lia; intros k Hk; rewrite <- get_skip;
      rewrite (get_out (HA := CRing_R)) by lia; cbn; ring).
    apply sum_ext. intros k Hk. cbn [Nat.add]. now rewrite get_skip.
Qed.
Lemma energy_pos x i n : 0 <= energy x i n.
Proof. unfold energy. induction n; cbn [sum]. cbn. lra. cbn in *. nra. Qed.
Lemma energy_split x i n m : energy x i (n + m) = energy x i n + energy x (i + n) m.
Proof. unfold energy. rewrite sum_split. cbn [radd CRing_R]. f_equal. apply sum_ext. intros k _. now rewrite Nat.add_assoc. Qed.
Lemma energy_mono x i n m : (n <= m)%nat -> energy x i n <= energy x i m.
Proof. intros H. replace m with (n + (m - n))%nat by lia. rewrite energy_split. pose proof (energy_pos x (i + n) (m - n)). lra. Qed.
Lemma energy_beyond x i n : (length x - i <= n)%nat -> energy x i n = energy x i (length x - i).
Proof.
  intros H. unfold energy. apply sum_trunc; auto. intros k Hk. rewrite (get_out (HA := CRing_R)) by lia. cbn. ring.
Qed.

(** ** The start of the response *)
Theorem C56_start thr x i : x <> [] ->
  (find_ir_start1 thr x = Ok i <-> exists p, first_peak x p /\ starts_at (Rabs (get x p) * Rpower 10 (- Rabs thr / 20)) x p i) /\
  exists j, find_ir_start1 thr x = Ok j.
Proof.
  intros N. split. now apply find_start_iff. destruct x; [congruence|]. eexists. reflexivity.
Qed.
Print Assumptions C56_start.
Lemma small_dB : Rpower 10 (- Rabs (-20) / 20) = / 10.
Proof.
  rewrite Rabs_left by lra. replace (- - -20 / 20) with (- (1)) by field. rewrite Rpower_Ropp, Rpower_1 by lra. reflexivity.
Qed.
Example C56_start_example : find_ir_start1 (-20) [0; 1/20; 1/2; -1; 1/3] = Ok 1%nat.
Proof.
  apply C56_start. discriminate. exists 3%nat. rewrite small_dB. split.
  - unfold first_peak. cbn [length]. repeat split; try lia; intros j Hj; do 5 (destruct j as [|j]; [first [lia | cbn; unfold Rabs; repeat destruct (Rcase_abs _); lra]|]); lia.
  - unfold starts_at. split. lia. split.
    + intros j Hj. do 4 (destruct j as [|j]; [first [lia | cbn; unfold Rabs; repeat destruct (Rcase_abs _); lra]|]). lia.
    + left. cbn. unfold Rabs. repeat destruct (Rcase_abs _); lra.
Qed.

(** ** D50 *)
(** Samples regarded by a descriptor: up to the trimming index, but at least the window, or up to the end. *)
Definition regarded (trim : list R -> option nat) (w : nat) (x : list R) (i : nat) : nat :=
  match trim (skipn i x) with Some s => Nat.max w s | None => (length x - i)%nat end.
(** D50 is the fraction of the energy that arrives within 50 ms of the start, between 0 and 1; a response without energy gives
    nan. *)
Theorem C56_d50 fs trim x i : x <> [] -> find_ir_start1 (-20) x = Ok i ->
  let w := (50 * fs / 1000)%nat in let total := energy x i (regarded trim w x i) in
  (total <> 0 -> exists d, d50 fs trim x = Ok (Some d) /\ 0 <= d <= 1 /\ d * total = energy x i w) /\
  (total = 0 -> d50 fs trim x = Ok None).
Proof.
  intros N E w total. unfold d50. rewrite E. cbn [bind]. fold (ms_window 50 fs). change (ms_window 50 fs) with w.
  rewrite !esum_cut. unfold total, regarded in *. rewrite <- (skipn_length i x).
  set (stop := match trim (skipn i x) with Some s => Nat.max w s | None => length (skipn i x) end) in *.
  assert (M : energy x i w <= energy x i stop).
  { unfold stop. destruct (trim (skipn i x)). apply energy_mono. lia. rewrite skipn_length. destruct (Nat.le_gt_cases w (length x - i)).
    now apply energy_mono. rewrite energy_beyond by lia. lra. }
  pose proof (energy_pos x i w) as P. pose proof (energy_pos x i stop) as Pt. split.
  - intros T. exists (energy x i w / energy x i stop). unfold div_opt. destruct (Req_EM_T _ 0); [contradiction|]. split; [reflexivity|].
    assert (0 < energy x i stop) by lra. split; [split|].
    + apply Rmult_le_pos; auto. apply Rlt_le, Rinv_0_lt_compat; lra.
    + apply Rmult_le_reg_r with (energy x i stop); auto. unfold Rdiv. rewrite Rmult_assoc, Rinv_l by lra. lra.
    + field. lra.
  - intros T. unfold div_opt. destruct (Req_EM_T _ 0); [reflexivity|contradiction].
Qed.
Print Assumptions C56_d50.
(** Without trimming every response with a sample other than zero has a D50. *)
Theorem C56_d50_exists fs x : (exists j, get x j <> 0) -> exists d, d50 fs (fun _ => None) x = Ok (Some d) /\ 0 <= d <= 1.
Proof.
  intros (j & Hj). assert (Lj : (j < length x)%nat).
  { destruct (Nat.lt_ge_cases j (length x)) as [|G]; auto. exfalso. apply Hj. now apply (get_out (HA := CRing_R)). }
  assert (N : x <> []) by (intros ->; simpl in Lj; lia).
  destruct (C56_start (-20) x 0 N) as [_ (i & Ei)]. pose proof (proj1 (find_start_iff _ _ _ N) Ei) as (p & FP & SA).
  destruct (C56_d50 fs (fun _ => None) x i N Ei) as [G _]. destruct G as (d & E & B & _); eauto.
  unfold regarded. destruct FP as (P1 & P2 & _). destruct SA as (S1 & _).
  assert (Hp : 0 < get x p * get x p).
  { specialize (P2 j Lj). assert (0 < Rabs (get x j)) by (now apply Rabs_pos_lt). assert (get x p <> 0). { intros Z. rewrite Z, Rabs_R0 in P2. lra. } nra. }
  pose proof (energy_mono x i (S (p - i)) (length x - i) ltac:(lia)) as M.
  replace (S (p - i)) with ((p - i) + 1)%nat in M by lia. rewrite energy_split in M. pose proof (energy_pos x i (p - i)).
  assert (Q : energy x (i + (p - i)) 1 = get x p * get x p). { unfold energy. cbn [sum]. replace (i + (p - i) + 0)%nat with p by lia. cbn. ring. }
  lra.
Qed.
Print Assumptions C56_d50_exists.
Example C56_d50_example : exists j, get [0; 0; 1; 0] j <> 0.
Proof. exists 2%nat. cbn. lra. Qed.

(** ** C80 *)
Lemma to_db_power r : 0 < r -> to_db1 false (Rabs r) = Some (10 * (ln r / ln 10)).
Proof. intros H. rewrite Rabs_pos_eq by lra. unfold to_db1, log10o. destruct (Req_EM_T r 0); [lra|]. reflexivity. Qed.
(** C80 is ten times the decadic logarithm of the energy within 80 ms over the energy after them, that is of D / (1 - D) with
    D the fraction within 80 ms; a positive C80 means that the early part prevails. *)
Theorem C56_c80 fs trim x i : x <> [] -> find_ir_start1 (-20) x = Ok i ->
  let w := (80 * fs / 1000)%nat in let early := energy x i w in let late := energy x (i + w) (regarded trim w x i - w) in
  0 < early -> 0 < late ->
  exists c, c80 fs trim x = Ok (Some c) /\ Rpower 10 (c / 10) = early / late /\
    (let D := early / (early + late) in c = 10 * (ln (D / (1 - D)) / ln 10)) /\ (0 < c <-> late < early).
Proof.
  intros N E w early late Pe Pl. unfold c80. rewrite E. cbn [bind]. change (ms_window 80 fs) with w. rewrite esum_cut.
  assert (SK : skipn w (skipn i x) = skipn (i + w) x).
  { clear. revert i. induction x as [|v t IH]; intros [|i]; cbn [skipn Nat.add]; auto. now rewrite !skipn_nil. }
  rewrite SK, esum_cut. fold early.
  match goal with |- context [energy x (i + w) ?m] => assert (EL : energy x (i + w) m = late) by (unfold late, regarded; now rewrite <- (skipn_length i x)); rewrite EL; clear EL end.
  unfold div_opt. destruct (Req_EM_T late 0); [lra|]. rewrite to_db_power by now apply Rdiv_lt_0_compat.
  eexists. split; [reflexivity|]. assert (L10 : 0 < ln 10) by (rewrite <- ln_1; apply ln_increasing; lra). split; [|split].
  - unfold Rpower. replace (10 * (ln (early / late) / ln 10) / 10 * ln 10) with (ln (early / late)) by (field; lra).
    apply exp_ln. now apply Rdiv_lt_0_compat.
  - cbv zeta. f_equal. f_equal. f_equal. field. lra.
  - split.
    + intros H. assert (0 < ln (early / late)). { assert (0 < ln (early / late) / ln 10) by lra. apply Rmult_lt_compat_r with (r := ln 10) in H0; auto. unfold Rdiv in H0. rewrite Rmult_assoc, Rinv_l in H0; lra. }
      rewrite <- ln_1 in H0. apply ln_lt_inv in H0; try lra. 2: now apply Rdiv_lt_0_compat.
      apply Rmult_lt_compat_r with (r := late) in H0; auto. unfold Rdiv in H0. rewrite Rmult_assoc, Rinv_l in H0; lra.
    + intros H. apply Rmult_lt_0_compat. lra. apply Rdiv_lt_0_compat; auto. rewrite <- ln_1. apply ln_increasing. lra.
      apply Rmult_lt_reg_r with late; auto. unfold Rdiv. rewrite Rmult_assoc, Rinv_l; lra.
Qed.
Print Assumptions C56_c80.
(** At 25 Hz, 80 ms are two samples. *)
Example C56_c80_example : find_ir_start1 (-20) [0; 1/20; 1/2; -1; 1/3] = Ok 1%nat /\ (80 * 25 / 1000 = 2)%nat /\
  0 < energy [0; 1/20; 1/2; -1; 1/3] 1 2 /\ 0 < energy [0; 1/20; 1/2; -1; 1/3] 3 (4 - 2).
Proof. split. exact C56_start_example. split. reflexivity. split; unfold energy; cbn; lra. Qed.

(** ** Centre time *)
Definition moment (x : list R) (i n : nat) : R := rsum n (fun k => INR k * (get x (i + k) * get x (i + k))).
Lemma fold_plus_rsum l : fold_right Rplus 0 l = rsum (length l) (get l).
Proof. induction l as [|v t IH]; auto. cbn [fold_right length]. rewrite IH. rewrite sum_S_front. reflexivity. Qed.
Lemma combine_get (e t : list R) k : length e = length t -> (k < length e)%nat -> get (map (fun p => fst p * snd p) (combine e t)) k = get e k * get t k.
Proof.
  intros L H. unfold get. rewrite (nth_indep _ r0 (fst (0, 0) * snd (0, 0))) by (rewrite map_length, combine_length; lia).
  rewrite (map_nth (fun p => fst p * snd p)). now rewrite combine_nth.
Qed.
(** What the function returns, for n regarded samples: the centre of gravity of the energy, stretched by n / (n - 1), because the
    time vector of n samples runs up to n / fs. *)
Theorem C56_centre_time fs trim x i : x <> [] -> find_ir_start1 (-20) x = Ok i -> (0 < fs)%nat ->
  let n := Nat.min (match trim (skipn i x) with Some s => s | None => length x - i end) (length x - i) in
  (2 <= n)%nat -> energy x i n <> 0 ->
  centre_time fs trim x = Ok (Some (moment x i n / (INR fs * energy x i n) * (INR n / (INR n - 1)))).
Proof.
  intros N E HF n Hn T. unfold centre_time. rewrite E. cbn [bind]. unfold stop_index. rewrite (skipn_length i x).
  set (st := match trim (skipn i x) with Some s => s | None => (length x - i)%nat end) in *.
  assert (Len : length (firstn st (skipn i x)) = n) by (rewrite firstn_length, skipn_length; reflexivity).
  rewrite map_length, Len. set (e := map (fun v => v * v) (firstn st (skipn i x))).
  assert (Le : length e = n) by (unfold e; now rewrite map_length).
  assert (Ge : forall k, (k < n)%nat -> get e k = get x (i + k) * get x (i + k)).
  { intros k Hk. unfold e, get. rewrite (nth_indep _ r0 (0 * 0)) by (rewrite map_length; lia). rewrite (map_nth (fun v => v * v)).
    change (nth k (firstn st (skipn i x)) 0) with (get (firstn st (skipn i x)) k). rewrite get_first by lia. now rewrite get_skip. }
  assert (Es : fold_right Rplus 0 e = energy x i n). { rewrite fold_plus_rsum, Le. apply sum_ext. intros; auto. }
  rewrite Es. unfold div_opt. destruct (Req_EM_T _ 0); [contradiction|]. f_equal. f_equal.
  set (t := time_vector n (INR fs)).
  assert (Lt : length t = n). { unfold t, time_vector, linspace. destruct n as [|[|n']]; try lia. apply mk_length. }
  assert (F0 : INR fs <> 0) by (apply not_0_INR; lia). assert (N1 : INR n - 1 <> 0). { replace (INR n - 1) with (INR (n - 1)) by (rewrite minus_INR by lia; reflexivity). apply not_0_INR. lia. }
  assert (Gt : forall k, (k < n)%nat -> get t k = INR k * (INR n / (INR fs * (INR n - 1)))).
  { intros k Hk. unfold t, time_vector, linspace. destruct n as [|[|n']]; try lia. rewrite get_mk by lia. rewrite minus_INR by lia. change (INR 1) with 1. field. auto. }
  rewrite fold_plus_rsum, map_length, combine_length, Le, Lt, Nat.min_id.
  transitivity (moment x i n * (INR n / (INR fs * (INR n - 1))) / energy x i n).
  - f_equal. unfold moment. rewrite <- (sum_scal_r (HA := CRing_R)). apply sum_ext. intros k Hk. rewrite combine_get by lia. rewrite Ge, Gt by lia. cbn. ring.
  - field. repeat split; auto.
Qed.
Print Assumptions C56_centre_time.
Example C56_centre_time_example : find_ir_start1 (-20) [0; 1/20; 1/2; -1; 1/3] = Ok 1%nat /\ (2 <= Nat.min (5 - 1) (5 - 1))%nat /\
  energy [0; 1/20; 1/2; -1; 1/3] 1 4 <> 0.
Proof. split. exact C56_start_example. split. simpl; lia. unfold energy. cbn. lra. Qed.

(** The centre time in seconds: the energy-weighted mean of the times k / fs. The function does not return it. *)
Definition true_centre (fs : nat) (x : list R) (i : nat) : R := moment x i (length x - i) / (INR fs * energy x i (length x - i)).
Lemma two_start : find_ir_start1 (-20) [0; 1] = Ok 0%nat.
Proof.
  apply C56_start. discriminate. exists 1%nat. rewrite small_dB. split.
  - unfold first_peak. cbn [length]. repeat split; try lia; intros j Hj; do 2 (destruct j as [|j]; [first [lia | cbn; unfold Rabs; repeat destruct (Rcase_abs _); lra]|]); lia.
  - unfold starts_at. split. lia. split.
    + intros j Hj. replace j with 1%nat by lia. cbn. unfold Rabs. repeat destruct (Rcase_abs _); lra.
    + left. cbn. unfold Rabs. repeat destruct (Rcase_abs _); lra.
Qed.
Theorem C56_centre_time_refuted :
  ~ (forall fs x i, x <> [] -> (0 < fs)%nat -> find_ir_start1 (-20) x = Ok i -> energy x i (length x - i) <> 0 ->
       centre_time fs (fun _ => None) x = Ok (Some (true_centre fs x i))).
Proof.
  intros H. specialize (H 1%nat [0; 1] 0%nat ltac:(discriminate) ltac:(lia) two_start).
  assert (En : energy [0; 1] 0 2 = 1) by (unfold energy; cbn; ring). assert (Mo : moment [0; 1] 0 2 = 1) by (unfold moment; cbn; ring).
  pose proof (C56_centre_time 1 (fun _ => None) [0; 1] 0 ltac:(discriminate) two_start ltac:(lia)) as L. cbn [length Nat.sub Nat.min] in L, H.
  rewrite L in H by (try lia; rewrite En; lra). unfold true_centre in H. cbn [length Nat.sub] in H. rewrite En, Mo in H. specialize (H ltac:(lra)).
  injection H as H. simpl in H. lra.
Qed.
Print Assumptions C56_centre_time_refuted.

(** ** Invariances *)
Definition amplify (c : R) (x : list R) : list R := map (fun v => c * v) x.
Lemma get_amplify c x k : get (amplify c x) k = c * get x k.
Proof. unfold get, amplify. replace r0 with (c * 0) at 1 by (cbn; ring). apply map_nth. Qed.
Lemma start_amplify thr c x : c <> 0 -> find_ir_start1 thr (amplify c x) = find_ir_start1 thr x.
Proof.
  intros Hc. destruct x as [|v t] eqn:X; [reflexivity|]. rewrite <- X. assert (N : x <> []) by (subst; discriminate). clear X v t.
  destruct (C56_start thr x 0 N) as [_ (i & Ei)]. rewrite Ei. apply find_start_iff. { destruct x; [congruence|discriminate]. }
  apply find_start_iff in Ei; auto. destruct Ei as (p & (P1 & P2 & P3) & (S1 & S2 & S3)). assert (Pc : 0 < Rabs c) by now apply Rabs_pos_lt.
  exists p. unfold first_peak, starts_at. unfold amplify at 1 2. rewrite map_length. repeat split; auto.
  - intros j Hj. rewrite !get_amplify, !Rabs_mult. apply Rmult_le_compat_l; auto. lra.
  - intros j Hj. rewrite !get_amplify, !Rabs_mult. apply Rmult_lt_compat_l; auto.
  - intros j Hj. rewrite !get_amplify, !Rabs_mult, Rmult_assoc. apply Rmult_le_compat_l; auto. lra.
  - rewrite !get_amplify, !Rabs_mult, Rmult_assoc. destruct S3 as [S3|[-> S3]].
    + left. apply Rmult_lt_compat_l; auto.
    + right. split; auto. apply Rmult_le_compat_l; auto. lra.
Qed.
Lemma amplify_skipn c x i : skipn i (amplify c x) = amplify c (skipn i x).
Proof. apply skipn_map. Qed.
Lemma amplify_firstn c x i : firstn i (amplify c x) = amplify c (firstn i x).
Proof. apply firstn_map. Qed.
Lemma amplify_length c x : length (amplify c x) = length x.
Proof. apply map_length. Qed.
Lemma esum_amplify c x : esum (amplify c x) = c * c * esum x.
Proof. induction x as [|v t IH]; cbn [amplify map esum fold_right]. ring. unfold esum, amplify in IH. rewrite IH. unfold esum. ring. Qed.
Lemma div_opt_scale k a b : k <> 0 -> div_opt (k * a) (k * b) = div_opt a b.
Proof.
  intros Hk. unfold div_opt. destruct (Req_EM_T b 0) as [->|Hb].
  - rewrite Rmult_0_r. destruct (Req_EM_T 0 0); [reflexivity|lra].
  - destruct (Req_EM_T (k * b) 0) as [Z|_]. { apply Rmult_integral in Z. lra. } f_equal. field. auto.
Qed.
(** The descriptors do not depend on the gain of the measurement, as long as the trimming does not. *)
Theorem C56_gain d fs trim c x : c <> 0 -> (forall y, trim (amplify c y) = trim y) -> desc1 d fs trim (amplify c x) = desc1 d fs trim x.
Proof.
  intros Hc Ht. assert (K : c * c <> 0) by nra. destruct d; cbn [desc1]; unfold d50, c80, centre_time; rewrite start_amplify by auto;
    destruct (find_ir_start1 (-20) x) as [i|e]; auto; cbn [bind]; rewrite amplify_skipn, Ht.
  - rewrite amplify_length. rewrite !amplify_firstn, !esum_amplify, div_opt_scale by auto. reflexivity.
  - rewrite amplify_length. rewrite !amplify_skipn, !amplify_firstn, !esum_amplify, div_opt_scale by auto. reflexivity.
  - unfold stop_index. rewrite amplify_length, amplify_firstn.
    set (st := match trim (skipn i x) with Some s => s | None => length (skipn i x) end). set (y := firstn st (skipn i x)).
    assert (EQ : map (fun v => v * v) (amplify c y) = map (fun v => c * c * v) (map (fun v => v * v) y)).
    { unfold amplify. rewrite !map_map. apply map_ext. intros; ring. }
    rewrite EQ. set (e := map (fun v => v * v) y). rewrite map_length. set (t := time_vector (length e) (INR fs)). clearbody t e.
    f_equal. etransitivity; [|apply (div_opt_scale (c * c)); exact K]. f_equal.
    + clear. revert t. induction e as [|a e IH]; intros t; cbn; [ring|]. destruct t; cbn; [ring|]. rewrite IH. ring.
    + clear. induction e as [|a e IH]; cbn; [ring|]. rewrite IH. ring.
Qed.
Print Assumptions C56_gain.
Example C56_gain_example : (-3) <> 0 /\ (forall y, (fun _ : list R => @None nat) (amplify (-3) y) = (fun _ => None) y).
Proof. split; auto. lra. Qed.

(** Leading silence changes nothing if the response has a sample below the threshold before its peak. *)
Lemma get_lead k x j : get (repeat 0 k ++ x) (k + j) = get x j.
Proof. unfold get. rewrite app_nth2; rewrite repeat_length; [|lia]. f_equal. lia. Qed.
Lemma get_lead0 k x j : (j < k)%nat -> get (repeat 0 k ++ x) j = 0.
Proof. intros H. unfold get. rewrite app_nth1 by (rewrite repeat_length; lia). apply nth_repeat. Qed.
Theorem C56_leading_silence d fs trim k x i p : first_peak x p -> find_ir_start1 (-20) x = Ok i ->
  10 * Rabs (get x i) < Rabs (get x p) -> desc1 d fs trim (repeat 0 k ++ x) = desc1 d fs trim x.
Proof.
  intros FP E Hi. assert (N : x <> []) by (destruct FP as [H _]; intros ->; simpl in H; lia).
  pose proof (proj1 (find_start_iff _ _ _ N) E) as (q & Q & SA). rewrite (first_peak_unique _ _ _ Q FP) in SA. clear Q q.
  assert (E' : find_ir_start1 (-20) (repeat 0 k ++ x) = Ok (k + i)%nat).
  { apply find_start_iff. { destruct x; [congruence|]. destruct k; discriminate. } exists (k + p)%nat.
    destruct FP as (P1 & P2 & P3). destruct SA as (S1 & S2 & S3). pose proof (Rabs_pos (get x i)) as PA. pose proof (Rabs_pos (get x p)) as PP. split.
    - unfold first_peak. rewrite app_length, repeat_length, get_lead. split; [lia|]. split.
      + intros j Hj. destruct (Nat.lt_ge_cases j k). rewrite get_lead0 by auto. rewrite Rabs_R0. lra.
        replace j with (k + (j - k))%nat by lia. rewrite get_lead. apply P2. lia.
      + intros j Hj. destruct (Nat.lt_ge_cases j k). rewrite get_lead0 by auto. rewrite Rabs_R0. lra.
        replace j with (k + (j - k))%nat by lia. rewrite get_lead. apply P3. lia.
    - unfold starts_at. rewrite !get_lead. split; [lia|]. split.
      + intros j Hj. replace j with (k + (j - k))%nat by lia. rewrite get_lead. apply S2. lia.
      + left. unfold from_db, db_factor. rewrite small_dB. lra. }
  assert (SK : skipn (k + i) (repeat 0 k ++ x) = skipn i x).
  { rewrite skipn_app, repeat_length. rewrite skipn_all2 by (rewrite repeat_length; lia). replace (k + i - k)%nat with i by lia. reflexivity. }
  destruct d; cbn [desc1]; unfold d50, c80, centre_time; rewrite E, E'; cbn [bind]; rewrite SK; reflexivity.
Qed.
Print Assumptions C56_leading_silence.
Example C56_leading_silence_example : first_peak [0; 1] 1 /\ find_ir_start1 (-20) [0; 1] = Ok 0%nat /\ 10 * Rabs (get [0; 1] 0) < Rabs (get [0; 1] 1).
Proof.
  split. unfold first_peak. cbn [length]. repeat split; try lia; intros j Hj; do 2 (destruct j as [|j]; [first [lia | cbn; unfold Rabs; repeat destruct (Rcase_abs _); lra]|]); lia.
  split. exact two_start. cbn. unfold Rabs; repeat destruct (Rcase_abs _); lra.
Qed.

(** ** Signals with several channels and bands *)
(** Every channel of an impulse response has its own descriptor. *)
Theorem C56_channels d fs trimmer flag chs out : descriptors d fs trimmer flag chs = Ok out ->
  Forall2 (fun c v => desc1 d fs (if flag then fun y => Some (trimmer y) else fun _ => None) c = Ok v) chs out.
Proof.
  assert (EQ : forall c, desc1 d fs (if flag then fun y => Some (trimmer y) else fun _ => None) c = desc1 d fs (use_trim flag trimmer) c).
  { intros c. destruct flag; reflexivity. }
  revert out. induction chs as [|c t IH]; intros out; unfold descriptors; cbn [fold_right].
  - intros [= <-]. constructor.
  - fold (descriptors d fs trimmer flag t). destruct (desc1 d fs (use_trim flag trimmer) c) as [v|] eqn:E; cbn [bind]; [|discriminate].
    destruct (descriptors d fs trimmer flag t) as [l|]; cbn [bind]; [|discriminate]. intros [= <-]. constructor; auto. now rewrite EQ.
Qed.
Print Assumptions C56_channels.
Example C56_channels_example : exists a b, descriptors D50 1000 (fun _ => 0%nat) false [[0; 0; 1; 0]; [1]] = Ok [Some a; Some b].
Proof.
  destruct (C56_d50_exists 1000 [0; 0; 1; 0]) as (a & A & _). exists 2%nat; cbn; lra.
  destruct (C56_d50_exists 1000 [1]) as (b & B & _). exists 0%nat; cbn; lra.
  exists a, b. unfold descriptors. cbn [fold_right desc1]. unfold use_trim. rewrite A, B. reflexivity.
Qed.
(** With a multi-band signal, switching automatic trimming off has no effect. *)
Theorem C56_bands_refuted :
  (forall d fs trimmer bands, descriptors_mb d fs trimmer false bands = descriptors_mb d fs trimmer true bands) /\
  ~ (forall d fs trimmer flag b out, descriptors_mb d fs trimmer flag [b] = Ok [out] -> descriptors d fs trimmer flag b = Ok out).
Proof.
  split. reflexivity. intros H.
  pose proof (C56_centre_time 1 (fun _ => None) [0; 1] 0 ltac:(discriminate) two_start ltac:(lia)) as L. cbn [length Nat.sub Nat.min] in L.
  assert (En : energy [0; 1] 0 2 = 1) by (unfold energy; cbn; ring).
  assert (A1 : centre_time 1 (use_trim true (fun _ => 1%nat)) [0; 1] = Ok None).
  { unfold centre_time. rewrite two_start. cbn [bind skipn use_trim stop_index firstn map length]. unfold div_opt. cbn [fold_right].
    destruct (Req_EM_T (0 * 0 + 0) 0) as [_|X]; [reflexivity|]. exfalso. apply X. ring. }
  specialize (H CenterTime 1%nat (fun _ => 1%nat) false [[0; 1]] [None]). unfold descriptors_mb, descriptors in H. cbn [fold_right desc1] in H.
  rewrite A1 in H. specialize (H eq_refl). change (use_trim false (fun _ : list R => 1%nat)) with (fun _ : list R => @None nat) in H.
  rewrite L in H by (try lia; rewrite En; lra). cbn [bind] in H. discriminate H.
Qed.
Print Assumptions C56_bands_refuted.
