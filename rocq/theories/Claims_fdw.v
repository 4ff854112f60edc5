(** Property C88: the spectrum with frequency-dependent windowing. *)
From Coq Require Import List Arith Lia ZArith Bool Reals Lra Psatz.
From Verif Require Import Alg Spec Dft M_arrays M_signal P_arrays P_signal M_delay M_latency M_level M_ir M_irwindow M_spectrum P_spectrum P_dft2 M_fdw Claims_level Claims_room Claims_deconv Claims_minphase Claims_irwindow Claims_spectrum2.
Import ListNotations.
Local Open Scope R_scope.

(** ** Specification *)
(** a window in dB: 0 dB at its centre, [db] at the distance [width] *)
Definition gauss (db width m : R) : R := Rpower 10 (db / 20 * (m / width) ^ 2).
(** z is a nearest integer of r *)
Definition nearest (r : R) (z : Z) : Prop := Rabs (r - IZR z) <= 1 / 2.
(** bin k of x seen through the window w around sample P *)
Definition seen (N : nat) (x : list R) (P : nat) (w : R -> R) (k : nat) : C :=
  csum N (fun t => cmul (rc (nth t x 0 * w (INR t - INR P))) (root N (- (Z.of_nat t * Z.of_nat k)))).

(** ** Auxiliary facts *)
Lemma abs_between x a : Rabs x <= a -> - a <= x <= a.
Proof. intros H. pose proof (Rle_abs x). pose proof (Rle_abs (- x)) as Q. rewrite Rabs_Ropp in Q. lra. Qed.
Lemma round_nearest r : nearest r (np_round r).
Proof.
  unfold nearest, np_round. destruct (base_Int_part r) as (A & B). destruct (Rlt_dec (r - IZR (Int_part r)) (1 / 2)). { apply Rabs_le. lra. }
  destruct (Rlt_dec (1 / 2) (r - IZR (Int_part r))). { rewrite plus_IZR. apply Rabs_le. lra. } destruct (Z.even _). apply Rabs_le; lra. rewrite plus_IZR. apply Rabs_le. lra.
Qed.
Lemma round_large r : 1 / 2 < r -> (0 < np_round r)%Z.
Proof. intros H. pose proof (round_nearest r) as N. unfold nearest in N. apply abs_between in N. apply lt_IZR. lra. Qed.
Lemma samples_eq N fs cycles k : (0 < N)%nat -> (0 < fs)%Z -> (0 < k)%nat -> cycle_samples N fs cycles k = np_round (INR N / INR k * IZR cycles).
Proof.
  intros HN Hf Hk. unfold cycle_samples. assert (0 < INR N) by (apply lt_0_INR; auto). assert (0 < INR k) by (apply lt_0_INR; auto). assert (0 < IZR fs) by (now apply IZR_lt). f_equal. field. lra.
Qed.
Lemma exponent_gauss N db C P t : (2 <= N)%nat -> db < 0 -> C <> 0%Z -> exp (window_exponent N (from_db true db) C P t) = gauss db (IZR C) (INR t - INR P).
Proof.
  intros HN Hdb HC. unfold window_exponent, gauss, from_db, db_factor, Rpower. f_equal. set (h := (INR N - 1) / 2). assert (Hh : 0 < h). { unfold h. apply le_INR in HN. simpl in HN. lra. }
  assert (C0 : IZR C <> 0) by (intros Q; apply HC; now apply eq_IZR). set (a := db / 20 * ln 10). assert (E : ln (1 / exp a ^ 2) = - (2 * a)).
  { unfold Rdiv. rewrite Rmult_1_l. pose proof (exp_pos a). rewrite ln_Rinv by (apply pow_lt; auto). simpl. rewrite Rmult_1_r, ln_mult by auto. rewrite ln_exp. ring. }
  rewrite E. assert (L10 : 0 < ln 10) by (rewrite <- ln_1; apply ln_increasing; lra). assert (A0 : a < 0) by (unfold a; nra).
  assert (S : sqrt (- (2 * a)) ^ 2 = - (2 * a)) by (simpl; rewrite Rmult_1_r; apply sqrt_sqrt; lra).
  transitivity (sqrt (- (2 * a)) ^ 2 * (- (1 / 2)) * ((INR t - INR P) / IZR C) ^ 2). field. lra. rewrite S. unfold a. field. lra.
Qed.
Lemma bin_seen N fs cycles db x P k : (2 <= N)%nat -> (0 < fs)%Z -> (0 < k)%nat -> db < 0 -> first_peak x P -> cycle_samples N fs cycles k <> 0%Z ->
  fdw_bin N fs cycles (from_db true db) x k = seen N x P (gauss db (IZR (np_round (INR N / INR k * IZR cycles)))) k.
Proof.
  intros HN Hf Hk Hdb HP HC. unfold fdw_bin, seen. apply (sum_ext (HA := CRing_C)). intros t Ht. cbv zeta. rewrite (peak_index_spec x P) by auto. rewrite exponent_gauss by auto. rewrite samples_eq by (auto; lia).
  assert (0 < INR N) by (apply lt_0_INR; lia). assert (0 < IZR fs) by (now apply IZR_lt).
  unfold root. replace (- 2 * PI * (INR t / INR N) * (INR k * IZR fs / INR N * (INR N / IZR fs))) with (2 * PI * IZR (- (Z.of_nat t * Z.of_nat k)) / INR N). 2:{ rewrite opp_IZR, mult_IZR, <- !INR_IZR_INZ. field. lra. }
  unfold get. change (@r0 R CRing_R) with 0. apply c_ext; simpl; ring.
Qed.
Lemma some_samples N fs cycles k : (2 <= N)%nat -> (0 < fs)%Z -> (1 <= k <= N / 2)%nat -> (0 < cycles)%Z -> (IZR cycles <= IZR (cycle_samples N fs cycles k) /\ 2 * IZR cycles - 1 / 2 <= IZR (cycle_samples N fs cycles k)) /\ cycle_samples N fs cycles k <> 0%Z.
Proof.
  intros HN Hf Hk Hc. rewrite samples_eq by (auto; lia). pose proof (round_nearest (INR N / INR k * IZR cycles)) as Q. unfold nearest in Q. apply abs_between in Q.
  assert (K : 0 < INR k) by (apply lt_0_INR; lia). assert (2 * INR k <= INR N). { change 2 with (INR 2). rewrite <- mult_INR. apply le_INR. pose proof (Nat.div_mod N 2 ltac:(lia)). lia. }
  assert (D : 2 <= INR N / INR k). { apply (Rmult_le_reg_r (INR k)); auto. unfold Rdiv. rewrite Rmult_assoc, Rinv_l by lra. lra. } assert (C1 : 1 <= IZR cycles) by (apply (IZR_le 1); lia).
  assert (2 * IZR cycles - 1 / 2 <= IZR (np_round (INR N / INR k * IZR cycles))) by nra. split; [lra|]. intros Z. rewrite Z in H0. simpl in H0. lra.
Qed.

Definition fdw_freqs (N : nat) (fs : Z) : list R := 0 :: map (fun k => INR k * IZR fs / INR N) (seq 1 (N / 2)).
Definition fdw_data (N : nat) (fs cycles : Z) (db : R) (td : mat) : list (list cplx) := map (fun x => rc 0 :: map (fdw_bin N fs cycles (from_db true db) x) (seq 1 (N / 2))) td.
Lemma fdw_freqs_nth N fs j : (j <= N / 2)%nat -> nth j (fdw_freqs N fs) 0 = INR j * IZR fs / INR N.
Proof.
  intros Hj. destruct j as [|j]; unfold fdw_freqs; cbn [nth]. simpl. unfold Rdiv. ring. rewrite (nth_map' (fun k => INR k * IZR fs / INR N) _ j 0%nat) by (rewrite seq_length; lia). rewrite seq_nth by lia. reflexivity.
Qed.
Lemma fdw_freqs_length N fs : length (fdw_freqs N fs) = (N / 2 + 1)%nat.
Proof. unfold fdw_freqs. simpl. rewrite map_length, seq_length. lia. Qed.
Lemma fdw_asc N fs : (2 <= N)%nat -> (0 < fs)%Z -> asc (fdw_freqs N fs) /\ forall v, In v (fdw_freqs N fs) -> 0 <= v.
Proof.
  intros HN Hf. assert (P0 : 0 < INR N) by (apply lt_0_INR; lia). assert (F0 : 0 < IZR fs) by (now apply IZR_lt). split.
  - intros i j Hij Hj. rewrite fdw_freqs_length in Hj. rewrite !fdw_freqs_nth by lia. apply Rmult_lt_compat_r. now apply Rinv_0_lt_compat. apply Rmult_lt_compat_r; auto. now apply lt_INR.
  - intros v Hv. apply (In_nth _ _ 0) in Hv as (j & Hj & <-). rewrite fdw_freqs_length in Hj. rewrite fdw_freqs_nth by lia. apply Rmult_le_pos. apply Rmult_le_pos; [apply pos_INR|lra]. left. now apply Rinv_0_lt_compat.
Qed.
Lemma fdw_chan N fs cycles db (td : mat) c : (c < length td)%nat -> nth c (fdw_data N fs cycles db td) [] = rc 0 :: map (fdw_bin N fs cycles (from_db true db) (nth c td [])) (seq 1 (N / 2)).
Proof. intros Hc. unfold fdw_data. exact (nth_map' (U := list cplx) (fun x => rc 0 :: map (fdw_bin N fs cycles (from_db true db) x) (seq 1 (N / 2))) td c [] [] Hc). Qed.
Lemma fdw_data_nth N fs cycles db (td : mat) c j : (c < length td)%nat -> (j <= N / 2)%nat ->
  nth j (nth c (fdw_data N fs cycles db td) []) c0 = if (j =? 0)%nat then rc 0 else fdw_bin N fs cycles (from_db true db) (nth c td []) j.
Proof.
  intros Hc Hj. rewrite fdw_chan by auto. destruct j as [|j]; [reflexivity|]. cbn [nth Nat.eqb].
  etransitivity; [apply (nth_map' _ (seq 1 (N / 2)) j 0%nat c0); rewrite seq_length; lia|]. rewrite seq_nth by lia. reflexivity.
Qed.
Lemma fdw_value fs cycles db (td : mat) N k : shape td N k -> (2 <= N)%nat -> (0 < k <= N / 2 + 1)%nat -> (0 < fs)%Z -> db < 0 ->
  window_frequency_dependent fs cycles db td =
    Ok (if existsb (fun k => (cycle_samples N fs cycles k =? 0)%Z) (seq 1 (N / 2)) then None else Some (mkSp (fdw_freqs N fs) false (fdw_data N fs cycles db td) None DPower ZeroPad)).
Proof.
  intros Sh HN Hk Hf Hdb. pose proof Sh as (L1 & L2). assert (Nr : nrows td = N) by (apply (shape_nrows _ N k); auto; lia). unfold window_frequency_dependent. destruct (Rlt_dec db 0); [|lra]. rewrite Nr.
  change (0 :: map (fun k0 : nat => INR k0 * IZR fs / INR N) (seq 1 (N / 2))) with (fdw_freqs N fs). change (map (fun x => rc 0 :: map (fdw_bin N fs cycles (from_db true db) x) (seq 1 (N / 2))) td) with (fdw_data N fs cycles db td).
  assert (Ld : length (fdw_data N fs cycles db td) = k) by (unfold fdw_data; rewrite map_length; auto). destruct (fdw_asc N fs HN Hf).
  rewrite new_ok; auto; try discriminate.
  - intros Z. rewrite Z in Ld. simpl in Ld. lia.
  - rewrite fdw_freqs_length. lia.
  - intros col Hcol. unfold fdw_data in Hcol. apply in_map_iff in Hcol as (x & <- & _). rewrite fdw_freqs_length. cbn [length]. rewrite map_length, seq_length. lia.
Qed.
Lemma no_zero_samples N fs cycles : (2 <= N)%nat -> (0 < fs)%Z -> (0 < cycles)%Z -> existsb (fun k => (cycle_samples N fs cycles k =? 0)%Z) (seq 1 (N / 2)) = false.
Proof.
  intros HN Hf Hc. destruct (existsb _ _) eqn:E; auto. apply existsb_exists in E as (j & Hj & E). apply in_seq in Hj. apply Z.eqb_eq in E. destruct (some_samples N fs cycles j HN Hf ltac:(lia) Hc) as (_ & Q). congruence.
Qed.

(** ** C88 *)
(** Every bin but the first is the bin of the response seen through a gaussian window around its first largest sample; the window has the given
    level after the given number of periods of the bin's frequency, rounded to samples. The first bin is zero. *)
Theorem C88_bins : forall (fs cycles : Z) (db : R) (td : mat) (N k : nat), shape td N k -> (2 <= N)%nat -> (0 < k <= N / 2 + 1)%nat -> (0 < fs)%Z -> (0 < cycles)%Z -> db < 0 ->
  exists sp, window_frequency_dependent fs cycles db td = Ok (Some sp) /\ sp_mag sp = false /\ length (sp_f sp) = (N / 2 + 1)%nat /\ length (sp_d sp) = k /\
    (forall j, (j <= N / 2)%nat -> nth j (sp_f sp) 0 = INR j * IZR fs / INR N) /\
    forall c P, (c < k)%nat -> first_peak (nth c td []) P -> length (nth c (sp_d sp) []) = (N / 2 + 1)%nat /\ nth 0 (nth c (sp_d sp) []) c0 = rc 0 /\
      forall j, (1 <= j <= N / 2)%nat -> exists W, nearest (IZR cycles * IZR fs / nth j (sp_f sp) 0) W /\ (0 < W)%Z /\
        nth j (nth c (sp_d sp) []) c0 = seen N (nth c td []) P (gauss db (IZR W)) j.
Proof.
  intros fs cycles db td N k Sh HN Hk Hf Hc Hdb. pose proof Sh as (L1 & L2). assert (Nr : nrows td = N) by (apply (shape_nrows _ N k); auto; lia).
  assert (P0 : 0 < INR N) by (apply lt_0_INR; lia). assert (F0 : 0 < IZR fs) by (now apply IZR_lt).
  rewrite (fdw_value fs cycles db td N k) by auto. rewrite no_zero_samples by auto. eexists. split; [reflexivity|]. cbn [sp_mag sp_f sp_d]. split; auto. split; [apply fdw_freqs_length|]. split; [unfold fdw_data; rewrite map_length; auto|].
  split. { intros j Hj. now apply fdw_freqs_nth. } intros c P Hc' HP. split; [|split].
  - rewrite fdw_chan by lia. cbn [length]. rewrite map_length, seq_length. lia.
  - now rewrite fdw_data_nth by lia.
  - intros j Hj. rewrite fdw_freqs_nth by lia. assert (J0 : 0 < INR j) by (apply lt_0_INR; lia).
    destruct (some_samples N fs cycles j HN Hf Hj Hc) as ((S1 & _) & S2). exists (np_round (INR N / INR j * IZR cycles)). rewrite samples_eq in S1 by (auto; lia). split; [|split].
    + replace (IZR cycles * IZR fs / (INR j * IZR fs / INR N)) with (INR N / INR j * IZR cycles) by (field; lra). apply round_nearest.
    + apply lt_IZR. apply IZR_lt in Hc. lra.
    + rewrite fdw_data_nth by lia. destruct (Nat.eqb_spec j 0); [lia|]. apply bin_seen; auto; lia.
Qed.
Print Assumptions C88_bins.
(** three samples of two channels *)
Definition fdw2 : mat := [[1; - (1 / 2); 1 / 4]; [0; 1; 1 / 8]].
Example C88_bins_case : shape fdw2 3 2 /\ (0 < 2 <= 3 / 2 + 1)%nat /\ first_peak (nth 0 fdw2 []) 0 /\ first_peak (nth 1 fdw2 []) 1.
Proof.
  split. { split; [reflexivity|]. repeat constructor. } split; [simpl; lia|]. assert (A : Rabs (- (1 / 2)) = 1 / 2) by (rewrite Rabs_Ropp; apply Rabs_pos_eq; lra).
  assert (B : Rabs (1 / 4) = 1 / 4) by (apply Rabs_pos_eq; lra). assert (D : Rabs (1 / 8) = 1 / 8) by (apply Rabs_pos_eq; lra).
  split; (split; [simpl; lia|]; split; [intros [|[|[|j]]] Hj|intros [|j] Hj]); simpl in *; rewrite ?A, ?B, ?D, ?Rabs_R0, ?Rabs_R1; try lra; lia.
Qed.
(** The window: its level falls with the square of the distance and is [db] at the width. *)
Theorem C88_window : forall (db : R) (W : Z), db < 0 -> (0 < W)%Z -> let w := gauss db (IZR W) in
  w 0 = 1 /\ w (IZR W) = from_db true db /\ (forall m, w (- m) = w m /\ 0 < w m <= 1 /\ 20 * (ln (w m) / ln 10) = db * (m / IZR W) ^ 2) /\ (forall m m', Rabs m < Rabs m' -> w m' < w m).
Proof.
  intros db W Hdb HW w. assert (W0 : 0 < IZR W) by (now apply IZR_lt). assert (L10 : 0 < ln 10) by (rewrite <- ln_1; apply ln_increasing; lra).
  assert (Sq : forall m, (m / IZR W) ^ 2 = m ^ 2 * / (IZR W) ^ 2) by (intros; field; lra). assert (I : 0 < / (IZR W) ^ 2) by (apply Rinv_0_lt_compat, pow_lt; auto).
  assert (V : forall m, w m = exp (db / 20 * (m / IZR W) ^ 2 * ln 10)) by reflexivity.
  split; [|split; [|split]].
  - rewrite V. replace (db / 20 * (0 / IZR W) ^ 2 * ln 10) with 0 by (field; lra). apply exp_0.
  - rewrite V. unfold from_db, db_factor, Rpower. f_equal. field. lra.
  - intros m. split; [|split]. { rewrite !V. f_equal. field. lra. } { rewrite V. split; [apply exp_pos|]. rewrite <- exp_0. destruct (Req_dec m 0) as [->|N]. { right. f_equal. field. lra. } left. apply exp_increasing. rewrite Sq. assert (0 < m ^ 2) by (replace (m ^ 2) with (Rsqr m) by (unfold Rsqr; ring); now apply Rsqr_pos_lt). assert (0 < m ^ 2 * / IZR W ^ 2 * ln 10) by (apply Rmult_lt_0_compat; [apply Rmult_lt_0_compat; auto|auto]). nra. }
    rewrite V, ln_exp. field. lra.
  - intros m m' H. rewrite !V. apply exp_increasing. rewrite !Sq. assert (m ^ 2 < m' ^ 2). { rewrite <- (pow2_abs m), <- (pow2_abs m'). pose proof (Rabs_pos m). nra. } assert (m ^ 2 * (/ IZR W ^ 2 * ln 10) < m' ^ 2 * (/ IZR W ^ 2 * ln 10)) by (apply Rmult_lt_compat_r; auto; apply Rmult_lt_0_compat; auto). nra.
Qed.
Print Assumptions C88_window.
Example C88_window_case : from_db true (-20) = 1 / 10 /\ gauss (-20) 5 10 = 1 / 10 ^ 4.
Proof.
  assert (E : forall n, Rpower 10 (- INR n) = 1 / 10 ^ n). { intros n. rewrite Rpower_Ropp, Rpower_pow by lra. field. apply pow_nonzero. lra. }
  unfold from_db, db_factor, gauss. split. replace (-20 / 20) with (- INR 1) by (simpl; field). rewrite E. field. replace (-20 / 20 * (10 / 5) ^ 2) with (- INR 4) by (simpl; field). now rewrite E.
Qed.
(** An impulse: all bins but the first are those of the impulse; the first one is missing, so that the inverse transform is the impulse less its mean. *)
Theorem C88_mean_refuted : forall (fs cycles : Z) (db : R) (N P : nat), (2 <= N)%nat -> (P < N)%nat -> (0 < fs)%Z -> (0 < cycles)%Z -> db < 0 ->
  exists sp, window_frequency_dependent fs cycles db [unit_at N P] = Ok (Some sp) /\
    (forall j, (1 <= j <= N / 2)%nat -> nth j (nth 0 (sp_d sp) []) c0 = dft N (unit_at N P) j) /\ dft N (unit_at N P) 0 = rc 1 /\ nth 0 (nth 0 (sp_d sp) []) c0 = rc 0 /\
    forall t, (t < N)%nat -> nth t (irfft_n N (nth 0 (sp_d sp) [])) 0 = nth t (unit_at N P) 0 - / INR N.
Proof.
  intros fs cycles db N P HN HP Hf Hc Hdb. assert (Lu : length (unit_at N P) = N) by apply mk_length.
  assert (Vu : forall t, (t < N)%nat -> nth t (unit_at N P) 0 = if (t =? P)%nat then 1 else 0) by (intros t Ht; unfold unit_at; now rewrite nth_mk by auto).
  assert (Fp : first_peak (unit_at N P) P). { split; [lia|]. rewrite Lu. split; intros j Hj; rewrite !Vu by lia; rewrite Nat.eqb_refl, Rabs_R1; destruct (Nat.eqb_spec j P); rewrite ?Rabs_R1, ?Rabs_R0; try lra; lia. }
  assert (P0 : 0 < INR N) by (apply lt_0_INR; lia).
  destruct (C88_bins fs cycles db [unit_at N P] N 1) as (sp & E & _ & _ & _ & _ & V); auto; try lia. { split; [reflexivity|]. repeat constructor. exact Lu. }
  destruct (V 0%nat P ltac:(lia) Fp) as (Ls & Z0 & B). cbn [nth] in B. exists sp. split; auto.
  assert (BJ : forall j, (1 <= j <= N / 2)%nat -> nth j (nth 0 (sp_d sp) []) c0 = dft N (unit_at N P) j).
  { intros j Hj. destruct (B j Hj) as (W & _ & HW & ->). unfold seen, dft. apply (sum_ext (HA := CRing_C)). intros t Ht. unfold get. change (@r0 R CRing_R) with 0. rewrite Vu by auto. change (@rmul C CRing_C) with cmul. f_equal. f_equal. destruct (Nat.eqb_spec t P) as [->|]; [|ring]. rewrite Rminus_eq_0. rewrite (proj1 (C88_window db W Hdb HW)). ring. }
  assert (D0 : dft N (unit_at N P) 0 = rc 1). { rewrite unit_dft by auto. replace (- (Z.of_nat P * Z.of_nat 0))%Z with 0%Z by lia. apply root_0. }
  repeat (split; auto). intros t Ht.
  assert (EX : @get R CRing_R (irfft_n N (rfft N (unit_at N P))) t = nth t (unit_at N P) 0) by (apply irfft_rfft; lia). unfold get in EX. change (@r0 R CRing_R) with 0 in EX. rewrite <- EX. unfold irfft_n. rewrite !nth_mk by auto.
  assert (H : csum N (fun k => herm N (rfft N (unit_at N P)) k *! root N (Z.of_nat k * Z.of_nat t)) = cadd (csum N (fun k => herm N (nth 0 (sp_d sp) []) k *! root N (Z.of_nat k * Z.of_nat t))) (rc 1)).
  { destruct N as [|N']; [lia|]. rewrite !(sum_S_front (HA := CRing_C)). assert (D2 : (2 * (S N' / 2) <= S N' < 2 * (S N' / 2) + 2)%nat) by (pose proof (Nat.div_mod (S N') 2 ltac:(lia)); pose proof (Nat.mod_upper_bound (S N') 2 ltac:(lia)); lia).
    rewrite (sum_ext (HA := CRing_C) N' (fun k => herm (S N') (rfft (S N') (unit_at (S N') P)) (S k) *! root (S N') (Z.of_nat (S k) * Z.of_nat t)) (fun k => herm (S N') (nth 0 (sp_d sp) []) (S k) *! root (S N') (Z.of_nat (S k) * Z.of_nat t))).
    2:{ intros k Hk. f_equal. unfold herm, rfft. destruct (Nat.leb_spec (S k) (S N' / 2)). rewrite nth_mk by lia. symmetry. apply BJ. lia. rewrite nth_mk by lia. f_equal. symmetry. apply BJ. lia. }
    unfold herm at 1 3. cbn [Nat.leb]. replace (Z.of_nat 0 * Z.of_nat t)%Z with 0%Z by lia. rewrite root_0. change (nth 0 (nth 0 (sp_d sp) []) (rc 0)) with (nth 0 (nth 0 (sp_d sp) []) c0). rewrite Z0. unfold rfft. rewrite nth_mk by lia. rewrite D0. apply c_ext; simpl; ring. }
  rewrite H. simpl fst. change (@radd C CRing_C) with cadd. field. lra.
Qed.
Print Assumptions C88_mean_refuted.
(** Scaling the response scales the spectrum. *)
Theorem C88_scaled : forall (fs cycles : Z) (db a : R) (td : mat) (N k : nat), shape td N k -> (2 <= N)%nat -> (0 < k <= N / 2 + 1)%nat -> (0 < fs)%Z -> (0 < cycles)%Z -> db < 0 -> a <> 0 ->
  exists sp sp', window_frequency_dependent fs cycles db td = Ok (Some sp) /\ window_frequency_dependent fs cycles db (map (map (Rmult a)) td) = Ok (Some sp') /\ sp_f sp' = sp_f sp /\
    forall c j, (c < k)%nat -> (j <= N / 2)%nat -> nth j (nth c (sp_d sp') []) c0 = cmul (rc a) (nth j (nth c (sp_d sp) []) c0).
Proof.
  intros fs cycles db a td N k Sh HN Hk Hf Hc Hdb Ha. pose proof Sh as (L1 & L2). pose proof L2 as L3. rewrite Forall_forall in L3.
  assert (Sh' : shape (map (map (Rmult a)) td) N k). { split; [now rewrite map_length|]. apply Forall_forall. intros x Hx. apply in_map_iff in Hx as (y & <- & Hy). rewrite map_length. now apply L3. }
  rewrite (fdw_value fs cycles db td N k), (fdw_value fs cycles db (map (map (Rmult a)) td) N k) by auto. rewrite no_zero_samples by auto. do 2 eexists. split; [reflexivity|]. split; [reflexivity|]. split; [reflexivity|]. cbn [sp_d].
  intros c j Hc' Hj. rewrite !fdw_data_nth by (rewrite ?map_length; lia). destruct (Nat.eqb_spec j 0). { apply c_ext; simpl; ring. }
  rewrite (nth_map' (map (Rmult a)) td c [] []) by lia. set (x := nth c td []). assert (Lx : length x = N) by (apply L3, nth_In; lia).
  destruct (first_peak_exists x) as (P & HP). { intros Z. rewrite Z in Lx. simpl in Lx. lia. }
  assert (HP' : first_peak (map (Rmult a) x) P).
  { destruct HP as (A & B & D). split; [now rewrite map_length|]. rewrite map_length. assert (V : forall i, (i < length x)%nat -> Rabs (nth i (map (Rmult a) x) 0) = Rabs a * Rabs (nth i x 0)) by (intros i Hi; rewrite (nth_map' (Rmult a) x i 0 0) by auto; apply Rabs_mult).
    assert (0 < Rabs a) by (now apply Rabs_pos_lt). split; intros i Hi; rewrite !V by lia. apply Rmult_le_compat_l; [lra|]. now apply B. apply Rmult_lt_compat_l; auto. }
  destruct (some_samples N fs cycles j HN Hf ltac:(lia) Hc) as (_ & S2). rewrite (bin_seen N fs cycles db x P), (bin_seen N fs cycles db (map (Rmult a) x) P) by (auto; lia).
  unfold seen. rewrite <- (sum_scal_l (HA := CRing_C)). apply (sum_ext (HA := CRing_C)). intros t Ht. rewrite (nth_map' (Rmult a) x t 0 0) by lia. apply c_ext; simpl; ring.
Qed.
Print Assumptions C88_scaled.
Example C88_scaled_case : shape fdw2 3 2 /\ -3 <> 0.
Proof. split; [apply C88_bins_case|]. lra. Qed.
Lemma sum_after d N (f : nat -> C) : (d <= N)%nat -> (forall t, (t < d)%nat -> f t = rc 0) -> csum N f = csum (N - d) (fun t => f (d + t)%nat).
Proof.
  intros Hd Hf. rewrite <- (Nat.sub_add d N Hd) at 1. rewrite Nat.add_comm, (sum_split (HA := CRing_C)). rewrite (sum_zero' (HA := CRing_C) d) by exact Hf. apply c_ext; simpl; ring.
Qed.
Lemma sum_before m N (f : nat -> C) : (m <= N)%nat -> (forall t, (m <= t)%nat -> f t = rc 0) -> csum N f = csum m f.
Proof.
  intros Hd Hf. rewrite <- (Nat.sub_add m N Hd) at 1. rewrite Nat.add_comm, (sum_split (HA := CRing_C)). rewrite (sum_zero' (HA := CRing_C) (N - m)) by (intros; apply Hf; lia). apply c_ext; simpl; ring.
Qed.
(** A response d samples later: every bin turns by the phase of the delay. *)
Theorem C88_delayed : forall (fs cycles : Z) (db : R) (x : list R) (N d : nat), length x = N -> (2 <= N)%nat -> (d < N)%nat -> (exists i, nth i x 0 <> 0) -> (forall i, (N - d <= i)%nat -> nth i x 0 = 0) -> (0 < fs)%Z -> (0 < cycles)%Z -> db < 0 ->
  exists sp sp', window_frequency_dependent fs cycles db [x] = Ok (Some sp) /\ window_frequency_dependent fs cycles db [repeat 0 d ++ firstn (N - d) x] = Ok (Some sp') /\
    forall j, (j <= N / 2)%nat -> nth j (nth 0 (sp_d sp') []) c0 = cmul (root N (- (Z.of_nat d * Z.of_nat j))) (nth j (nth 0 (sp_d sp) []) c0).
Proof.
  intros fs cycles db x N d Lx HN Hd (i0 & Hi0) Hz Hf Hc Hdb. set (y := repeat 0 d ++ firstn (N - d) x). assert (Ly : length y = N) by (unfold y; rewrite app_length, repeat_length, firstn_length; lia).
  assert (Vy : forall i, (i < N)%nat -> nth i y 0 = if (i <? d)%nat then 0 else nth (i - d) x 0).
  { intros i Hi. unfold y. destruct (Nat.ltb_spec i d). rewrite app_nth1 by (rewrite repeat_length; auto). apply nth_repeat. rewrite app_nth2 by (rewrite repeat_length; lia). rewrite repeat_length. apply nth_firstn. lia. }
  destruct (first_peak_exists x) as (P & HP). { intros Z. rewrite Z in Lx. simpl in Lx. lia. }
  assert (HP' : first_peak y (P + d)).
  { pose proof HP as (A & B & D). assert (I0 : (i0 < N)%nat) by (destruct (Nat.lt_ge_cases i0 N); auto; rewrite nth_overflow in Hi0 by lia; lra).
    assert (Pos : 0 < Rabs (nth P x 0)). { specialize (B i0 ltac:(lia)). pose proof (Rabs_pos_lt _ Hi0). lra. }
    assert (PD : (P < N - d)%nat). { destruct (Nat.lt_ge_cases P (N - d)); auto. rewrite Hz in Pos by auto. rewrite Rabs_R0 in Pos. lra. }
    assert (VP : nth (P + d) y 0 = nth P x 0). { rewrite Vy by lia. destruct (Nat.ltb_spec (P + d) d); [lia|]. f_equal. lia. }
    split; [lia|]. rewrite Ly, VP. split; intros i Hi; rewrite Vy by lia; destruct (Nat.ltb_spec i d); rewrite ?Rabs_R0; try lra. apply B; lia. apply D; lia. }
  assert (Sx : shape [x] N 1) by (split; [reflexivity|]; repeat constructor; auto). assert (Sy : shape [y] N 1) by (split; [reflexivity|]; repeat constructor; auto).
  rewrite (fdw_value fs cycles db [x] N 1), (fdw_value fs cycles db [y] N 1) by (auto; lia). rewrite no_zero_samples by auto. do 2 eexists. split; [reflexivity|]. split; [reflexivity|]. cbn [sp_d].
  intros j Hj. rewrite !fdw_data_nth by (cbn [length]; lia). destruct (Nat.eqb_spec j 0). { apply c_ext; simpl; ring. } cbn [nth].
  destruct (some_samples N fs cycles j HN Hf ltac:(lia) Hc) as (_ & S2). rewrite (bin_seen N fs cycles db x P), (bin_seen N fs cycles db y (P + d)) by (auto; lia). set (w := gauss _ _).
  unfold seen. rewrite <- (sum_scal_l (HA := CRing_C)). rewrite (sum_after d N); auto; try lia. 2:{ intros t Ht. rewrite Vy by lia. destruct (Nat.ltb_spec t d); [|lia]. rewrite Rmult_0_l. apply c_ext; simpl; ring. }
  rewrite (sum_before (N - d) N) by (try lia; intros t Ht; rewrite Hz by lia; rewrite Rmult_0_l; apply c_ext; simpl; ring).
  apply (sum_ext (HA := CRing_C)). intros t Ht. rewrite Vy by lia. destruct (Nat.ltb_spec (d + t) d); [lia|]. replace (d + t - d)%nat with t by lia. rewrite !plus_INR. replace (INR d + INR t - (INR P + INR d)) with (INR t - INR P) by ring.
  replace (- (Z.of_nat (d + t) * Z.of_nat j))%Z with (- (Z.of_nat d * Z.of_nat j) + - (Z.of_nat t * Z.of_nat j))%Z by lia. rewrite root_add. apply c_ext; simpl; ring.
Qed.
Print Assumptions C88_delayed.
Example C88_delayed_case : let x := [1; 1 / 2; 0; 0] in length x = 4%nat /\ (exists i, nth i x 0 <> 0) /\ (forall i, (4 - 2 <= i)%nat -> nth i x 0 = 0).
Proof. split; [reflexivity|]. split. { exists 0%nat. simpl. lra. } intros [|[|[|[|[|i]]]]] Hi; simpl in *; auto; lia. Qed.
(** The nearest integers of opposite numbers are opposite. *)
Lemma round_char r z : nearest r z -> (Rabs (r - IZR z) = 1 / 2 -> Z.even z = true) -> np_round r = z.
Proof.
  intros N T. unfold nearest in N. apply abs_between in N. unfold np_round. destruct (base_Int_part r) as (A & B). set (f := Int_part r) in *.
  destruct (Rlt_dec (r - IZR f) (1 / 2)) as [C|C].
  - assert (D : (f - z = 0)%Z); [|lia]. assert (IZR (f - z) < 1 /\ -1 < IZR (f - z)) as (U & V) by (rewrite minus_IZR; lra). apply lt_IZR in U. apply (lt_IZR (-1)) in V. lia.
  - destruct (Rlt_dec (1 / 2) (r - IZR f)) as [D|D].
    + assert (E : (f + 1 - z = 0)%Z); [|lia]. assert (IZR (f + 1 - z) < 1 /\ -1 < IZR (f + 1 - z)) as (U & V) by (rewrite minus_IZR, plus_IZR; lra). apply lt_IZR in U. apply (lt_IZR (-1)) in V. lia.
    + assert (E : r = IZR f + 1 / 2) by lra. assert (IZR (z - f) < 2 /\ -1 < IZR (z - f)) as (U & V) by (rewrite minus_IZR; lra). apply lt_IZR in U. apply (lt_IZR (-1)) in V.
      assert (z = f \/ z = f + 1)%Z as [->| ->] by lia.
      * rewrite T. reflexivity. rewrite E. replace (IZR f + 1 / 2 - IZR f) with (1 / 2) by ring. apply Rabs_pos_eq. lra.
      * assert (Q : Z.even (f + 1) = true). { apply T. rewrite E, plus_IZR. replace (IZR f + 1 / 2 - (IZR f + 1)) with (- (1 / 2)) by lra. rewrite Rabs_Ropp. apply Rabs_pos_eq. lra. }
        rewrite Z.even_add in Q. destruct (Z.even f); auto; discriminate.
Qed.
Lemma round_tie r : Rabs (r - IZR (np_round r)) = 1 / 2 -> Z.even (np_round r) = true.
Proof.
  unfold np_round. destruct (base_Int_part r) as (A & B). set (f := Int_part r) in *. destruct (Rlt_dec (r - IZR f) (1 / 2)) as [C|C]. { rewrite Rabs_pos_eq by lra. lra. }
  destruct (Rlt_dec (1 / 2) (r - IZR f)) as [D|D]. { rewrite plus_IZR. rewrite Rabs_left1 by lra. lra. } destruct (Z.even f) eqn:E; auto. rewrite Z.even_add, E. reflexivity.
Qed.
Lemma round_opp r : np_round (- r) = (- np_round r)%Z.
Proof.
  apply round_char.
  - unfold nearest. rewrite opp_IZR. replace (- r - - IZR (np_round r)) with (- (r - IZR (np_round r))) by ring. rewrite Rabs_Ropp. apply round_nearest.
  - rewrite opp_IZR. replace (- r - - IZR (np_round r)) with (- (r - IZR (np_round r))) by ring. rewrite Rabs_Ropp. intros T. apply round_tie in T. now rewrite Z.even_opp.
Qed.
Lemma exponent_opp N e C P t : window_exponent N e (- C) P t = window_exponent N e C P t.
Proof. unfold window_exponent. rewrite opp_IZR. unfold Rdiv. rewrite Rinv_opp. ring. Qed.
(** The sign of the number of cycles is not looked at, and no cycles are accepted: the result is nan. *)
Theorem C88_sign_of_cycles_refuted : forall (fs cycles : Z) (db : R) (td : mat) (N k : nat), shape td N k -> (2 <= N)%nat -> (0 < k <= N / 2 + 1)%nat -> (0 < fs)%Z -> db < 0 ->
  window_frequency_dependent fs (- cycles) db td = window_frequency_dependent fs cycles db td /\ window_frequency_dependent fs 0 db td = Ok None.
Proof.
  intros fs cycles db td N k Sh HN Hk Hf Hdb. rewrite !(fdw_value fs _ db td N k) by auto.
  assert (CS : forall j, cycle_samples N fs (- cycles) j = (- cycle_samples N fs cycles j)%Z). { intros j. unfold cycle_samples. rewrite opp_IZR, Ropp_mult_distr_r_reverse. apply round_opp. }
  split.
  - f_equal. assert (E1 : forall l, existsb (fun k => (cycle_samples N fs (- cycles) k =? 0)%Z) l = existsb (fun k => (cycle_samples N fs cycles k =? 0)%Z) l).
    { induction l; simpl; auto. rewrite IHl. f_equal. rewrite CS. destruct (Z.eqb_spec (- cycle_samples N fs cycles a) 0), (Z.eqb_spec (cycle_samples N fs cycles a) 0); auto; lia. }
    rewrite E1. destruct (existsb _ _) eqn:X; auto. do 2 f_equal. unfold fdw_data. apply map_ext. intros x. f_equal. apply map_ext_in. intros j Hj. unfold fdw_bin. apply (sum_ext (HA := CRing_C)). intros t Ht. cbv zeta. now rewrite CS, exponent_opp.
  - assert (E : existsb (fun k => (cycle_samples N fs 0 k =? 0)%Z) (seq 1 (N / 2)) = true). 2: now rewrite E.
    apply existsb_exists. exists 1%nat. split. { apply in_seq. assert (2 / 2 <= N / 2)%nat by (apply Nat.div_le_mono; lia). change (2 / 2)%nat with 1%nat in H. lia. } apply Z.eqb_eq. unfold cycle_samples. rewrite Rmult_0_r. apply round_char. unfold nearest. rewrite Rminus_eq_0, Rabs_R0. lra. reflexivity.
Qed.
Print Assumptions C88_sign_of_cycles_refuted.
Example C88_sign_of_cycles_case : shape fdw2 3 2 /\ (0 < 2 <= 3 / 2 + 1)%nat /\ -20 < 0.
Proof. destruct C88_bins_case as (A & B & _). repeat (split; auto; try lra; try lia). Qed.
(** Many cycles: every bin comes near that of the plain spectrum; the real and the imaginary part differ by at most the sum of the samples times
    ln(10) |db| / 20 (N / cycles)^2. *)
Theorem C88_long_windows : forall (fs cycles : Z) (db : R) (td : mat) (N k : nat), shape td N k -> (2 <= N)%nat -> (0 < k <= N / 2 + 1)%nat -> (0 < fs)%Z -> (0 < cycles)%Z -> db < 0 ->
  exists sp, window_frequency_dependent fs cycles db td = Ok (Some sp) /\
    forall c j, (c < k)%nat -> (1 <= j <= N / 2)%nat -> let z := nth j (nth c (sp_d sp) []) c0 in let y := dft N (nth c td []) j in
      let err := rsum N (fun t => Rabs (nth t (nth c td []) 0)) * (ln 10 * - db / 20 * (INR N / IZR cycles) ^ 2) in
      Rabs (fst z - fst y) <= err /\ Rabs (snd z - snd y) <= err.
Proof.
  intros fs cycles db td N k Sh HN Hk Hf Hc Hdb. pose proof Sh as (L1 & L2). pose proof L2 as L3. rewrite Forall_forall in L3. assert (L10 : 0 < ln 10) by (rewrite <- ln_1; apply ln_increasing; lra).
  rewrite (fdw_value fs cycles db td N k) by auto. rewrite no_zero_samples by auto. eexists. split; [reflexivity|]. cbn [sp_d]. intros c j Hc' Hj. rewrite fdw_data_nth by lia. destruct (Nat.eqb_spec j 0); [lia|].
  set (x := nth c td []). assert (Lx : length x = N) by (apply L3, nth_In; lia). destruct (first_peak_exists x) as (P & HP). { intros Z. rewrite Z in Lx. simpl in Lx. lia. }
  destruct (some_samples N fs cycles j HN Hf ltac:(lia) Hc) as ((S1 & _) & S2). rewrite (bin_seen N fs cycles db x P) by (auto; lia). rewrite samples_eq in S1 by (auto; lia). set (W := IZR (np_round _)) in *.
  assert (C0 : 0 < IZR cycles) by (now apply IZR_lt). assert (N0 : 0 < INR N) by (apply lt_0_INR; lia). set (q := ln 10 * - db / 20 * (INR N / IZR cycles) ^ 2).
  assert (B : forall t, (t < N)%nat -> 0 <= 1 - gauss db W (INR t - INR P) <= q).
  { intros t Ht. unfold gauss, Rpower. set (m := INR t - INR P). assert (Hm : m ^ 2 <= INR N ^ 2). { pose proof HP as (HPl & _). assert (- INR N <= m <= INR N). { unfold m. pose proof (pos_INR t). pose proof (pos_INR P). apply lt_INR in Ht. rewrite Lx in HPl. apply lt_INR in HPl. lra. } nra. }
    set (e := db / 20 * (m / W) ^ 2 * ln 10). assert (E2 : - e <= q).
    { unfold e, q. replace (- (db / 20 * (m / W) ^ 2 * ln 10)) with (ln 10 * - db / 20 * (m / W) ^ 2) by (field; lra). apply Rmult_le_compat_l. { assert (0 < ln 10 * - db) by nra. lra. }
      unfold Rdiv. rewrite !Rpow_mult_distr. apply Rmult_le_compat; auto. apply pow2_ge_0. apply pow2_ge_0. apply pow_incr. split. left; apply Rinv_0_lt_compat; lra. apply Rinv_le_contravar; lra. }
    assert (E3 : e <= 0). { unfold e. pose proof (pow2_ge_0 (m / W)). assert (0 <= (m / W) ^ 2 * ln 10) by (apply Rmult_le_pos; lra). nra. }
    pose proof (exp_ineq1_le e). split; [|lra]. assert (exp e <= exp 0) by (destruct E3 as [E3|E3]; [left; now apply exp_increasing|right; now f_equal]). rewrite exp_0 in *. lra. }
  assert (G : forall M, (M <= N)%nat -> let u := csum M (fun t => cmul (rc (nth t x 0 * gauss db W (INR t - INR P))) (root N (- (Z.of_nat t * Z.of_nat j)))) in let v := csum M (fun t => cmul (rc (nth t x 0)) (root N (- (Z.of_nat t * Z.of_nat j)))) in
    Rabs (fst u - fst v) <= rsum M (fun t => Rabs (nth t x 0)) * q /\ Rabs (snd u - snd v) <= rsum M (fun t => Rabs (nth t x 0)) * q).
  { induction M; intros HM u v. { unfold u, v. simpl. rewrite Rminus_eq_0, Rabs_R0. change (@r0 R CRing_R) with 0. lra. }
    destruct (IHM ltac:(lia)) as (I1 & I2). cbv zeta in I1, I2. unfold u, v. cbn [sum]. set (u' := csum M (fun t => cmul (rc (nth t x 0 * gauss db W (INR t - INR P))) (root N (- (Z.of_nat t * Z.of_nat j))))) in *. set (v' := csum M (fun t => cmul (rc (nth t x 0)) (root N (- (Z.of_nat t * Z.of_nat j))))) in *. destruct (B M ltac:(lia)) as (B1 & B2). set (g := gauss db W (INR M - INR P)) in *. change (@get R CRing_R x M) with (nth M x 0). set (xm := nth M x 0). change (@radd R CRing_R) with Rplus. change (@radd C CRing_C) with cadd. change (@rmul C CRing_C) with cmul.
    set (ro := root N _). assert (Ro : Rabs (fst ro) <= 1 /\ Rabs (snd ro) <= 1). { unfold ro, root, cis. cbn [fst snd]. split; apply Rabs_le. apply COS_bound. apply SIN_bound. }
    assert (Ax : forall r, Rabs r <= 1 -> Rabs (xm * (1 - g) * r) <= Rabs xm * q). { intros r Hr. rewrite !Rabs_mult, (Rabs_pos_eq (1 - g)) by lra. pose proof (Rabs_pos xm). pose proof (Rabs_pos r). assert (0 <= Rabs xm * (1 - g)) by nra. assert (Rabs xm * (1 - g) * Rabs r <= Rabs xm * (1 - g) * 1) by (apply Rmult_le_compat_l; lra). nra. }
    split.
    - cbn [cadd cmul rc fst snd]. replace (fst u' + (xm * g * fst ro - 0 * snd ro) - (fst v' + (xm * fst ro - 0 * snd ro))) with ((fst u' - fst v') + - (xm * (1 - g) * fst ro)) by ring. eapply Rle_trans; [apply Rabs_triang|]. rewrite Rabs_Ropp. specialize (Ax (fst ro) (proj1 Ro)). lra.
    - cbn [cadd cmul rc fst snd]. replace (snd u' + (xm * g * snd ro + 0 * fst ro) - (snd v' + (xm * snd ro + 0 * fst ro))) with ((snd u' - snd v') + - (xm * (1 - g) * snd ro)) by ring. eapply Rle_trans; [apply Rabs_triang|]. rewrite Rabs_Ropp. specialize (Ax (snd ro) (proj2 Ro)). lra. }
  exact (G N (le_n N)).
Qed.
Print Assumptions C88_long_windows.
Example C88_long_windows_case : shape fdw2 3 2 /\ (0 < 2 <= 3 / 2 + 1)%nat /\ (0 < 1000)%Z /\ (INR 3 / IZR 1000) ^ 2 < 1 / 10000.
Proof. destruct C88_bins_case as (A & B & _). repeat (split; auto; try lra; try lia). simpl INR. lra. Qed.
(** A response with more channels than bins and a level which is not negative are refused. *)
Theorem C88_refusals : forall (fs cycles : Z) (db : R) (td : mat) (N k : nat), shape td N k -> (2 <= N)%nat -> (0 < k)%nat -> (0 < fs)%Z ->
  (0 <= db -> window_frequency_dependent fs cycles db td = Err AssertionError) /\ (db < 0 -> (N / 2 + 1 < k)%nat -> window_frequency_dependent fs cycles db td = Err AssertionError).
Proof.
  intros fs cycles db td N k Sh HN Hk Hf. pose proof Sh as (L1 & L2). split.
  - intros H. unfold window_frequency_dependent. destruct (Rlt_dec db 0); [lra|reflexivity].
  - intros Hdb Hm. assert (Nr : nrows td = N) by (apply (shape_nrows _ N k); auto; lia). unfold window_frequency_dependent. destruct (Rlt_dec db 0); [|lra]. rewrite Nr.
    change (0 :: map (fun k0 : nat => INR k0 * IZR fs / INR N) (seq 1 (N / 2))) with (fdw_freqs N fs). change (map (fun x => rc 0 :: map (fdw_bin N fs cycles (from_db true db) x) (seq 1 (N / 2))) td) with (fdw_data N fs cycles db td).
    destruct (fdw_asc N fs HN Hf) as (A1 & A2). unfold new_spectrum. rewrite set_freqs_ok by auto. unfold set_sdata. cbn [sp_f with_f].
    assert (Ld : length (fdw_data N fs cycles db td) = k) by (unfold fdw_data; rewrite map_length; auto).
    assert (Rw : rows (fdw_data N fs cycles db td) = (N / 2 + 1)%nat). { unfold rows, fdw_data. destruct td as [|x td]; [simpl in L1; lia|]. cbn [map hd length]. rewrite map_length, seq_length. lia. }
    rewrite Rw, Ld. destruct (Nat.ltb_spec (N / 2 + 1) k); [|lia]. unfold gtranspose, rows at 1. rewrite Rw. rewrite fdw_freqs_length.
    destruct (Nat.eqb_spec (length (hd [] (mk (N / 2 + 1) (fun i => map (fun col => nth i col c0) (fdw_data N fs cycles db td))))) (N / 2 + 1)) as [E|E]; [|reflexivity]. exfalso.
    replace (N / 2 + 1)%nat with (S (N / 2)) in E at 1 by lia. unfold mk in E. cbn [seq map hd] in E. rewrite map_length, Ld in E. lia.
Qed.
Print Assumptions C88_refusals.
Example C88_refusals_case : shape [[1; 0; 0]; [0; 1; 0]; [0; 0; 1]] 3 3 /\ (3 / 2 + 1 < 3)%nat.
Proof. split; [split; [reflexivity|repeat constructor]|simpl; lia]. Qed.
