(** Property C111: resampling of a signal and true peak level. *)
From Coq Require Import List Arith Lia ZArith Bool Reals Lra Psatz.
From Verif Require Import Alg Spec M_arrays P_arrays M_signal P_signal M_level M_fracdelay M_rirconv Claims_rirconv M_resample.
Import ListNotations.
Local Open Scope R_scope.
Notation rs := (sum (HA := CRing_R)).

(** ** Specification *)
(** the smallest number of samples at the new rate that covers n samples at the old one *)
Definition covers (n N : nat) (fs new : Z) : Prop :=
  (Z.of_nat n * new <= Z.of_nat N * fs)%Z /\ forall M, (Z.of_nat n * new <= Z.of_nat M * fs)%Z -> (N <= M)%nat.
(** an interpolation kernel on the fine time grid of up times the old rate: a sinc with a zero at every multiple of rate, cut after ten zeros on each
    side with a Kaiser window of shape 5 (bessel z is the modified Bessel function at the root of z), of sum up *)
Definition kernel (bessel : R -> R) (up rate : nat) (g : Z -> R) : Prop :=
  (exists a, forall j, (Z.abs j <= 10 * Z.of_nat rate)%Z ->
     g j = a * sinc (IZR j / INR rate) * bessel (25 * (1 - (IZR j / (10 * INR rate)) ^ 2))) /\
  (forall j, (10 * Z.of_nat rate < Z.abs j)%Z -> g j = 0) /\
  rs (20 * rate + 1) (fun i => g (Z.of_nat i - 10 * Z.of_nat rate)%Z) = INR up.
(** the sum of the windowed sinc, which must not be 0 *)
Definition sinc_sum (bessel : R -> R) (rate : nat) : R :=
  rs (20 * rate + 1) (fun i => sinc ((INR i - 10 * INR rate) / INR rate) * bessel (25 * (1 - ((INR i - 10 * INR rate) / (10 * INR rate)) ^ 2))).
(** the interpolated channel c at the fine instant j *)
Definition interp (g : Z -> R) (s : signal) (n c up : nat) (j : Z) : R := rs n (fun k => entry (s_re s) k c * g (j - Z.of_nat k * Z.of_nat up)%Z).
Definition loudest (f : nat -> nat -> R) (N k : nat) (p : R) : Prop :=
  (forall c m, (c < k)%nat -> (m < N)%nat -> Rabs (f c m) <= p) /\ exists c m, (c < k)%nat /\ (m < N)%nat /\ Rabs (f c m) = p.

(** ** Kernel *)
Definition total (b0 : R -> R) (rate half : nat) : R := rs (2 * half + 1) (fun i => raw_tap b0 rate half i).
Definition g_of (b0 : R -> R) (up rate half : nat) (j : Z) : R :=
  if (Z.abs j <=? Z.of_nat half)%Z then raw_tap b0 rate half (Z.to_nat (j + Z.of_nat half)) / total b0 rate half * INR up else 0.
Lemma taps_len b0 up rate half : length (taps b0 up rate half) = (2 * half + 1)%nat.
Proof. unfold taps. now rewrite map_length, mk_length. Qed.
Lemma taps_nth b0 up rate half i : (i < 2 * half + 1)%nat -> nth i (taps b0 up rate half) 0 = raw_tap b0 rate half i / total b0 rate half * INR up.
Proof.
  intros H. unfold taps. rewrite (nth_map' _ _ _ 0 0) by (now rewrite mk_length). rewrite nth_mk by auto. rewrite mk_length. do 2 f_equal. unfold total. apply sum_ext. intros k K. now rewrite (get_mk (HA := CRing_R)) by auto.
Qed.
Lemma raw_form b0 rate i : (0 < rate)%nat -> raw_tap b0 rate (10 * rate) i =
  sinc ((INR i - 10 * INR rate) / INR rate) * b0 (25 * (1 - ((INR i - 10 * INR rate) / (10 * INR rate)) ^ 2)) * (/ INR rate * / b0 25).
Proof.
  intros H. apply lt_0_INR in H. unfold raw_tap, kaiser5. rewrite mult_INR. replace (INR 10) with 10 by (cbn; lra).
  replace (1 / INR rate * (INR i - 10 * INR rate)) with ((INR i - 10 * INR rate) / INR rate) by (field; lra).
  unfold Rsqr. replace ((INR i - 10 * INR rate) / (10 * INR rate) * ((INR i - 10 * INR rate) / (10 * INR rate))) with (((INR i - 10 * INR rate) / (10 * INR rate)) ^ 2) by ring. unfold Rdiv. ring.
Qed.
Lemma total_form b0 rate : (0 < rate)%nat -> total b0 rate (10 * rate) = sinc_sum b0 rate * (/ INR rate * / b0 25).
Proof.
  intros H. unfold total, sinc_sum. replace (2 * (10 * rate) + 1)%nat with (20 * rate + 1)%nat by lia.
  etransitivity; [|apply (sum_scal_r (HA := CRing_R))]. apply sum_ext. intros i _. now apply raw_form.
Qed.
Lemma kernel_ok b0 up rate : (0 < rate)%nat -> sinc_sum b0 rate <> 0 -> b0 25 <> 0 -> kernel b0 up rate (g_of b0 up rate (10 * rate)).
Proof.
  intros P T B. pose proof (lt_0_INR _ P) as P'. assert (T' : total b0 rate (10 * rate) <> 0).
  { rewrite total_form by auto. repeat apply Rmult_integral_contrapositive_currified; auto; apply Rinv_neq_0_compat; lra. }
  split; [|split].
  - exists (/ INR rate * / b0 25 / total b0 rate (10 * rate) * INR up). intros j J. unfold g_of. destruct (Z.leb_spec (Z.abs j) (Z.of_nat (10 * rate))); [|lia].
    rewrite raw_form by auto. assert (Q : INR (Z.to_nat (j + Z.of_nat (10 * rate))) - 10 * INR rate = IZR j).
    { rewrite INR_IZR_INZ, Z2Nat.id by lia. rewrite plus_IZR, <- INR_IZR_INZ, mult_INR. replace (INR 10) with 10 by (cbn; lra). lra. }
    rewrite Q. unfold Rdiv. ring.
  - intros j H. unfold g_of. destruct (Z.leb_spec (Z.abs j) (Z.of_nat (10 * rate))); auto. lia.
  - transitivity (total b0 rate (10 * rate) * (/ total b0 rate (10 * rate) * INR up)); [|field; auto].
    unfold total at 1. replace (2 * (10 * rate) + 1)%nat with (20 * rate + 1)%nat by lia. etransitivity; [|apply (sum_scal_r (HA := CRing_R))].
    apply sum_ext. intros i I. unfold g_of. destruct (Z.leb_spec (Z.abs (Z.of_nat i - 10 * Z.of_nat rate)) (Z.of_nat (10 * rate))); [|lia].
    replace (Z.to_nat (Z.of_nat i - 10 * Z.of_nat rate + Z.of_nat (10 * rate))) with i by lia. cbn [rmul CRing_R]. unfold Rdiv. ring.
Qed.
(** ** One channel *)
Lemma ceil_spec a d N : (0 < d)%nat -> N = (a / d + (if a mod d =? 0 then 0 else 1))%nat -> (a <= N * d)%nat /\ (forall M, (a <= M * d)%nat -> (N <= M)%nat).
Proof.
  intros D ->. pose proof (Nat.div_mod a d ltac:(lia)) as Q. pose proof (Nat.mod_upper_bound a d ltac:(lia)). destruct (Nat.eqb_spec (a mod d) 0).
  - split; [nia|]. intros M HM. nia.
  - split; [nia|]. intros M HM. apply Nat.nlt_ge. intros K. nia.
Qed.
Lemma col_len b0 up down x : length (resample_col b0 up down x) = (length x * up / down + (if (length x * up) mod down =? 0 then 0 else 1))%nat.
Proof. unfold resample_col. apply mk_length. Qed.
Lemma col_value b0 up down x m : (0 < up)%nat -> (0 < down)%nat -> let half := (10 * Nat.max up down)%nat in
  (m < length (resample_col b0 up down x))%nat ->
  nth m (resample_col b0 up down x) 0 = rs (length x) (fun k => nth k x 0 * g_of b0 up (Nat.max up down) half (Z.of_nat m * Z.of_nat down - Z.of_nat k * Z.of_nat up)).
Proof.
  intros U D half M. rewrite col_len in M. unfold resample_col. rewrite nth_mk by auto. apply sum_ext. intros k K. fold half.
  set (pad := (down - half mod down)%nat). assert (PM : ((half + pad) / down * down = half + pad)%nat).
  { pose proof (Nat.div_mod half down ltac:(lia)). pose proof (Nat.mod_upper_bound half down ltac:(lia)). replace (half + pad)%nat with ((half / down + 1) * down)%nat by (unfold pad; nia). rewrite Nat.div_mul by lia. reflexivity. }
  rewrite Nat.mul_add_distr_r, PM. unfold get. cbn [r0 CRing_R]. unfold g_of.
  destruct (Nat.leb_spec (k * up) (half + pad + m * down)) as [L|L].
  - f_equal. destruct (Z.leb_spec (Z.abs (Z.of_nat m * Z.of_nat down - Z.of_nat k * Z.of_nat up)) (Z.of_nat half)).
    + rewrite app_nth2; rewrite repeat_length; [|nia]. rewrite taps_nth by nia. do 3 f_equal. nia.
    + destruct (Nat.lt_ge_cases (half + pad + m * down - k * up) pad).
      * rewrite app_nth1 by (now rewrite repeat_length). apply nth_repeat.
      * rewrite app_nth2; rewrite repeat_length; [|auto]. apply nth_overflow. rewrite taps_len. nia.
  - destruct (Z.leb_spec (Z.abs (Z.of_nat m * Z.of_nat down - Z.of_nat k * Z.of_nat up)) (Z.of_nat half)); [nia|]. ring.
Qed.

(** ** Signals *)
Lemma ratio u d new fs : (0 < new)%Z -> (0 < fs)%Z -> Nat.gcd u d = 1%nat -> (Z.of_nat u * fs = Z.of_nat d * new)%Z ->
  (0 < u)%nat /\ (0 < d)%nat /\ Z.to_nat (new / Z.gcd new fs) = u /\ Z.to_nat (fs / Z.gcd new fs) = d.
Proof.
  intros N F G E. assert (u <> 0)%nat by (intros ->; destruct d; [discriminate|nia]). assert (d <> 0)%nat by (intros ->; nia).
  split; [lia|]. split; [lia|].
  assert (ZG : Z.gcd (Z.of_nat u) (Z.of_nat d) = 1%Z).
  { pose proof (Z.gcd_nonneg (Z.of_nat u) (Z.of_nat d)). set (g := Z.gcd (Z.of_nat u) (Z.of_nat d)) in *.
    assert (D1 : Nat.divide (Z.to_nat g) u). { destruct (Z.gcd_divide_l (Z.of_nat u) (Z.of_nat d)) as [q Q]. fold g in Q. exists (Z.to_nat q). nia. }
    assert (D2 : Nat.divide (Z.to_nat g) d). { destruct (Z.gcd_divide_r (Z.of_nat u) (Z.of_nat d)) as [q Q]. fold g in Q. exists (Z.to_nat q). nia. }
    pose proof (Nat.gcd_greatest _ _ _ D1 D2) as D. rewrite G in D. apply Nat.divide_1_r in D. lia. }
  assert (Dv : Z.divide (Z.of_nat u) new). { apply (Z.gauss _ (Z.of_nat d)); [exists fs; lia|auto]. }
  destruct Dv as [q Q]. assert (Q' : fs = (q * Z.of_nat d)%Z) by nia. assert (0 < q)%Z by nia.
  assert (GG : Z.gcd new fs = q). { rewrite Q, Q', Z.gcd_mul_mono_l, ZG. lia. }
  rewrite GG, Q, Q'. rewrite !(Z.mul_comm q), !Z.div_mul by lia. rewrite !Nat2Z.id. auto.
Qed.
Lemma covers_len u d new fs n N : (0 < u)%nat -> (0 < d)%nat -> (0 < fs)%Z -> (Z.of_nat u * fs = Z.of_nat d * new)%Z -> covers n N fs new ->
  (n * u / d + (if (n * u) mod d =? 0 then 0 else 1))%nat = N.
Proof.
  intros U D F E [C1 C2]. destruct (ceil_spec (n * u) d _ D eq_refl) as [A B]. set (M := (n * u / d + _)%nat) in *. clearbody M.
  assert (X : forall K, (Z.of_nat n * new <= Z.of_nat K * fs)%Z <-> (n * u <= K * d)%nat).
  { intros K. split; intros H.
    - apply Nat2Z.inj_le. rewrite !Nat2Z.inj_mul. nia.
    - apply Nat2Z.inj_le in H. rewrite !Nat2Z.inj_mul in H. nia. }
  apply Nat.le_antisymm; [apply B; now apply X|apply C2; now apply X].
Qed.
Definition rescale (rescaling : bool) (u d : nat) : R := if rescaling then INR d / INR u else 1.
Definition new_cols (b0 : R -> R) (rescaling : bool) (u d : nat) (x : list R) : list R :=
  let y := resample_col b0 u d x in if rescaling then map (fun v => v * (INR d / INR u)) y else y.
Lemma resample_go b0 rescaling new s u d : (0 < new)%Z -> (0 < s_fs s)%Z -> s_fs s <> new -> Nat.gcd u d = 1%nat -> (Z.of_nat u * s_fs s = Z.of_nat d * new)%Z ->
  resample b0 rescaling new s = bind (set_data s (mkIn (map (new_cols b0 rescaling u d) (s_re s)) None false)) (fun s' => Ok (set_rate s' new)).
Proof.
  intros N F D G E. destruct (ratio u d new (s_fs s) N F G E) as (_ & _ & A & B). unfold resample. apply Z.eqb_neq in D. rewrite D, A, B.
  destruct rescaling; [rewrite map_map|]; reflexivity.
Qed.
Lemma new_cols_shape b0 rescaling u d s n k N : shape (s_re s) n k -> (n * u / d + (if (n * u) mod d =? 0 then 0 else 1))%nat = N ->
  shape (map (new_cols b0 rescaling u d) (s_re s)) N k.
Proof.
  intros S E. apply (shape_cols _ _ n). auto. intros x <-. unfold new_cols. destruct rescaling; rewrite ?map_length, col_len; auto.
Qed.
Lemma new_cols_entry b0 rescaling u d s n k N c m : shape (s_re s) n k -> (0 < u)%nat -> (0 < d)%nat -> (n * u / d + (if (n * u) mod d =? 0 then 0 else 1))%nat = N ->
  (c < k)%nat -> (m < N)%nat ->
  entry (map (new_cols b0 rescaling u d) (s_re s)) m c = rescale rescaling u d * interp (g_of b0 u (Nat.max u d) (10 * Nat.max u d)) s n c u (Z.of_nat m * Z.of_nat d).
Proof.
  intros S U D E C M. rewrite (entry_cols _ _ n k) by auto. assert (L : length (nth c (s_re s) []) = n) by (now apply (shape_col _ n k)).
  assert (L' : length (resample_col b0 u d (nth c (s_re s) [])) = N) by (rewrite col_len, L; auto).
  unfold new_cols, rescale. destruct rescaling.
  - rewrite (nth_map' _ _ _ 0 0) by (rewrite L'; auto). rewrite col_value by (auto; rewrite L'; auto). rewrite L. unfold interp, entry. ring.
  - rewrite col_value by (auto; rewrite L'; auto). rewrite L. unfold interp, entry. ring.
Qed.

(** ** Theorems *)
(** The new signal has the number of samples that covers the old duration and the new rate. Sample m is the kernel interpolation of the channel at its
    instant m / new, without any delay, times d / u with rescaling; and all is divided by the loudest sample when a constrained signal exceeds 1. *)
Theorem C111_resample bessel (rescaling : bool) new s n k N u d : sig_ok s n k -> (0 < new)%Z -> (0 < s_fs s)%Z -> s_fs s <> new ->
  Nat.gcd u d = 1%nat -> (Z.of_nat u * s_fs s = Z.of_nat d * new)%Z -> covers n N (s_fs s) new -> (k <= N)%nat -> (2 <= N)%nat ->
  sinc_sum bessel (Nat.max u d) <> 0 -> bessel 25 <> 0 ->
  exists g, kernel bessel u (Nat.max u d) g /\
    forall f : nat -> nat -> R, (forall c m, f c m = (if rescaling then INR d / INR u else 1) * interp g s n c u (Z.of_nat m * Z.of_nat d)) ->
    forall p, loudest f N k p ->
    exists s', resample bessel rescaling new s = Ok s' /\ shape (s_re s') N k /\ s_im s' = None /\ s_fs s' = new /\ s_constr s' = s_constr s /\
      forall c m, (c < k)%nat -> (m < N)%nat -> entry (s_re s') m c = (if s_constr s then if Rlt_dec 1 p then / p else 1 else 1) * f c m.
Proof.
  intros O Hn Hf Dn G E Cv KN N2 T B. destruct O as [Hk Hkn H2 Re _ _ _]. destruct (ratio u d new (s_fs s) Hn Hf G E) as (U & D & _ & _).
  pose proof (covers_len u d new (s_fs s) n N U D Hf E Cv) as HN.
  exists (g_of bessel u (Nat.max u d) (10 * Nat.max u d)). split; [apply kernel_ok; auto; lia|]. intros f Ff p [P1 P2].
  assert (En : forall c m, (c < k)%nat -> (m < N)%nat -> entry (map (new_cols bessel rescaling u d) (s_re s)) m c = f c m).
  { intros c m C M. rewrite (new_cols_entry _ _ _ _ s n k N) by auto. now rewrite Ff. }
  pose proof (new_cols_shape bessel rescaling u d s n k N Re HN) as Sh.
  destruct (set_time_data_spec (s_constr s) (s_fs s) (mkIn (map (new_cols bessel rescaling u d) (s_re s)) None false) N k p) as (h & Eh & A & Bf & Ds & F & Gh & I); auto; try lia; try nia.
  - split; [auto|discriminate].
  - split.
    + intros i c I C. split; [|discriminate]. cbn [i_re]. rewrite En by auto. now apply P1.
    + destruct P2 as (c & i & C & I & E'). exists i, c. repeat split; auto. left. cbn [i_re]. rewrite En; auto.
  - rewrite Nat.max_l, Nat.min_r in * by lia. exists (set_rate h new). rewrite (resample_go _ _ _ _ u d) by auto. unfold set_data. rewrite Eh. cbn [bind i_im set_rate s_re s_im s_fs s_constr] in *. repeat split; auto; try apply F.
    intros c i C J. rewrite Gh by auto. cbn [i_re]. unfold oriented. replace (N <? k)%nat with false by (symmetry; apply Nat.ltb_ge; lia). rewrite En by auto. f_equal. rewrite Ds.
    destruct (s_constr s); auto. destruct (Rlt_dec 1 p); auto. field. lra.
Qed.
Print Assumptions C111_resample.

(** A kernel whose zeros are at the old sampling instants keeps the old samples up to one factor, the value of the kernel at 0. *)
Lemma sinc_int z : z <> 0%Z -> sinc (IZR z) = 0.
Proof.
  intros H. unfold sinc. destruct (Req_EM_T (IZR z) 0) as [E|_]; [apply eq_IZR in E; lia|]. rewrite sin_eq_0_1 by (exists z; ring). unfold Rdiv. ring.
Qed.
Lemma kernel_zero b up g z : (0 < up)%nat -> kernel b up up g -> z <> 0%Z -> g (z * Z.of_nat up)%Z = 0.
Proof.
  intros U ((a & A) & Z0 & _) H. destruct (Z_le_gt_dec (Z.abs (z * Z.of_nat up)) (10 * Z.of_nat up)) as [L|L]; [|apply Z0; lia].
  rewrite A by auto. rewrite mult_IZR, <- INR_IZR_INZ. pose proof (lt_0_INR _ U). replace (IZR z * INR up / INR up) with (IZR z) by (field; lra). rewrite sinc_int by auto. ring.
Qed.
Theorem C111_old_samples bessel g s n c u i : (0 < u)%nat -> kernel bessel u u g -> (i < n)%nat ->
  interp g s n c u (Z.of_nat i * Z.of_nat u) = g 0%Z * entry (s_re s) i c.
Proof.
  intros U K I. unfold interp. etransitivity; [apply (sum_single (HA := CRing_R) n i)|]; auto.
  - intros k Hk Hi. replace (Z.of_nat i * Z.of_nat u - Z.of_nat k * Z.of_nat u)%Z with ((Z.of_nat i - Z.of_nat k) * Z.of_nat u)%Z by ring.
    rewrite (kernel_zero bessel u) by (auto; lia). cbn. ring.
  - cbn beta. rewrite Z.sub_diag. ring.
Qed.
Print Assumptions C111_old_samples.

Theorem C111_same_rate bessel rescaling s : resample bessel rescaling (s_fs s) s = Ok s.
Proof. unfold resample. now rewrite Z.eqb_refl. Qed.
Print Assumptions C111_same_rate.

(** The imaginary part of a complex signal is ignored: the result is the same whatever it is, and real. *)
Theorem C111_imaginary_refuted bessel rescaling new s im : s_fs s <> new ->
  resample bessel rescaling new (mkSig (s_re s) im (s_scale s) (s_constr s) (s_fs s)) = resample bessel rescaling new s.
Proof. intros H. unfold resample. cbn [s_fs s_re]. apply Z.eqb_neq in H. rewrite H. reflexivity. Qed.
Print Assumptions C111_imaginary_refuted.

(** When fewer samples than channels remain, samples and channels are exchanged; a single remaining sample of one channel is an error. *)
Theorem C111_few_samples_refuted bessel rescaling new s n k N u d : sig_ok s n k -> (0 < new)%Z -> (0 < s_fs s)%Z -> s_fs s <> new ->
  Nat.gcd u d = 1%nat -> (Z.of_nat u * s_fs s = Z.of_nat d * new)%Z -> covers n N (s_fs s) new ->
  ((0 < N < k)%nat -> exists s', resample bessel rescaling new s = Ok s' /\ shape (s_re s') k N) /\
  (N = 1%nat -> k = 1%nat -> resample bessel rescaling new s = Err IndexError).
Proof.
  intros O Hn Hf Dn G E Cv. destruct O as [Hk Hkn H2 Re _ _ _]. destruct (ratio u d new (s_fs s) Hn Hf G E) as (U & D & _ & _).
  pose proof (covers_len u d new (s_fs s) n N U D Hf E Cv) as HN. pose proof (new_cols_shape bessel rescaling u d s n k N Re HN) as Sh.
  rewrite (resample_go _ _ _ _ u d) by auto. split.
  - intros KN. destruct (peak_att _ N k Sh) as (i & c & I & C & P); try lia.
    destruct (set_time_data_spec (s_constr s) (s_fs s) (mkIn (map (new_cols bessel rescaling u d) (s_re s)) None false) N k (peak (map (new_cols bessel rescaling u d) (s_re s)))) as (h & Eh & _ & _ & _ & F & _); auto; try lia; try nia.
    + split; [auto|discriminate].
    + split.
      * intros i' c' I' C'. split; [|discriminate]. now apply (peak_entry _ N k).
      * exists i, c. auto.
    + rewrite Nat.max_r, Nat.min_l in F by lia. exists (set_rate h new). unfold set_data. rewrite Eh. auto.
  - intros -> ->. unfold set_data, set_time_data. cbn [i_re]. rewrite (shape_nrows _ 1 1), (shape_ncols _ 1 1) by (auto; lia). reflexivity.
Qed.
Print Assumptions C111_few_samples_refuted.

(** ** True peak *)
Lemma down_up : 0 < from_db true (- (1204 / 100)) /\ from_db true (- (1204 / 100)) * Rpower 10 (602 / 1000) = 1.
Proof.
  unfold from_db, db_factor. split; [apply exp_pos|]. rewrite <- Rpower_plus. replace (- (1204 / 100) / 20 + 602 / 1000) with 0 by lra. apply Rpower_O. lra.
Qed.
Lemma summit_scale f g N q v : 0 < v -> (forall i, (i < N)%nat -> g i = v * f i) -> summit g N q -> summit f N (q * (1 / v)).
Proof.
  intros V E [A (i & I & B)]. assert (X : forall j, (j < N)%nat -> Rabs (f j) = Rabs (g j) * (1 / v)).
  { intros j J. rewrite E, Rabs_mult, (Rabs_pos_eq v) by (auto; lra). field. lra. }
  split.
  - intros j J. rewrite X by auto. apply Rmult_le_compat_r; auto. apply Rlt_le, Rdiv_lt_0_compat; lra.
  - exists i. split; auto. rewrite X by auto. now rewrite B.
Qed.
(** For a real number v, 20 log10 v with the smallest positive normal number as a floor *)
Definition dbfs (v : R) : R := 20 * (ln (Rmax v (/ 2 ^ 1022)) / ln 10).
(** The true peak level is the level of the largest absolute value of the channel interpolated to four times the rate and the peak level that of the
    samples; the reduction of the gain leaves no trace. The true peak is at least the peak times the value of the kernel at 0. The hypothesis for constrained
    signals excludes interpolated values above 12.04 dBFS. *)
Theorem C111_true_peak bessel s n k : sig_ok s n k -> (0 < s_fs s)%Z -> sinc_sum bessel 4 <> 0 -> bessel 25 <> 0 ->
  exists g, kernel bessel 4 4 g /\
    ((s_constr s = true -> forall c m, (c < k)%nat -> (m < 4 * n)%nat -> Rabs (interp g s n c 4 (Z.of_nat m)) <= Rpower 10 (602 / 1000)) ->
     exists tp pk, true_peak_level bessel s = Ok (tp, pk) /\ length tp = k /\ length pk = k /\
       forall c, (c < k)%nat -> exists P Q, summit (fun m => interp g s n c 4 (Z.of_nat m)) (4 * n) P /\ summit (fun i => entry (s_re s) i c) n Q /\
         nth c tp 0 = dbfs P /\ nth c pk 0 = dbfs Q /\ Rabs (g 0%Z) * Q <= P).
Proof.
  intros O F T B. pose proof O as [Hk Hkn H2 Re _ Bd _]. destruct down_up as [Vp Vu]. set (v := from_db true (- (1204 / 100))) in *.
  set (g := g_of bessel 4 (Nat.max 4 1) (10 * Nat.max 4 1)). assert (K : kernel bessel 4 4 g) by (apply (kernel_ok bessel 4 4); auto; lia).
  exists g. split; [exact K|]. intros Hc.
  assert (v1 : v <= 1). { unfold v, from_db, db_factor. rewrite <- (Rpower_O 10) by lra. apply Rle_Rpower; lra. }
  set (m1 := map (map (fun w => w * v)) (s_re s)). assert (S1 : shape m1 n k) by (apply (shape_cols _ _ n); auto; intros x <-; apply map_length).
  assert (E1 : forall i c, (i < n)%nat -> (c < k)%nat -> entry m1 i c = v * entry (s_re s) i c).
  { intros i c I C. unfold m1. rewrite (entry_cols _ _ n k) by auto. rewrite (nth_map' _ _ _ 0 0) by (rewrite (shape_col _ n k); auto). unfold entry. ring. }
  set (s1 := mkSig m1 None 1 (s_constr s) (s_fs s)).
  assert (R1 : set_data s (mkIn m1 None false) = Ok s1).
  { unfold set_data. rewrite (set_identity _ _ _ n k); auto.
    - split; [auto|discriminate].
    - intros HC. split; [|discriminate]. intros i c I C. cbn [i_re]. rewrite E1 by auto. rewrite Rabs_mult, (Rabs_pos_eq v) by lra. specialize (Bd HC i c I C). pose proof (Rabs_pos (entry (s_re s) i c)). nra. }
  set (m2 := map (new_cols bessel false 4 1) m1).
  assert (L : (n * 4 / 1 + (if (n * 4) mod 1 =? 0 then 0 else 1))%nat = (4 * n)%nat) by (rewrite Nat.div_1_r, Nat.mod_1_r; cbn; lia).
  assert (S2 : shape m2 (4 * n) k) by (apply (new_cols_shape bessel false 4 1 s1 n k (4 * n)); auto).
  assert (E2 : forall c m, (c < k)%nat -> (m < 4 * n)%nat -> entry m2 m c = v * interp g s n c 4 (Z.of_nat m)).
  { intros c m C M. unfold m2. change m1 with (s_re s1). rewrite (new_cols_entry _ _ _ _ s1 n k (4 * n)) by (auto; lia). fold g. unfold rescale. rewrite Rmult_1_l, Z.mul_1_r.
    unfold interp. etransitivity; [|apply (sum_scal_l (HA := CRing_R))]. apply sum_ext. intros j J. cbn [s_re s1 rmul CRing_R]. rewrite E1 by auto. ring. }
  set (s2 := mkSig m2 None 1 (s_constr s) (s_fs s * 4)).
  assert (R2 : resample bessel false (s_fs s1 * 4) s1 = Ok s2).
  { rewrite (resample_go _ _ _ _ 4 1) by (cbn [s_fs s1]; auto; lia). unfold set_data. cbn [s_constr s_fs s1 s_re]. fold m2. rewrite (set_identity _ _ _ (4 * n) k); auto; try lia.
    - split; [auto|discriminate].
    - intros HC. split; [|discriminate]. intros i c I C. cbn [i_re]. rewrite E2 by auto. rewrite Rabs_mult, (Rabs_pos_eq v) by lra. specialize (Hc HC c i C I). nra. }
  unfold true_peak_level. fold v. fold m1. rewrite R1. cbn [bind]. rewrite R2. cbn [bind s_re s1 s2]. eexists _, _. split; [reflexivity|].
  rewrite !map_length. split; [apply S2|]. split; [apply S1|]. intros c C.
  assert (L1 : length (nth c m1 []) = n) by (now apply (shape_col _ n k)). assert (L2 : length (nth c m2 []) = (4 * n)%nat) by (now apply (shape_col _ (4 * n) k)).
  assert (P1 : summit (fun m => interp g s n c 4 (Z.of_nat m)) (4 * n) (vpeak (nth c m2 []) * (1 / v))).
  { apply (summit_scale _ (fun m => entry m2 m c)); auto. pose proof (proj1 (vpeak_summit (nth c m2 []) _ ltac:(lia)) eq_refl) as Q. now rewrite L2 in Q. }
  assert (P2 : summit (fun i => entry (s_re s) i c) n (vpeak (nth c m1 []) * (1 / v))).
  { apply (summit_scale _ (fun m => entry m1 m c)); auto. pose proof (proj1 (vpeak_summit (nth c m1 []) _ ltac:(lia)) eq_refl) as Q. now rewrite L1 in Q. }
  exists (vpeak (nth c m2 []) * (1 / v)), (vpeak (nth c m1 []) * (1 / v)). split; [exact P1|]. split; [exact P2|].
  split; [rewrite (nth_map' _ _ _ [] 0) by (destruct S2; lia); reflexivity|]. split; [rewrite (nth_map' _ _ _ [] 0) by (destruct S1; lia); reflexivity|].
  destruct P2 as [_ (i & I & <-)]. destruct P1 as [A _]. specialize (A (4 * i)%nat ltac:(lia)). cbn beta in A.
  replace (Z.of_nat (4 * i)) with (Z.of_nat i * Z.of_nat 4)%Z in A by lia. rewrite (C111_old_samples bessel) in A by (auto; lia). now rewrite Rabs_mult in A.
Qed.
Print Assumptions C111_true_peak.

(** ** A case: 48000 Hz to 64000 Hz and back, two channels; a window of one sample. *)
Definition narrow (z : R) : R := if Rle_dec 25 z then 1 else 0.
Lemma narrow_sum rate : (0 < rate)%nat -> sinc_sum narrow rate = 1.
Proof.
  intros H. pose proof (lt_0_INR _ H). unfold sinc_sum. etransitivity; [apply (sum_single (HA := CRing_R) _ (10 * rate)); [lia|]|]; cbn beta.
  - intros i I N. unfold narrow. destruct (Rle_dec 25 _) as [L|_]; [|cbn; ring]. exfalso.
    assert (X : (INR i - 10 * INR rate) / (10 * INR rate) <> 0).
    { intros Z. apply N. apply INR_eq. rewrite mult_INR. replace (INR 10) with 10 by (cbn; lra). apply (Rmult_eq_compat_r (10 * INR rate)) in Z. unfold Rdiv in Z. rewrite Rmult_assoc, Rinv_l in Z; lra. }
    assert (0 < ((INR i - 10 * INR rate) / (10 * INR rate)) ^ 2) by (rewrite <- Rsqr_pow2; now apply Rsqr_pos_lt). lra.
  - rewrite mult_INR. replace (INR 10) with 10 by (cbn; lra). unfold Rminus at 1 2. rewrite Rplus_opp_r. unfold Rdiv. rewrite !Rmult_0_l. unfold sinc, narrow. destruct (Req_EM_T 0 0); [|lra]. destruct (Rle_dec 25 _); lra.
Qed.
Definition stereo : signal := mkSig [[1; 0; / 2]; [0; 1; -1]] None 1 true 48000.
Lemma stereo_ok : sig_ok stereo 3 2.
Proof.
  split; try lia; try discriminate.
  - split; [reflexivity|]. repeat constructor.
  - intros _ i c I C. destruct c as [|[|c]]; [| |lia]; (destruct i as [|[|[|i]]]; [| | |lia]); unfold entry; cbn; unfold Rabs; destruct (Rcase_abs _); lra.
Qed.
Example C111_stereo : exists g, kernel narrow 4 4 g /\ forall p, loudest (fun c m => 1 * interp g stereo 3 c 4 (Z.of_nat m * Z.of_nat 3)) 4 2 p ->
  exists s', resample narrow false 64000 stereo = Ok s' /\ shape (s_re s') 4 2 /\ s_fs s' = 64000%Z.
Proof.
  destruct (C111_resample narrow false 64000 stereo 3 2 4 4 3) as (g & K & H); try reflexivity; try lia; try apply stereo_ok; try (cbn; lia).
  - split; cbn [s_fs stereo]; [lia|]. intros M. lia.
  - change (Nat.max 4 3) with 4%nat. rewrite narrow_sum by lia. lra.
  - unfold narrow. destruct (Rle_dec 25 25); lra.
  - exists g. split; [exact K|]. intros p P. destruct (H _ (fun c m => eq_refl) p P) as (s' & A & C & _ & D & _). exists s'. auto.
Qed.
Example C111_true_peak_case : exists g, kernel narrow 4 4 g.
Proof.
  destruct (C111_true_peak narrow stereo 3 2) as (g & K & _); try apply stereo_ok; try reflexivity.
  - rewrite narrow_sum by lia. lra.
  - unfold narrow. destruct (Rle_dec 25 25); lra.
  - now exists g.
Qed.
(** two channels of three samples from 48000 to 16000 Hz: one channel of two samples *)
Example C111_exchanged bessel : exists s', resample bessel false 16000 stereo = Ok s' /\ shape (s_re s') 2 1.
Proof.
  apply (C111_few_samples_refuted bessel false 16000 stereo 3 2 1 1 3); try reflexivity; try lia; try apply stereo_ok; try (cbn; lia).
  split; cbn [s_fs stereo]; [lia|]. intros M. lia.
Qed.
