(** Property C82: noise. *)
From Coq Require Import List Arith Lia ZArith Bool Reals Lra Psatz.
From Verif Require Import Alg Spec Dft M_arrays M_signal P_signal M_dynamics M_distances M_ir M_mel M_level Claims_signal Claims_level Claims_fade P_dft2 Claims_das Claims_deconv Claims_mel M_generators Claims_generators Claims_chirp Claims_osc.
Import ListNotations.
Local Open Scope R_scope.

(** ** Specification *)
(** A-weighting without its constant (IEC 61672) *)
Definition a_curve (f : R) : R := f ^ 4 / ((f ^ 2 + (206 / 10) ^ 2) * sqrt ((f ^ 2 + (1077 / 10) ^ 2) * (f ^ 2 + (7379 / 10) ^ 2)) * (f ^ 2 + 12194 ^ 2)).
(** The amplitude of the noise at frequency f > 0. The power falls with f^(-beta): 0 white, 1 pink, 2 red, -1 blue, -2 violet. [fr]: the reference frequency of grey noise. *)
Definition colour (ty : noise_type) (fr f : R) : R :=
  match ty with
  | NWhite => 1 | NPink => Rpower f (- (1 / 2)) | NRed => / f | NBlue => Rpower f (1 / 2) | NViolet => f
  | NBeta b => Rpower f (- b / 2)
  | NGrey => a_curve fr / a_curve f
  end.
(** the bin of the l-point spectrum nearest to a frequency, the lower one of two *)
Definition near_bin (l : nat) (fs f : R) (k : nat) : Prop :=
  (k <= l / 2)%nat /\ (forall j, (j <= l / 2)%nat -> Rabs (f - INR k * fs / INR l) <= Rabs (f - INR j * fs / INR l)) /\ (forall j, (j < k)%nat -> Rabs (f - INR k * fs / INR l) < Rabs (f - INR j * fs / INR l)).
(** magnitude of bin k for the draw m *)
Definition bin_mag (ty : noise_type) (l id : nat) (fs fr m : R) (k : nat) : R :=
  if (k =? 0)%nat then 0 else if (k <? id)%nat then m / 10 ^ 20 else m * colour ty fr (INR k * fs / INR l).

(** ** Auxiliary facts *)
Lemma freq_len l fs : length (rfftfreq l fs) = (l / 2 + 1)%nat.
Proof. unfold rfftfreq. apply mk_len. Qed.
Lemma freq_at l fs k : (k <= l / 2)%nat -> get (rfftfreq l fs) k = INR k * fs / INR l.
Proof. intros H. unfold rfftfreq. now rewrite (get_mk (HA := CRing_R)) by lia. Qed.
Lemma nearest_is l fs f : near_bin l fs f (nearest f (rfftfreq l fs)).
Proof.
  destruct (nearest_spec f (rfftfreq l fs)) as (A & B & D). { intros E. apply (f_equal (@length R)) in E. rewrite freq_len in E. simpl in E. lia. }
  rewrite freq_len in A, B. set (k := nearest f (rfftfreq l fs)) in *. split; [lia|]. split.
  - intros j Hj. specialize (B j ltac:(lia)). now rewrite !freq_at in B by lia.
  - intros j Hj. specialize (D j Hj). now rewrite !freq_at in D by lia.
Qed.
Lemma nearest_unique l fs f a b : near_bin l fs f a -> near_bin l fs f b -> a = b.
Proof.
  intros (A1 & A2 & A3) (B1 & B2 & B3). destruct (lt_eq_lt_dec a b) as [[L|]|L]; auto.
  - specialize (B3 _ L). specialize (A2 _ B1). lra.
  - specialize (A3 _ L). specialize (B2 _ A1). lra.
Qed.
Lemma opt_seq_mk {T} n (f : nat -> option T) (g : nat -> T) : (forall i, (i < n)%nat -> f i = Some (g i)) -> opt_seq (mk n f) = Some (mk n g).
Proof. intros H. unfold mk. apply opt_seq_map. intros i Hi. apply in_seq in Hi. apply H. lia. Qed.
Lemma opt_seq_none {T} (l : list (option T)) : In None l -> opt_seq l = None.
Proof. induction l as [|a l IH]; intros H; [easy|]. destruct H as [->|H]; [reflexivity|]. simpl. rewrite IH by auto. now destruct a. Qed.
Lemma a_curve_pos f : 0 < f -> 0 < a_curve f.
Proof.
  intros H. unfold a_curve. assert (0 < f ^ 2) by (apply pow_lt; auto). assert (0 < f ^ 4) by (apply pow_lt; auto). apply Rdiv_lt_0_compat; auto.
  apply Rmult_lt_0_compat; [apply Rmult_lt_0_compat|]; [nra| |nra]. apply sqrt_lt_R0. apply Rmult_lt_0_compat; nra.
Qed.
Lemma raw_a f : raw_weight WA f = 12194 ^ 2 * a_curve f.
Proof. unfold raw_weight, a_curve, Rdiv. ring. Qed.
Lemma half_pos l : (2 <= l)%nat -> (1 <= l / 2)%nat.
Proof. intros H. apply Nat.div_le_lower_bound; lia. Qed.
(** the weights that are read *)
Definition weights_of (ty : noise_type) (l : nat) (fs : R) : list R :=
  match ty with NGrey => let f := rfftfreq l fs in map (fun v => raw_weight WA v / raw_weight WA (get f (nearest 1000 f))) f | _ => [] end.
Lemma freq_increasing l fs : 0 < fs -> (0 < l)%nat -> increasing (rfftfreq l fs).
Proof.
  intros Hf Hl i j Hij Hj. rewrite freq_len in Hj. rewrite !freq_at by lia. apply lt_INR in Hij. assert (0 < INR l) by (apply lt_0_INR; auto).
  unfold Rdiv. apply Rmult_lt_compat_r; [now apply Rinv_0_lt_compat|]. nra.
Qed.
Lemma ref_above l fs id ir : 0 < fs -> (0 < l)%nat -> near_bin l fs 15 id -> near_bin l fs 1000 ir -> (id <= ir)%nat.
Proof.
  intros Hf Hl H1 H2. rewrite (nearest_unique _ _ _ _ _ H1 (nearest_is l fs 15)), (nearest_unique _ _ _ _ _ H2 (nearest_is l fs 1000)).
  apply nearest_mono. { intros E. apply (f_equal (@length R)) in E. rewrite freq_len in E. simpl in E. lia. } { now apply freq_increasing. } lra.
Qed.
Lemma weights_ok ty l fs ir : (2 <= l)%nat -> 0 < fs -> near_bin l fs 1000 ir -> (1 <= ir)%nat ->
  match ty with NGrey => frequency_weighting WA (rfftfreq l fs) | _ => Ok (Some []) end = Ok (Some (weights_of ty l fs)).
Proof.
  intros H2 Hf Hr H1. destruct ty; auto. assert (Q : nearest 1000 (rfftfreq l fs) = ir) by (apply (nearest_unique l fs 1000); auto; apply nearest_is).
  unfold weights_of, frequency_weighting. pose proof (half_pos l H2). pose proof (freq_len l fs) as L. cbv zeta. rewrite Q. set (f := rfftfreq l fs) in *.
  assert (P : 0 < raw_weight WA (get f ir)).
  { rewrite raw_a. destruct Hr as (Hr & _). unfold f. rewrite freq_at by auto. apply Rmult_lt_0_compat; [apply pow_lt; lra|]. apply a_curve_pos. apply Rdiv_lt_0_compat; [|apply lt_0_INR; lia]. apply Rmult_lt_0_compat; auto. apply lt_0_INR. lia. }
  destruct f as [|u [|v f]]; cbn [length] in L; try lia. destruct (Req_EM_T _ 0); [lra|]. reflexivity.
Qed.
(** the magnitudes of one channel *)
Lemma bins_ok ty fs l id ir mag : (2 <= l)%nat -> 0 < fs -> near_bin l fs 15 id -> near_bin l fs 1000 ir -> (1 <= id)%nat -> forall k, (k < l / 2 + 1)%nat ->
  noise_bin ty (nearest 15 (rfftfreq l fs)) k (get (rfftfreq l fs) k) (get (weights_of ty l fs) k) (get mag k) = Some (bin_mag ty l id fs (INR ir * fs / INR l) (get mag k) k).
Proof.
  intros H2 Hf Hid Hir H1 k Hk. rewrite (nearest_unique _ _ _ _ _ (nearest_is l fs 15) Hid). unfold noise_bin, bin_mag.
  destruct (Nat.eqb_spec k 0) as [->|K]. { destruct (Nat.ltb_spec 0 id); [|lia]. f_equal. ring. }
  destruct (Nat.ltb_spec k id). { reflexivity. } assert (IL : 0 < INR l) by (apply lt_0_INR; lia). assert (IK : 0 < INR k) by (apply lt_0_INR; lia).
  rewrite freq_at by lia. set (f := INR k * fs / INR l). assert (F : 0 < f) by (apply Rdiv_lt_0_compat; auto; now apply Rmult_lt_0_compat).
  assert (SQ : Rpower f (1 / 2) = sqrt f) by (replace (1 / 2) with (/ 2) by field; now apply Rpower_sqrt). pose proof (sqrt_lt_R0 f F) as SP.
  unfold colour, div_opt. destruct ty.
  - f_equal. ring.
  - destruct (Req_EM_T (sqrt f) 0); [lra|]. rewrite Rpower_Ropp, SQ. reflexivity.
  - destruct (Req_EM_T f 0); [lra|]. reflexivity.
  - now rewrite SQ.
  - reflexivity.
  - assert (Ir : (id <= ir)%nat) by (apply (ref_above l fs); auto; lia). destruct Hir as (Hr & Hr').
    assert (W : get (weights_of NGrey l fs) k = a_curve f / a_curve (INR ir * fs / INR l)).
    { unfold weights_of. cbv zeta. rewrite (nearest_unique l fs 1000 _ ir (nearest_is l fs 1000)) by (split; auto). unfold get at 1.
      rewrite (nth_indep _ _ ((fun v => raw_weight WA v / raw_weight WA (get (rfftfreq l fs) ir)) 0)) by (rewrite map_length, freq_len; lia). rewrite (map_nth (fun v => raw_weight WA v / raw_weight WA (get (rfftfreq l fs) ir))).
      change (nth k (rfftfreq l fs) 0) with (get (rfftfreq l fs) k). rewrite !freq_at by lia. rewrite !raw_a. fold f.
      assert (P : 0 < a_curve (INR ir * fs / INR l)). { apply a_curve_pos. apply Rdiv_lt_0_compat; auto. apply Rmult_lt_0_compat; auto. apply lt_0_INR. lia. } field. lra. }
    rewrite W. assert (P : 0 < a_curve (INR ir * fs / INR l)). { apply a_curve_pos. apply Rdiv_lt_0_compat; auto. apply Rmult_lt_0_compat; auto. apply lt_0_INR. lia. }
    pose proof (a_curve_pos f F) as P2. assert (0 < a_curve f / a_curve (INR ir * fs / INR l)) by (apply Rdiv_lt_0_compat; auto). destruct (Req_EM_T _ 0); [lra|]. f_equal. field. split; lra.
  - unfold fpow. destruct (Req_EM_T f 0); [lra|]. cbn [option_map]. do 3 f_equal. field.
Qed.
Definition noise_pad (pad fs : R) (p : nat) : Prop := (pad = 0 /\ p = 0%nat) \/ (0 < pad /\ rounds (pad * fs) p).
Lemma noise_pad_ok pad fs p : noise_pad pad (IZR fs) p -> (if Req_EM_T pad 0 then Ok O else if Rlt_dec 0 pad then Ok (int_of (pad * IZR fs + 5 / 10)) else Err AssertionError) = Ok p.
Proof. intros [(-> & ->)|(A & B)]. { destruct (Req_EM_T 0 0); [auto|lra]. } destruct (Req_EM_T pad 0); [lra|]. destruct (Rlt_dec 0 pad); [|lra]. now rewrite (rounds_floor _ _ B). Qed.
Lemma noise_eq len fs ty dbfs ch fade pad mags phs l p : 0 < len -> dbfs <= 0 -> (1 <= ch)%nat -> rounds (len * IZR fs) l -> (1 <= l)%nat -> noise_pad pad (IZR fs) p ->
  noise len fs ty dbfs ch fade pad mags phs = bind match ty with NGrey => frequency_weighting WA (rfftfreq l (IZR fs)) | _ => Ok (Some []) end (fun w =>
    finish dbfs fade len fs (l + p) (mk ch (fun c => match w with None => repeat None l | Some w =>
      match noise_col ty (IZR fs) l w (nth c mags []) (nth c phs []) with Some c => map Some c | None => repeat None l end end))).
Proof.
  intros H1 H2 H3 Hl L1 Hp. unfold noise. destruct (Rlt_dec 0 len); [|lra]. destruct (Rle_dec dbfs 0); [|lra]. rewrite (proj2 (Nat.leb_le _ _) H3). cbv zeta. rewrite (rounds_floor _ _ Hl).
  destruct (Nat.eqb_spec l 0); [lia|]. rewrite (noise_pad_ok _ _ _ Hp). reflexivity.
Qed.
(** the phase of bin k: zero at 0 Hz and at half the sampling rate, otherwise drawn *)
Definition bin_phase (l k : nat) (p : R) : R := if (k =? 0)%nat || (2 * k =? l)%nat then 0 else p.
Lemma bin_phase_eq l k p : (k <= l / 2)%nat -> noise_phase l k p = bin_phase l k p.
Proof.
  intros H. unfold noise_phase, bin_phase. destruct (Nat.eqb_spec k 0); auto. cbn [orb]. pose proof (Nat.div_mod l 2 ltac:(lia)). pose proof (Nat.mod_upper_bound l 2 ltac:(lia)).
  destruct (Nat.eqb_spec (l mod 2) 0), (Nat.eqb_spec k (l / 2)), (Nat.eqb_spec (2 * k) l); cbn [andb]; auto; lia.
Qed.

(** ** C82 *)
(** Every channel comes from a sequence of l samples whose spectrum has the drawn phases and the drawn magnitudes, coloured from the bin nearest to 15 Hz on, multiplied by 1e-20 below it, and zero at 0 Hz;
    brought to the peak level, faded at both ends and followed by the padding. *)
Theorem C82_spectrum : forall (len : R) (fs : Z) (ty : noise_type) (dbfs : R) (ch : nat) (fade : option fade_type) (pad : R) (mags phs : list (list R)) (l p lf id ir : nat),
  (0 < fs)%Z -> 0 < len -> 40 <= len * IZR fs -> dbfs <= 0 -> rounds (len * IZR fs) l -> noise_pad pad (IZR fs) p -> floors (5 / 100 * len * IZR fs) lf -> (1 <= ch <= l + p)%nat ->
  near_bin l (IZR fs) 15 id -> near_bin l (IZR fs) 1000 ir -> (1 <= id)%nat ->
  (forall c, (c < ch)%nat -> exists k, (1 <= k <= l / 2)%nat /\ get (nth c mags []) k <> 0) ->
  exists s, noise len fs ty dbfs ch fade pad mags phs = Ok (Some s) /\ s_im s = None /\ s_scale s = 1 /\ s_fs s = fs /\ shape (s_re s) (l + p) ch /\
    forall c, (c < ch)%nat -> exists raw, length raw = l /\
      (forall k, (k <= l / 2)%nat -> dft l raw k = cmul (rc (bin_mag ty l id (IZR fs) (INR ir * IZR fs / INR l) (get (nth c mags []) k) k)) (cis (bin_phase l k (get (nth c phs []) k)))) /\
      made dbfs fade lf (l + p) raw (nth c (s_re s) []).
Proof.
  intros len fs ty dbfs ch fade pad mags phs l p lf id ir Hfs Hlen H40 Hdb Hl Hp Hlf Hch Hid Hir H1 NZ. assert (L2 : (2 <= l)%nat) by (apply (rounds_two _ _ Hl); lra). assert (Fp : 0 < IZR fs) by now apply IZR_lt.
  rewrite (noise_eq _ _ _ _ _ _ _ _ _ l p) by (auto; lia). rewrite (weights_ok ty l (IZR fs) ir); auto. 2:{ pose proof (ref_above l (IZR fs) id ir Fp ltac:(lia) Hid Hir). lia. } cbn [bind].
  set (X := fun c => mk (l / 2 + 1) (fun k => cmul (rc (bin_mag ty l id (IZR fs) (INR ir * IZR fs / INR l) (get (nth c mags []) k) k)) (cis (noise_phase l k (get (nth c phs []) k))))).
  set (raw := fun c => irfft_n l (X c)).
  assert (E : forall c, noise_col ty (IZR fs) l (weights_of ty l (IZR fs)) (nth c mags []) (nth c phs []) = Some (raw c)).
  { intros c. unfold noise_col. cbv zeta. rewrite (opt_seq_mk _ _ (fun k => bin_mag ty l id (IZR fs) (INR ir * IZR fs / INR l) (get (nth c mags []) k) k)). 2:{ intros k Hk. apply bins_ok; auto. }
    cbn [option_map]. f_equal. unfold raw. f_equal. unfold X. unfold mk at 1 3. apply map_ext_in. intros k Hk. apply in_seq in Hk. rewrite (get_mk (HA := CRing_R)) by lia. reflexivity. }
  assert (D : forall c k, (k <= l / 2)%nat -> dft l (raw c) k = cmul (rc (bin_mag ty l id (IZR fs) (INR ir * IZR fs / INR l) (get (nth c mags []) k) k)) (cis (bin_phase l k (get (nth c phs []) k)))).
  { assert (XN : forall c k, (k <= l / 2)%nat -> nth k (X c) (rc 0) = cmul (rc (bin_mag ty l id (IZR fs) (INR ir * IZR fs / INR l) (get (nth c mags []) k) k)) (cis (bin_phase l k (get (nth c phs []) k)))).
    { intros c k Hk. unfold X. rewrite mk_at by lia. now rewrite bin_phase_eq. }
    intros c k Hk. unfold raw. rewrite dft_irfft; auto; try lia.
    - rewrite XN by lia. unfold bin_phase. cbn. rewrite sin_0. ring.
    - intros j Hj. rewrite XN by (subst l; rewrite (Nat.mul_comm 2), Nat.div_mul; lia). unfold bin_phase. rewrite (proj2 (Nat.eqb_eq _ _) Hj), orb_true_r. cbn. rewrite sin_0. ring. }
  assert (Lr : forall c, length (raw c) = l) by (intros; unfold raw, irfft_n; apply mk_len).
  assert (M : mk ch (fun c => match noise_col ty (IZR fs) l (weights_of ty l (IZR fs)) (nth c mags []) (nth c phs []) with Some c => map Some c | None => repeat None l end) = mk ch (fun c => map Some (raw c))).
  { unfold mk. apply map_ext. intros c. now rewrite E. }
  rewrite M. destruct (finish_all dbfs fade len fs (l + p) ch lf raw) as (s & E1 & A1 & A2 & A3 & A4 & A5); auto; try lia.
  { intros c Hc. rewrite Lr. split; [now apply five_percent|]. destruct (NZ c Hc) as (k & Hk & Nk).
    destruct (Forall_Exists_dec (fun v => v = 0) (fun v => Req_EM_T v 0) (raw c)) as [F|F].
    - exfalso. assert (Z : dft l (raw c) k = rc 0).
      { unfold dft. transitivity (csum l (fun _ => rc 0)). { apply sum_ext. intros t Ht. assert (G : get (raw c) t = 0). { rewrite Forall_forall in F. apply F. apply nth_In. now rewrite Lr. } rewrite G. apply c_ext; simpl; ring. }
        clear. induction l; simpl; auto. rewrite IHl. apply c_ext; simpl; ring. }
      rewrite D in Z by lia. assert (B : bin_mag ty l id (IZR fs) (INR ir * IZR fs / INR l) (get (nth c mags []) k) k <> 0).
      { unfold bin_mag. destruct (Nat.eqb_spec k 0); [lia|]. destruct (k <? id)%nat. { unfold Rdiv. apply Rmult_integral_contrapositive_currified; auto. apply Rinv_neq_0_compat. apply pow_nonzero. lra. }
        apply Rmult_integral_contrapositive_currified; auto. apply Rgt_not_eq. assert (G : forall j, (1 <= j)%nat -> 0 < INR j * IZR fs / INR l).
        { intros j Hj. apply Rdiv_lt_0_compat; [|apply lt_0_INR; lia]. apply Rmult_lt_0_compat; auto. apply lt_0_INR. lia. }
        pose proof (G k ltac:(lia)) as Gk. pose proof (ref_above l (IZR fs) id ir Fp ltac:(lia) Hid Hir). pose proof (G ir ltac:(lia)) as Gr.
        unfold colour. destruct ty; try apply exp_pos; try lra. now apply Rinv_0_lt_compat. apply Rdiv_lt_0_compat; now apply a_curve_pos. }
      pose proof (f_equal fst Z) as Z1. pose proof (f_equal snd Z) as Z2. cbn in Z1, Z2. set (b := bin_mag _ _ _ _ _ _ _) in *. set (ph := bin_phase _ _ _) in *.
      pose proof (sin2_cos2 ph) as S2. unfold Rsqr in S2. assert (b * cos ph = 0) by lra. assert (b * sin ph = 0) by lra. assert (cos ph = 0) by (apply (Rmult_eq_reg_l b); lra). assert (sin ph = 0) by (apply (Rmult_eq_reg_l b); lra). nra.
    - apply Exists_exists in F. exact F. }
  exists s. split; auto. repeat (split; [assumption|]). intros c Hc. exists (raw c). split; auto.
Qed.
Print Assumptions C82_spectrum.

(** at 400 Hz and one second, bin k is k Hz: the bins nearest to 15 Hz and to 1 kHz are 15 and 200 *)
Example C82_spectrum_example : near_bin 400 400 15 15 /\ near_bin 400 400 1000 200 /\ rounds (1 * 400) 400 /\ get [0; 2; 2] 1 <> 0.
Proof.
  assert (I : INR 400 = 400) by (rewrite INR_IZR_INZ; reflexivity). assert (F : forall j, INR j * 400 / INR 400 = INR j) by (intros; rewrite I; field).
  assert (I15 : INR 15 = 15) by (rewrite INR_IZR_INZ; reflexivity). assert (I200 : INR 200 = 200) by (rewrite INR_IZR_INZ; reflexivity).
  assert (H2 : (400 / 2)%nat = 200%nat) by reflexivity. unfold near_bin. rewrite H2. split; [|split; [|split]].
  - split; [lia|]. split; intros j Hj; rewrite !F, I15, Rminus_diag_eq, Rabs_R0 by reflexivity. { apply Rabs_pos. } apply lt_INR in Hj. rewrite I15 in Hj. rewrite Rabs_right; lra.
  - split; [lia|]. split; intros j Hj; rewrite !F, I200. { apply le_INR in Hj. rewrite I200 in Hj. rewrite !Rabs_right; lra. } apply lt_INR in Hj. rewrite I200 in Hj. rewrite !Rabs_right; lra.
  - unfold rounds. rewrite I. lra.
  - cbn. intros Q. lra.
Qed.
(** The power of bin k is the draw squared times f^(-beta), from the bin nearest to 15 Hz on. *)
Theorem C82_power_law : forall (beta : R) (l id : nat) (fs fr m ph : R) (k : nat), 0 < fs -> (1 <= l)%nat -> (1 <= id)%nat -> (id <= k)%nat ->
  cabs2 (cmul (rc (bin_mag (NBeta beta) l id fs fr m k)) (cis ph)) = m ^ 2 * Rpower (INR k * fs / INR l) (- beta).
Proof.
  intros beta l id fs fr m ph k Hf Hl H1 Hk. unfold bin_mag. destruct (Nat.eqb_spec k 0); [lia|]. destruct (Nat.ltb_spec k id); [lia|]. unfold colour. set (f := INR k * fs / INR l).
  assert (E : Rpower f (- beta) = Rpower f (- beta / 2) * Rpower f (- beta / 2)) by (rewrite <- Rpower_plus; f_equal; field). rewrite E. unfold cabs2, cis, rc, cmul. cbn.
  pose proof (sin2_cos2 ph) as S2. unfold Rsqr in S2. set (g := Rpower f (- beta / 2)). replace _ with ((m * g) * (m * g) * (sin ph * sin ph + cos ph * cos ph)) by ring. rewrite S2. ring.
Qed.
Print Assumptions C82_power_law.
(** The named colours are the powers 0, 1, 2, -1 and -2. *)
Theorem C82_named_colours : forall (len : R) (fs : Z) (dbfs : R) (ch : nat) (fade : option fade_type) (pad : R) (mags phs : list (list R)) (l p id : nat),
  (0 < fs)%Z -> 0 < len -> dbfs <= 0 -> rounds (len * IZR fs) l -> (2 <= l)%nat -> noise_pad pad (IZR fs) p -> (1 <= ch)%nat -> near_bin l (IZR fs) 15 id -> (1 <= id)%nat ->
  forall ty beta, In (ty, beta) [(NWhite, 0); (NPink, 1); (NRed, 2); (NBlue, -1); (NViolet, -2)] ->
  noise len fs ty dbfs ch fade pad mags phs = noise len fs (NBeta beta) dbfs ch fade pad mags phs.
Proof.
  intros len fs dbfs ch fade pad mags phs l p id Hfs Hlen Hdb Hl L2 Hp Hch Hid H1 ty beta Hin. assert (Fp : 0 < IZR fs) by now apply IZR_lt.
  rewrite !(noise_eq _ _ _ _ _ _ _ _ _ l p) by (auto; lia).
  assert (W : ty <> NGrey) by (intros ->; simpl in Hin; intuition discriminate).
  assert (Wt : match ty with NGrey => frequency_weighting WA (rfftfreq l (IZR fs)) | _ => Ok (Some []) end = Ok (Some [])) by (destruct ty; try easy; reflexivity). rewrite Wt. cbn [bind]. f_equal.
  unfold mk. apply map_ext. intros c. assert (E : noise_col ty (IZR fs) l [] (nth c mags []) (nth c phs []) = noise_col (NBeta beta) (IZR fs) l [] (nth c mags []) (nth c phs [])); [|now rewrite E].
  unfold noise_col. cbv zeta. f_equal. f_equal. unfold mk. apply map_ext_in. intros k Hk. apply in_seq in Hk.
  pose proof (bins_ok ty (IZR fs) l id (nearest 1000 (rfftfreq l (IZR fs))) (nth c mags []) L2 Fp Hid (nearest_is _ _ _) H1 k ltac:(lia)) as B1.
  pose proof (bins_ok (NBeta beta) (IZR fs) l id (nearest 1000 (rfftfreq l (IZR fs))) (nth c mags []) L2 Fp Hid (nearest_is _ _ _) H1 k ltac:(lia)) as B2.
  assert (Wn : weights_of ty l (IZR fs) = []) by (destruct ty; try easy; reflexivity). rewrite Wn in B1. change (weights_of (NBeta beta) l (IZR fs)) with (@nil R) in B2. rewrite B1, B2. f_equal.
  unfold bin_mag. destruct (Nat.eqb_spec k 0); auto. destruct (k <? id)%nat; auto. f_equal.
  assert (F : 0 < INR k * IZR fs / INR l). { apply Rdiv_lt_0_compat; [|apply lt_0_INR; lia]. apply Rmult_lt_0_compat; auto. apply lt_0_INR. lia. } set (f := INR k * IZR fs / INR l) in *.
  cbn [In] in Hin. unfold colour. destruct Hin as [E|[E|[E|[E|[E|[]]]]]]; inversion E; subst.
  - replace (- 0 / 2) with 0 by field. now rewrite Rpower_O.
  - f_equal. field.
  - replace (- (2) / 2) with (- (1)) by field. now rewrite Rpower_Ropp, Rpower_1.
  - f_equal. field.
  - replace (- -2 / 2) with 1 by field. now rewrite Rpower_1.
Qed.
Print Assumptions C82_named_colours.

(** White noise is not flat: with at least one bin below the one nearest to 15 Hz, those bins are 1e-20 of the drawn magnitude (a level 400 dB lower), while the others have it. *)
Theorem C82_white_low_refuted : forall (l id : nat) (fs fr m ph : R) (k : nat), (1 <= k)%nat -> 
  cabs2 (cmul (rc (bin_mag NWhite l id fs fr m k)) (cis ph)) = if (k <? id)%nat then m ^ 2 * / 10 ^ 40 else m ^ 2.
Proof.
  intros l id fs fr m ph k Hk. unfold bin_mag. destruct (Nat.eqb_spec k 0); [lia|]. unfold cabs2, cis, rc, cmul. cbn [fst snd].
  pose proof (sin2_cos2 ph) as S2. unfold Rsqr in S2. destruct (k <? id)%nat.
  - replace _ with ((m / 10 ^ 20) * (m / 10 ^ 20) * (sin ph * sin ph + cos ph * cos ph)) by ring. rewrite S2. field.
  - unfold colour. replace _ with (m * m * (sin ph * sin ph + cos ph * cos ph)) by ring. rewrite S2. ring.
Qed.
Print Assumptions C82_white_low_refuted.

Lemma none_col dbfs fade len fs n (c : list (option R)) lf : 0 < len -> (forall x, In x c -> x = None) -> c <> [] -> fade_fits fade (5 / 100 * len) fs lf (length c) -> (length c <= n)%nat -> exists d, finish_col dbfs fade len fs n c = Ok d /\ In None d.
Proof.
  intros Hlen Hc N Hf Hn. assert (E : level_col dbfs c = Ok c).
  { unfold level_col. destruct c as [|a c]; [easy|]. rewrite (Hc a) by now left. cbn [finite opt_seq]. f_equal. unfold finite. cbn [opt_seq]. cbn [map]. f_equal. clear - Hc. assert (H : forall x, In x c -> x = None) by (intros; apply Hc; now right).
    clear Hc. induction c as [|b c IH]; simpl; auto. rewrite (H b) by now left. f_equal. apply IH. intros; apply H; now right. }
  assert (Mh : forall (d : list (option R)) g, (forall x, In x d -> x = None) -> (forall x, In x (mul_head d g) -> x = None)).
  { induction d as [|a d IH]; intros g H x Hx. { destruct g; easy. } destruct g as [|y g]; [apply H; exact Hx|]. simpl in Hx. destruct Hx as [<-|Hx]. { rewrite (H a) by now left. reflexivity. } apply (IH g); auto. intros; apply H; now right. }
  assert (F1 : forall ty st d, ty <> NoFade -> floors (5 / 100 * len * fs) lf -> (2 <= lf)%nat -> (lf < length d)%nat -> (forall x, In x d -> x = None) -> exists e, fade1 ty (5 / 100 * len) fs st d = Ok e /\ length e = length d /\ (forall x, In x e -> x = None)).
  { intros ty st d Ht Hl H2 HL Hd. rewrite fade1_eq by auto. destruct (Rlt_dec 0 _); [|lra]. rewrite (floor_nat _ _ Hl). rewrite (proj2 (Nat.ltb_lt _ _) HL). rewrite (gains_ok ty lf H2 Ht). cbn [bind].
    destruct st; eexists; (split; [reflexivity|]); rewrite ?rev_length, ?mul_head_len, ?rev_length; (split; [reflexivity|]).
    - now apply Mh.
    - intros x Hx. apply in_rev in Hx. revert x Hx. apply Mh. intros x Hx. apply in_rev in Hx. auto. }
  assert (F2 : exists e, fade_both fade len fs c = Ok e /\ length e = length c /\ (forall x, In x e -> x = None)).
  { destruct fade as [ty|]; [|exists c; auto]. destruct (match ty with NoFade => true | _ => false end) eqn:En. { destruct ty; try discriminate. exists c. auto. }
    assert (Ht : ty <> NoFade) by (destruct ty; discriminate). assert (H' : floors (5 / 100 * len * fs) lf /\ (2 <= lf)%nat /\ (lf < length c)%nat) by (destruct ty; try easy; exact Hf). destruct H' as (G1 & G2 & G3).
    destruct (F1 ty true c) as (e & E1 & L1 & V1); auto. destruct (F1 ty false e) as (e2 & E2 & L2 & V2); auto. { lia. } exists e2. unfold fade_both. rewrite E1. cbn [bind]. split; auto. split; auto. lia. }
  destruct F2 as (e & E2 & L2 & V2). unfold finish_col. rewrite E. cbn [bind]. rewrite E2. cbn [bind]. eexists. split; [reflexivity|].
  destruct e as [|a e]. { destruct c; [easy|]. simpl in L2. lia. } rewrite (V2 a) by now left. cbn [length] in L2. unfold fit. cbn [length]. destruct (Nat.ltb_spec (S (length e)) n). { now left. } replace n with (S (length e)) by lia. now left.
Qed.
(** Noise shorter than 1/30 s: the bin nearest to 15 Hz is 0 Hz, where pink, red, grey and every noise with a positive power divide by zero. The result is nan. *)
Theorem C82_short_refuted : forall (len : R) (fs : Z) (ty : noise_type) (dbfs : R) (ch : nat) (fade : option fade_type) (pad : R) (mags phs : list (list R)) (l p lf : nat),
  (0 < fs)%Z -> 0 < len -> 40 <= len * IZR fs -> dbfs <= 0 -> rounds (len * IZR fs) l -> noise_pad pad (IZR fs) p -> floors (5 / 100 * len * IZR fs) lf -> (1 <= ch)%nat ->
  30 * INR l <= IZR fs -> match ty with NPink | NRed => True | NBeta b => 0 < b | _ => False end ->
  noise len fs ty dbfs ch fade pad mags phs = Ok None.
Proof.
  intros len fs ty dbfs ch fade pad mags phs l p lf Hfs Hlen H40 Hdb Hl Hp Hlf Hch H30 Hty. assert (L2 : (2 <= l)%nat) by (apply (rounds_two _ _ Hl); lra). assert (Fp : 0 < IZR fs) by now apply IZR_lt.
  assert (IL : 0 < INR l) by (apply lt_0_INR; lia).
  assert (Id : nearest 15 (rfftfreq l (IZR fs)) = 0%nat).
  { apply (nearest_unique l (IZR fs) 15); [apply nearest_is|]. split; [lia|]. split; [|intros; lia]. intros j Hj. replace (15 - INR 0 * IZR fs / INR l) with 15 by (simpl; field; lra). rewrite (Rabs_right 15) by lra.
    destruct j as [|j]. { replace (15 - INR 0 * IZR fs / INR l) with 15 by (simpl; field; lra). rewrite Rabs_right; lra. }
    assert (30 <= INR (S j) * IZR fs / INR l). { apply (Rmult_le_reg_r (INR l)); auto. unfold Rdiv. rewrite Rmult_assoc, Rinv_l by lra. rewrite S_INR. pose proof (pos_INR j). nra. }
    rewrite Rabs_left1; lra. }
  rewrite (noise_eq _ _ _ _ _ _ _ _ _ l p) by (auto; lia).
  assert (Wt : match ty with NGrey => frequency_weighting WA (rfftfreq l (IZR fs)) | _ => Ok (Some []) end = Ok (Some [])) by (destruct ty; try easy; reflexivity). rewrite Wt. cbn [bind].
  assert (E : forall mag ph, noise_col ty (IZR fs) l [] mag ph = None).
  { intros mag ph. unfold noise_col. cbv zeta. rewrite Id. rewrite opt_seq_none; auto. unfold mk. apply in_map_iff. exists 0%nat. split; [|apply in_seq; lia].
    unfold noise_bin. cbn [Nat.eqb Nat.ltb Nat.leb]. rewrite freq_at by lia. replace (INR 0 * IZR fs / INR l) with 0 by (simpl; field; lra). unfold div_opt, fpow. destruct ty; try easy.
    - rewrite sqrt_0. destruct (Req_EM_T 0 0); [auto|lra].
    - destruct (Req_EM_T 0 0); [auto|lra].
    - destruct (Req_EM_T 0 0); [|lra]. destruct (Rlt_dec (- beta * (5 / 10)) 0); [auto|lra]. }
  assert (M : mk ch (fun c => match noise_col ty (IZR fs) l [] (nth c mags []) (nth c phs []) with Some c => map Some c | None => repeat None l end) = repeat (repeat None l) ch).
  { unfold mk. transitivity (map (fun _ : nat => repeat (@None R) l) (seq 0 ch)). { apply map_ext. intros. now rewrite E. } clear. generalize 0%nat. induction ch; intros k; simpl; auto. now rewrite IHch. }
  rewrite M. destruct (none_col dbfs fade len (IZR fs) (l + p) (repeat None l) lf) as (d & E1 & Hd); auto.
  { intros x Hx. now apply repeat_spec in Hx. } { destruct l; [lia|discriminate]. } { rewrite repeat_length. now apply five_percent. } { rewrite repeat_length. lia. }
  unfold finish. assert (Sq : forall n, seq_result (map (finish_col dbfs fade len (IZR fs) (l + p)) (repeat (repeat None l) n)) = Ok (repeat d n)).
  { induction n; auto. cbn [repeat map seq_result]. rewrite E1. cbn [bind]. rewrite IHn. reflexivity. }
  rewrite Sq. cbn [bind]. unfold to_signal. rewrite opt_seq_none; auto. apply in_map_iff. exists d. split; [now apply opt_seq_none|]. destruct ch; [lia|]. now left.
Qed.
Print Assumptions C82_short_refuted.
Example C82_short_example : 30 * INR 40 <= 1200 /\ 40 <= 1 / 30 * 1200 /\ rounds (1 / 30 * 1200) 40.
Proof. unfold rounds. rewrite INR_IZR_INZ. simpl. lra. Qed.
(** What is refused: a length that is not positive, a level above 0 dBFS, no channels, negative padding. *)
Theorem C82_refusals : forall len fs ty dbfs ch fade pad mags phs, len <= 0 \/ 0 < dbfs \/ ch = 0%nat \/ (pad < 0 /\ / 2 <= len * IZR fs) ->
  noise len fs ty dbfs ch fade pad mags phs = Err AssertionError.
Proof.
  intros len fs ty dbfs ch fade pad mags phs H. unfold noise. destruct (Rlt_dec 0 len); auto. destruct (Rle_dec dbfs 0); auto. destruct (Nat.leb_spec 1 ch); auto. cbv zeta.
  destruct H as [H|[H|[H|(H & H2)]]]; try lra; try lia. destruct (Nat.eqb_spec (int_of (len * IZR fs + 5 / 10)) 0) as [Z|_].
  - exfalso. unfold int_of in Z. destruct (base_Int_part (len * IZR fs + 5 / 10)) as (A & B). assert (Int_part (len * IZR fs + 5 / 10) <= 0)%Z by lia. apply IZR_le in H1. lra.
  - destruct (Req_EM_T pad 0); [lra|]. destruct (Rlt_dec 0 pad); [lra|]. reflexivity.
Qed.
Print Assumptions C82_refusals.
Example C82_refusals_example : (-1) < 0 /\ / 2 <= 1 * IZR 48000.
Proof. lra. Qed.
