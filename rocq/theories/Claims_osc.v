(** Property C81: the oscillator. *)
From Coq Require Import List Arith Lia ZArith Bool Reals Lra Psatz.
From Verif Require Import Alg Spec Dft M_arrays M_signal P_signal M_dynamics M_level Claims_signal Claims_level Claims_fade M_generators Claims_generators Claims_chirp.
Import ListNotations.
Local Open Scope R_scope.

(** ** Specification *)
(** The coefficient of sin (2 pi q f t) in the Fourier series of the wave: sine, square (jumps up at 0), rising sawtooth through 0, triangle (rising through 0) of amplitude 1 *)
Definition series (w : wave) (q : nat) : R :=
  match w with
  | WHarmonic => if (q =? 1)%nat then 1 else 0
  | WSquare => if Nat.odd q then 4 / (PI * INR q) else 0
  | WSawtooth => 2 / (PI * INR q) * (-1) ^ (q + 1)
  | WTriangle => if Nat.odd q then 8 / (PI ^ 2 * INR q ^ 2) * (-1) ^ ((q - 1) / 2) else 0
  end.
(** the series with the harmonics 1 ... Q, every one with the phase ph *)
Definition partial_sum (w : wave) (Q : nat) (f ph t : R) : R := sum Q (fun j => series w (S j) * sin (2 * PI * (INR (S j) * f) * t + ph)).

(** ** Auxiliary facts *)
Lemma sum_zero_R n (g : nat -> R) : (forall i, (i < n)%nat -> g i = 0) -> sum n g = 0.
Proof. intros H. induction n; simpl; auto. rewrite IHn by (intros; apply H; lia). rewrite H by lia. simpl. ring. Qed.
Lemma sum_S_R n (g : nat -> R) : sum (S n) g = sum n g + g n.
Proof. reflexivity. Qed.
Lemma odd_S2 K : Nat.odd (S (2 * K)) = true /\ Nat.odd (S (S (2 * K))) = false.
Proof. split. { apply Nat.odd_spec. exists K. lia. } rewrite <- Nat.negb_even. replace (S (S (2 * K))) with (2 * (K + 1))%nat by lia. now rewrite Nat.even_mul. Qed.
(** sums over the odd numbers *)
Lemma odd_sum (h : nat -> R) K : (forall q, Nat.odd q = false -> h q = 0) ->
  sum (2 * K) (fun j => h (S j)) = sum K (fun k => h (2 * S k - 1)%nat) /\ sum (S (2 * K)) (fun j => h (S j)) = sum (S K) (fun k => h (2 * S k - 1)%nat).
Proof.
  intros Z. assert (E : sum (2 * K) (fun j => h (S j)) = sum K (fun k => h (2 * S k - 1)%nat)).
  { induction K as [|K IH]. { reflexivity. } replace (2 * S K)%nat with (S (S (2 * K))) by lia. rewrite !sum_S_R, IH. rewrite (Z (S (S (2 * K)))) by apply odd_S2.
    replace (2 * S K - 1)%nat with (S (2 * K)) by lia. ring. }
  split; auto. rewrite !sum_S_R, E. do 2 f_equal. lia.
Qed.
Lemma loop_sum w f cutoff fs ph n K : forall fuel k acc, (1 <= k)%nat -> (k <= S K)%nat -> (S K - k <= fuel)%nat ->
  (forall j, (1 <= j)%nat -> (j <= K)%nat <-> INR (wave_order w j) * f < cutoff) ->
  harmonics fuel k w f cutoff fs ph n acc = acc + sum (S K - k) (fun j => sin (PI * 2 * INR (wave_order w (k + j)) * f / fs * INR n + ph) * wave_amp w (k + j)).
Proof.
  induction fuel as [|fuel IH]; intros k acc H1 H2 H3 HK; cbn [harmonics].
  - replace (S K - k)%nat with 0%nat by lia. simpl. change (@r0 R CRing_R) with 0. ring.
  - destruct (Rlt_dec (INR (wave_order w k) * f) cutoff) as [L|L].
    + apply HK in L; auto. rewrite IH by (auto; lia). destruct (S K - k)%nat as [|m] eqn:E; [lia|]. replace (S K - S k)%nat with m by lia.
      rewrite (sum_S_front (HA := CRing_R)). rewrite Nat.add_0_r. change (@radd R CRing_R) with Rplus.
      rewrite (sum_ext m (fun j => sin (PI * 2 * INR (wave_order w (k + S j)) * f / fs * INR n + ph) * wave_amp w (k + S j)) (fun j => sin (PI * 2 * INR (wave_order w (S k + j)) * f / fs * INR n + ph) * wave_amp w (S k + j))).
      ring. intros j _. now replace (k + S j)%nat with (S k + j)%nat by lia.
    + destruct (S K - k)%nat as [|m] eqn:E; [simpl; change (@r0 R CRing_R) with 0; ring|]. exfalso. apply L. apply HK; auto. lia.
Qed.
(** the number of passes of the loop, for the largest Q with Q f < cutoff *)
Definition passes (w : wave) (Q : nat) : nat := match w with WSawtooth => Q | _ => ((Q + 1) / 2)%nat end.
Lemma passes_spec w Q f cutoff : w <> WHarmonic -> 0 < f -> INR Q * f < cutoff <= INR (S Q) * f -> forall j, (1 <= j)%nat -> (j <= passes w Q)%nat <-> INR (wave_order w j) * f < cutoff.
Proof.
  intros N Hf (A & B) j Hj. assert (P : forall q, (q <= Q)%nat <-> INR q * f < cutoff).
  { intros q. split; intros H.
    - apply le_INR in H. nra.
    - destruct (le_lt_dec q Q) as [|L]; auto. apply le_INR in L. nra. }
  rewrite <- P. unfold passes, wave_order. pose proof (Nat.div_mod (Q + 1) 2 ltac:(lia)). pose proof (Nat.mod_upper_bound (Q + 1) 2 ltac:(lia)). destruct w; try easy; lia.
Qed.
Lemma neg1_S k : (-1) ^ S k = - (-1) ^ k.
Proof. simpl. ring. Qed.
Lemma term_eq w k : w <> WHarmonic -> wave_gain w * wave_amp w (S k) = series w (wave_order w (S k)).
Proof.
  intros N. pose proof PI_RGT_0 as P. unfold series, wave_order, wave_gain, wave_amp.
  assert (O : Nat.odd (2 * S k - 1) = true) by (replace (2 * S k - 1)%nat with (S (2 * k)) by lia; apply odd_S2).
  assert (I : 0 < INR (2 * S k - 1)) by (apply lt_0_INR; lia). assert (I2 : 0 < INR (S k)) by (apply lt_0_INR; lia).
  destruct w; try easy; rewrite ?O.
  - field. lra.
  - replace (S k + 1)%nat with (S (S k)) by lia. rewrite (neg1_S (S k)). field. lra.
  - replace ((2 * S k - 1 - 1) / 2)%nat with k by (replace (2 * S k - 1 - 1)%nat with (k * 2)%nat by lia; now rewrite Nat.div_mul). rewrite neg1_S. field. lra.
Qed.
Lemma sum_mul_R c n (g : nat -> R) : c * sum n g = sum n (fun i => c * g i).
Proof. induction n. { simpl. change (@r0 R CRing_R) with 0. ring. } rewrite !sum_S_R, <- IHn. ring. Qed.
Lemma wave_raw w f cutoff fs ph l Q : 0 < f -> 0 < fs -> INR Q * f < cutoff <= INR (S Q) * f -> w <> WHarmonic ->
  wave_col w f cutoff fs ph l = mk l (fun i => partial_sum w Q f ph (INR i / fs)).
Proof.
  intros Hf Hfs HQ N. assert (Hc : 0 <= cutoff). { pose proof (pos_INR Q). nra. }
  assert (E : wave_col w f cutoff fs ph l = mk l (fun n => wave_gain w * harmonics (harm_fuel f cutoff) 1 w f cutoff fs ph n 0)) by (destruct w; try easy; reflexivity).
  rewrite E. unfold mk. apply map_ext. intros i. clear E.
  assert (Fu : (passes w Q <= harm_fuel f cutoff)%nat).
  { assert (passes w Q <= Q)%nat. { unfold passes. destruct w; try lia; (destruct Q as [|Q]; [simpl; lia|apply Nat.div_le_upper_bound; lia]). }
    unfold harm_fuel. assert (Q <= int_of (cutoff / f))%nat; [|lia]. unfold int_of. apply INR_le. destruct HQ as (A & B).
    assert (INR Q < cutoff / f). { apply (Rmult_lt_reg_r f); auto. unfold Rdiv. rewrite Rmult_assoc, Rinv_l; lra. }
    destruct (base_Int_part (cutoff / f)) as (C1 & C2). assert (0 <= Int_part (cutoff / f))%Z. { apply Z.lt_succ_r. apply lt_IZR. unfold Z.succ. rewrite plus_IZR. pose proof (pos_INR Q). lra. }
    rewrite (INR_IZR_INZ (Z.to_nat _)), Z2Nat.id by auto. rewrite INR_IZR_INZ. apply IZR_le. apply Z.lt_succ_r. apply lt_IZR. unfold Z.succ. rewrite plus_IZR, <- INR_IZR_INZ. lra. }
  rewrite (loop_sum w f cutoff fs ph i (passes w Q)); try lia. 2:{ apply passes_spec; auto. }
  rewrite Rplus_0_l. replace (S (passes w Q) - 1)%nat with (passes w Q) by lia. rewrite sum_mul_R.
  set (h := fun q => series w q * sin (2 * PI * (INR q * f) * (INR i / fs) + ph)).
  rewrite (sum_ext _ _ (fun k => h (wave_order w (S k)))).
  2:{ intros k _. unfold h. rewrite <- term_eq by auto. simpl (1 + k)%nat. replace (PI * 2 * INR (wave_order w (S k)) * f / fs * INR i + ph) with (2 * PI * (INR (wave_order w (S k)) * f) * (INR i / fs) + ph) by (field; lra). ring. }
  change (partial_sum w Q f ph (INR i / fs)) with (sum Q (fun j => h (S j))).
  assert (Od : (w = WSquare \/ w = WTriangle) -> forall q, Nat.odd q = false -> h q = 0). { intros O q Hq. unfold h, series. destruct O; subst w; rewrite Hq; ring. }
  destruct w; try easy; unfold passes, wave_order;
  (destruct (Nat.even Q) eqn:Ev;
   [ apply Nat.even_spec in Ev; destruct Ev as (K & ->); replace ((2 * K + 1) / 2)%nat with K by (apply (Nat.div_unique _ 2 _ 1); lia); symmetry; apply (odd_sum h K); apply Od; auto
   | assert (Ov : Nat.odd Q = true) by (now rewrite <- Nat.negb_even, Ev); apply Nat.odd_spec in Ov; destruct Ov as (K & ->);
     replace ((2 * K + 1 + 1) / 2)%nat with (S K) by (apply (Nat.div_unique _ 2 _ 0); lia); replace (2 * K + 1)%nat with (S (2 * K)) by lia; symmetry; apply (odd_sum h K); apply Od; auto ]).
Qed.
Lemma finish_cols dbfs fade len fs n raws lf : 0 < len -> 0 < fs -> (forall r, In r raws -> fade_fits fade (5 / 100 * len) fs lf (length r) /\ exists v, In v r /\ v <> 0) ->
  exists outs, seq_result (map (finish_col dbfs fade len fs n) (map (map Some) raws)) = Ok (map (map Some) outs) /\ Forall2 (made dbfs fade lf n) raws outs.
Proof.
  intros Hl Hf. induction raws as [|r raws IH]; intros H. { exists []. split; [reflexivity|constructor]. }
  destruct IH as (outs & E & F). { intros; apply H; now right. } destruct (H r (or_introl eq_refl)) as (H1 & H2).
  destruct (finish_col_ok dbfs fade len fs n r lf) as (o & E1 & M); auto. exists (o :: outs). split; [|constructor; auto]. cbn [map seq_result]. rewrite E1. cbn [bind]. rewrite E. reflexivity.
Qed.
Lemma forall2_nth {T U} (P : T -> U -> Prop) l l' d d' i : Forall2 P l l' -> (i < length l)%nat -> P (nth i l d) (nth i l' d').
Proof. intros F. revert i. induction F; intros i Hi; simpl in Hi; [lia|]. destruct i; simpl; auto. apply IHF. lia. Qed.
Lemma mk_map {T U} n (f : nat -> T) (g : T -> U) : mk n (fun i => g (f i)) = map g (mk n f).
Proof. unfold mk. now rewrite map_map. Qed.
Lemma finish_all dbfs fade len fs n k lf (raw : nat -> list R) : dbfs <= 0 -> 0 < len -> (0 < fs)%Z -> (1 <= k <= n)%nat -> (2 <= n)%nat ->
  (forall c, (c < k)%nat -> fade_fits fade (5 / 100 * len) (IZR fs) lf (length (raw c)) /\ exists v, In v (raw c) /\ v <> 0) ->
  exists s, finish dbfs fade len fs n (mk k (fun c => map Some (raw c))) = Ok (Some s) /\ s_im s = None /\ s_scale s = 1 /\ s_fs s = fs /\ shape (s_re s) n k /\
    forall c, (c < k)%nat -> made dbfs fade lf n (raw c) (nth c (s_re s) []).
Proof.
  intros Hd Hl Hf Hk Hn H. destruct (finish_cols dbfs fade len (IZR fs) n (mk k raw) lf) as (outs & E & F); auto. { now apply IZR_lt. }
  { intros r Hr. unfold mk in Hr. apply in_map_iff in Hr. destruct Hr as (c & <- & Hc). apply in_seq in Hc. apply H. lia. }
  assert (F2 : fade = None \/ fade = Some NoFade \/ (2 <= lf)%nat). { destruct (H 0%nat) as (Q & _); [lia|]. now apply (fits_two _ _ _ _ _ Q). }
  destruct (finish_signal dbfs fade lf n k fs (mk k raw) outs) as (s & E3 & A & B & D & E' & G & I); auto. { apply mk_len. }
  exists s. unfold finish. rewrite mk_map, E. cbn [bind]. split; auto. repeat (split; [assumption|]). intros c Hc. rewrite A.
  pose proof (forall2_nth _ _ _ [] [] c F) as Q. rewrite mk_len in Q. specialize (Q Hc). now rewrite mk_at in Q.
Qed.
Definition osc_args (f : R) (fs : Z) (cutoff : option R) : Prop :=
  0 < f < IZR (fs / 2) /\ match cutoff with Some c => 0 < c <= IZR (fs / 2) | None => True end.
Lemma half_rate fs : (0 < fs)%Z -> IZR (fs / 2) <= IZR fs / 2.
Proof. intros H. pose proof (Z.mul_div_le fs 2 ltac:(lia)) as Q. apply IZR_le in Q. rewrite mult_IZR in Q. lra. Qed.
Lemma osc_eq f fs len w cutoff dbfs ch un phases fade pad l p : osc_args f fs cutoff -> (0 < fs)%Z -> rounds (len * IZR fs) l -> pad_args pad (IZR fs) p ->
  oscillator f fs len w cutoff dbfs ch un phases fade pad = finish dbfs fade len fs (l + p)
    (mk ch (fun c => map Some (wave_col w f (match cutoff with Some c => c | None => IZR (fs / 2) end) (IZR fs) (if un then nth c phases 0 else 0) l))).
Proof.
  intros ((A1 & A2) & B) Hfs Hl Hp. unfold oscillator. destruct (Rlt_dec f _); [|lra]. destruct (Rlt_dec 0 f); [|lra]. rewrite (pad_ok _ _ _ Hp). cbn [bind]. cbv zeta. rewrite (len_ok _ _ _ Hl).
  destruct cutoff as [c|].
  - destruct (Rlt_dec 0 c); [|lra]. destruct (Rle_dec c _); [|lra]. reflexivity.
  - destruct (Rlt_dec 0 _); [|lra]. destruct (Rle_dec (IZR (fs / 2)) (IZR (fs / 2))); [|lra]. reflexivity.
Qed.
(** two successive samples of a tone below half the rate are not both zero *)
Lemma tone_nonzero f fs ph l : 0 < f < fs / 2 -> (2 <= l)%nat -> exists v, In v (mk l (fun i => sin (2 * PI * f * (INR i / fs) + ph))) /\ v <> 0.
Proof.
  intros (A & B) Hl. set (x := mk l _). assert (Hn : forall i, (i < 2)%nat -> In (sin (2 * PI * f * (INR i / fs) + ph)) x).
  { intros i Hi. unfold x, mk. apply in_map_iff. exists i. split; auto. apply in_seq. lia. }
  destruct (Req_dec (sin ph) 0) as [Z|Z].
  - exists (sin (2 * PI * f * (1 / fs) + ph)). split. { apply (Hn 1%nat). lia. } rewrite sin_plus, Z. set (th := 2 * PI * f * (1 / fs)). pose proof PI_RGT_0 as P.
    assert (F : 0 < fs) by lra. assert (I : f / fs < / 2). { apply (Rmult_lt_reg_r fs); auto. unfold Rdiv. rewrite Rmult_assoc, Rinv_l; lra. } assert (I0 : 0 < f / fs) by (apply Rdiv_lt_0_compat; lra).
    assert (E : th = 2 * PI * (f / fs)) by (unfold th; field; lra). assert (0 < sin th). { apply sin_gt_0; rewrite E; nra. }
    pose proof (sin2_cos2 ph) as Q. unfold Rsqr in Q. rewrite Z in Q. assert (cos ph <> 0) by nra. nra.
  - exists (sin ph). split; auto. replace ph with (2 * PI * f * (INR 0 / fs) + ph) by (simpl; unfold Rdiv; ring). apply Hn. lia.
Qed.

(** ** C81 *)
(** A sine: every channel is the tone of the requested frequency, with phase 0 or its random phase; brought to the level, faded and padded. *)
Theorem C81_tone : forall (f : R) (fs : Z) (len : R) (cutoff : option R) (dbfs : R) (ch : nat) (un : bool) (phases : list R) (fade : option fade_type) (pad : R) (l p lf : nat),
  osc_args f fs cutoff -> (0 < fs)%Z -> 0 < len -> 40 <= len * IZR fs -> dbfs <= 0 -> rounds (len * IZR fs) l -> pad_args pad (IZR fs) p -> floors (5 / 100 * len * IZR fs) lf -> (1 <= ch <= l + p)%nat ->
  exists s, oscillator f fs len WHarmonic cutoff dbfs ch un phases fade pad = Ok (Some s) /\ s_im s = None /\ s_scale s = 1 /\ s_fs s = fs /\ shape (s_re s) (l + p) ch /\
    forall c, (c < ch)%nat -> made dbfs fade lf (l + p) (mk l (fun i => sin (2 * PI * f * (INR i / IZR fs) + (if un then nth c phases 0 else 0)))) (nth c (s_re s) []).
Proof.
  intros f fs len cutoff dbfs ch un phases fade pad l p lf Ha Hfs Hlen H40 Hdb Hl Hp Hlf Hch. rewrite (osc_eq _ _ _ _ _ _ _ _ _ _ _ l p) by auto.
  assert (L2 : (2 <= l)%nat) by (apply (rounds_two _ _ Hl); lra). pose proof (half_rate fs Hfs). assert (Fp : 0 < IZR fs) by now apply IZR_lt.
  assert (Eq : forall c, wave_col WHarmonic f c (IZR fs) = fun ph l => mk l (fun i => sin (2 * PI * f / IZR fs * INR i + ph))) by reflexivity.
  rewrite Eq. destruct Ha as (Ha & _).
  set (raw := fun c => mk l (fun i => sin (2 * PI * f * (INR i / IZR fs) + (if un then nth c phases 0 else 0)))).
  assert (E2 : mk ch (fun c => map Some (mk l (fun i => sin (2 * PI * f / IZR fs * INR i + (if un then nth c phases 0 else 0))))) = mk ch (fun c => map Some (raw c))).
  { unfold mk at 1 3. apply map_ext. intros c. f_equal. unfold raw, mk. apply map_ext. intros i. f_equal. unfold Rdiv. ring. }
  rewrite E2. apply (finish_all dbfs fade len fs (l + p) ch lf raw); auto; try lia.
  intros c Hc. split. { unfold raw. rewrite mk_len. now apply five_percent. } apply tone_nonzero; auto. lra.
Qed.
Print Assumptions C81_tone.
Example C81_tone_example : osc_args 50 400 None /\ rounds (1 * 400) 400 /\ pad_args (1 / 2) 400 200 /\ floors (5 / 100 * 1 * 400) 20.
Proof.
  unfold osc_args, rounds, pad_args, floors. change (400 / 2)%Z with 200%Z. rewrite !INR_IZR_INZ. simpl. repeat split; try lra; right; lra.
Qed.
(** The other waves: the Fourier series of the wave with exactly the harmonics below the cutoff (by default fs // 2), so none at or above half the sampling rate. *)
Theorem C81_harmonics : forall (w : wave) (f : R) (fs : Z) (len : R) (cutoff : option R) (dbfs : R) (ch : nat) (un : bool) (phases : list R) (fade : option fade_type) (pad : R) (l p lf Q : nat),
  w <> WHarmonic -> osc_args f fs cutoff -> (0 < fs)%Z -> 0 < len -> 40 <= len * IZR fs -> dbfs <= 0 -> rounds (len * IZR fs) l -> pad_args pad (IZR fs) p -> floors (5 / 100 * len * IZR fs) lf -> (1 <= ch <= l + p)%nat ->
  INR Q * f < match cutoff with Some c => c | None => IZR (fs / 2) end <= INR (S Q) * f ->
  let raw := fun c => mk l (fun i => partial_sum w Q f (if un then nth c phases 0 else 0) (INR i / IZR fs)) in
  (forall c, (c < ch)%nat -> exists v, In v (raw c) /\ v <> 0) ->
  INR Q * f < IZR fs / 2 /\
  exists s, oscillator f fs len w cutoff dbfs ch un phases fade pad = Ok (Some s) /\ s_im s = None /\ s_scale s = 1 /\ s_fs s = fs /\ shape (s_re s) (l + p) ch /\
    forall c, (c < ch)%nat -> made dbfs fade lf (l + p) (raw c) (nth c (s_re s) []).
Proof.
  intros w f fs len cutoff dbfs ch un phases fade pad l p lf Q N Ha Hfs Hlen H40 Hdb Hl Hp Hlf Hch HQ raw NZ. pose proof (half_rate fs Hfs) as Hh. split.
  { destruct Ha as (_ & Ha). destruct cutoff; lra. }
  rewrite (osc_eq _ _ _ _ _ _ _ _ _ _ _ l p) by auto. assert (L2 : (2 <= l)%nat) by (apply (rounds_two _ _ Hl); lra). assert (Fp : 0 < IZR fs) by now apply IZR_lt.
  destruct Ha as ((Ha & _) & _).
  assert (E2 : mk ch (fun c => map Some (wave_col w f (match cutoff with Some c => c | None => IZR (fs / 2) end) (IZR fs) (if un then nth c phases 0 else 0) l)) = mk ch (fun c => map Some (raw c))).
  { unfold mk at 1 2. apply map_ext. intros c. f_equal. now rewrite (wave_raw w f _ _ _ l Q). }
  rewrite E2. apply (finish_all dbfs fade len fs (l + p) ch lf raw); auto; try lia.
  intros c Hc. split; auto. unfold raw. rewrite mk_len. now apply five_percent.
Qed.
Print Assumptions C81_harmonics.
(** a square wave of 100 Hz at 400 Hz: only the first harmonic is below 200 Hz *)
Example C81_harmonics_example : INR 1 * 100 < IZR (400 / 2) <= INR 2 * 100 /\ osc_args 100 400 None /\
  exists v, In v (mk 400 (fun i => partial_sum WSquare 1 100 0 (INR i / 400))) /\ v <> 0.
Proof.
  split. { change (400 / 2)%Z with 200%Z. simpl. lra. } split. { unfold osc_args. change (400 / 2)%Z with 200%Z. split; auto. lra. }
  exists (partial_sum WSquare 1 100 0 (INR 1 / 400)). split. { unfold mk. apply in_map_iff. exists 1%nat. split; auto. apply in_seq. lia. }
  unfold partial_sum. simpl. change (@r0 R CRing_R) with 0. replace (2 * PI * (1 * 100) * (1 / 400) + 0) with (PI / 2) by field. rewrite sin_PI2. pose proof PI_RGT_0.
  assert (0 < 4 / (PI * 1)) by (apply Rdiv_lt_0_compat; lra). lra.
Qed.

(** A whole number of samples per period: the wave repeats with it; and squares and triangles (and sines) change sign after half of it. *)
Theorem C81_period : forall (w : wave) (Q : nat) (f fs ph : R) (i P : nat), 0 < f -> 0 < fs ->
  (fs = INR P * f -> partial_sum w Q f ph (INR (i + P) / fs) = partial_sum w Q f ph (INR i / fs)) /\
  (fs = 2 * INR P * f -> w <> WSawtooth -> partial_sum w Q f ph (INR (i + P) / fs) = - partial_sum w Q f ph (INR i / fs)).
Proof.
  intros w Q f fs ph i P Hf Hfs. split; intros E.
  - unfold partial_sum. apply sum_ext. intros j _. f_equal. replace (2 * PI * (INR (S j) * f) * (INR (i + P) / fs) + ph) with (2 * PI * (INR (S j) * f) * (INR i / fs) + ph + 2 * INR (S j) * PI).
    apply sin_period. rewrite plus_INR. assert (Pp : 0 < INR P) by nra. rewrite E. field. split; lra.
  - intros N. assert (Op : forall n (g : nat -> R), - sum n g = sum n (fun j => - g j)). { intros n g. induction n. { simpl. change (@r0 R CRing_R) with 0. ring. } rewrite !sum_S_R, <- IHn. ring. }
    unfold partial_sum. rewrite Op. apply sum_ext. intros j _.
    destruct (Nat.odd (S j)) eqn:O.
    + apply Nat.odd_spec in O. destruct O as (m & O). replace (2 * PI * (INR (S j) * f) * (INR (i + P) / fs) + ph) with (2 * PI * (INR (S j) * f) * (INR i / fs) + ph + PI + 2 * INR m * PI).
      rewrite sin_period, neg_sin. ring. rewrite plus_INR. assert (Pp : 0 < INR P) by nra. replace (INR (S j)) with (2 * INR m + 1) by (rewrite O, plus_INR, mult_INR; simpl; ring). rewrite E. field. split; lra.
    + assert (Z : series w (S j) = 0). { unfold series. destruct w; try easy; rewrite ?O; auto. destruct j; auto. discriminate. } rewrite Z. ring.
Qed.
Print Assumptions C81_period.
Example C81_period_example : 48000 = 2 * INR 240 * 100.
Proof. rewrite INR_IZR_INZ. simpl. lra. Qed.

(** No harmonic below the cutoff: a cutoff that is accepted gives a signal of nan. A sine ignores the cutoff. *)
Theorem C81_empty_refuted : forall (w : wave) (f : R) (fs : Z) (len c dbfs : R) (ch : nat) (un : bool) (phases : list R) (l : nat),
  w <> WHarmonic -> osc_args f fs (Some c) -> c <= f -> (0 < fs)%Z -> rounds (len * IZR fs) l -> (2 <= l)%nat -> (1 <= ch)%nat ->
  oscillator f fs len w (Some c) dbfs ch un phases None 0 = Ok None.
Proof.
  intros w f fs len c dbfs ch un phases l N Ha Hc Hfs Hl L2 Hch. rewrite (osc_eq _ _ _ _ _ _ _ _ _ _ _ l 0) by (auto; now left). destruct Ha as ((Ha & _) & Hc').
  assert (E : forall ph, wave_col w f c (IZR fs) ph l = repeat 0 l).
  { intros ph. rewrite (wave_raw w f c (IZR fs) ph l 0); auto; [|now apply IZR_lt|simpl; lra]. unfold mk, partial_sum. simpl. change (@r0 R CRing_R) with 0. clear. generalize 0%nat. induction l; intros k; simpl; auto. now rewrite IHl. }
  assert (V : vpeak (repeat 0 l) = 0). { clear. induction l; simpl; auto. rewrite IHl, Rabs_R0. apply Rmax_left. lra. }
  assert (F : finish_col dbfs None len (IZR fs) (l + 0) (map Some (repeat 0 l)) = Ok (repeat None l)).
  { unfold finish_col, level_col, finite. rewrite opt_seq_some. unfold norm_col, div_opt. rewrite V. destruct (Req_EM_T 0 0) as [_|]; [|lra]. destruct l as [|l]; [lia|]. cbn [repeat map option_map bind fade_both]. f_equal.
    unfold fit. cbn [length]. rewrite !map_length, repeat_length, Nat.add_0_r, Nat.ltb_irrefl. cbn [firstn]. f_equal. clear. induction l; simpl; auto. now rewrite IHl. }
  unfold finish. assert (M : mk ch (fun ci => map Some (wave_col w f c (IZR fs) (if un then nth ci phases 0 else 0) l)) = repeat (map Some (repeat 0 l)) ch).
  { unfold mk. transitivity (map (fun _ : nat => map Some (repeat 0 l)) (seq 0 ch)). { apply map_ext. intros. now rewrite E. } clear. generalize 0%nat. induction ch; intros k; simpl; auto. now rewrite IHch. }
  rewrite M. assert (Sq : forall n, seq_result (map (finish_col dbfs None len (IZR fs) (l + 0)) (repeat (map Some (repeat 0 l)) n)) = Ok (repeat (repeat None l) n)).
  { induction n; auto. cbn [repeat map seq_result]. rewrite F. cbn [bind]. rewrite IHn. reflexivity. }
  rewrite Sq. cbn [bind]. unfold to_signal. destruct ch as [|ch]; [lia|]. destruct l as [|l]; [lia|]. reflexivity.
Qed.
Print Assumptions C81_empty_refuted.
Example C81_empty_example : osc_args 1000 48000 (Some 500) /\ 500 <= 1000.
Proof. unfold osc_args. change (48000 / 2)%Z with 24000%Z. split; [split|]; lra. Qed.

(** What is refused: a frequency that is not between 0 and fs // 2, a cutoff outside (0, fs // 2], negative padding. *)
Theorem C81_refusals : forall (f : R) (fs : Z) len w cutoff dbfs ch un phases fade pad, ~ osc_args f fs cutoff \/ pad < 0 ->
  oscillator f fs len w cutoff dbfs ch un phases fade pad = Err AssertionError.
Proof.
  intros f fs len w cutoff dbfs ch un phases fade pad H. unfold oscillator, osc_args in *. destruct (Rlt_dec f _); auto. destruct (Rlt_dec 0 f); auto. unfold pad_samples.
  destruct (Req_EM_T pad 0); [|destruct (Rlt_dec 0 pad); auto]; cbn [bind]; cbv zeta; (destruct H as [H|H]; [|lra]);
  (destruct cutoff as [c|]; [destruct (Rlt_dec 0 c); auto; destruct (Rle_dec c (IZR (fs / 2))); auto; exfalso; apply H; lra | exfalso; apply H; split; auto; lra]).
Qed.
Print Assumptions C81_refusals.
Example C81_refusals_example : ~ osc_args 24000 48000 None.
Proof. unfold osc_args. change (48000 / 2)%Z with 24000%Z. lra. Qed.
