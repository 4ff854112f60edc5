(** Properties C79-C82: dirac impulses, chirps, oscillators and noise. *)
From Coq Require Import List Arith Lia ZArith Bool Reals Lra Psatz.
From Verif Require Import Alg Spec Dft M_arrays M_signal P_signal M_dynamics M_level M_distances M_ir M_mel Claims_signal Claims_level Claims_fade P_dft2 Claims_transforms Claims_mel M_generators.
Import ListNotations.
Local Open Scope R_scope.

(** ** Specification *)
(** The gain of sample i of l samples with a fade of lf samples at both ends *)
Definition env (fade : option fade_type) (lf l i : nat) : R :=
  match fade with None | Some NoFade => 1 | Some ty => ramp ty lf i * ramp ty lf (l - 1 - i) end.
(** [out] has n samples: the samples of [raw], all multiplied by the same positive number that brings the loudest one to dbfs, faded at both ends;
    then zeros. *)
Definition made (dbfs : R) (fade : option fade_type) (lf n : nat) (raw out : list R) : Prop :=
  length out = n /\ exists g, 0 < g /\ loudest [map (Rmult g) raw] (Rpower 10 (dbfs / 20)) /\
    forall i, (i < n)%nat -> nth i out 0 = if (i <? length raw)%nat then g * nth i raw 0 * env fade lf (length raw) i else 0.
(** The fade of lf samples lasts len seconds, has at least two samples and is shorter than l samples. *)
Definition fade_fits (fade : option fade_type) (len fs : R) (lf l : nat) : Prop :=
  match fade with None | Some NoFade => True | Some _ => INR lf <= len * fs < INR lf + 1 /\ (2 <= lf)%nat /\ (lf < l)%nat end.
(** r rounded to the nearest integer, halves upwards; r rounded downwards *)
Definition rounds (r : R) (n : nat) : Prop := INR n <= r + / 2 < INR n + 1.
Definition floors (r : R) (n : nat) : Prop := INR n <= r < INR n + 1.

(** ** Auxiliary facts *)
Lemma int_of_floor r n : floors r n -> int_of r = n.
Proof. apply floor_nat. Qed.
Lemma opt_seq_some {T} (l : list T) : opt_seq (map Some l) = Some l.
Proof. induction l; simpl; auto. now rewrite IHl. Qed.
Lemma env_bounds fade lf l i : (fade = None \/ fade = Some NoFade \/ (2 <= lf)%nat) -> 0 <= env fade lf l i <= 1.
Proof.
  intros H. unfold env. destruct fade as [ty|]; [|lra]. destruct ty; try lra;
  (destruct H as [H|[H|H]]; try discriminate; match goal with |- 0 <= ramp ?ty _ _ * _ <= 1 => destruct (C53_gains ty lf H) as (B & _); [discriminate|] end;
   pose proof (B i); pose proof (B (l - 1 - i)%nat); split; nra).
Qed.
Lemma fit_some n (d : list R) : exists out, fit n (map Some d) = map Some out /\ length out = n /\
  forall i, (i < n)%nat -> nth i out 0 = if (i <? length d)%nat then nth i d 0 else 0.
Proof.
  unfold fit. rewrite map_length. destruct (Nat.ltb_spec (length d) n) as [H|H].
  - exists (d ++ repeat 0 (n - length d)). rewrite map_app. split. { f_equal. induction (n - length d)%nat; simpl; auto. now f_equal. } split. { rewrite app_length, repeat_length. lia. }
    intros i Hi. destruct (Nat.ltb_spec i (length d)). { now rewrite app_nth1. } rewrite app_nth2 by auto. apply nth_repeat.
  - exists (firstn n d). rewrite firstn_map. split; auto. split. { rewrite firstn_length. lia. }
    intros i Hi. destruct (Nat.ltb_spec i (length d)); [|lia]. now apply nth_firstn.
Qed.
Lemma fade_both_ok fade len fs lf d : 0 < len -> 0 < fs -> fade_fits fade (5 / 100 * len) fs lf (length d) ->
  exists out, fade_both fade len fs (map Some d) = Ok (map Some out) /\ length out = length d /\
    forall i, (i < length d)%nat -> nth i out 0 = nth i d 0 * env fade lf (length d) i.
Proof.
  intros Hl Hf H. destruct fade as [ty|]; [|exists d; split; [reflexivity|split; auto; intros; simpl; ring]].
  destruct (match ty with NoFade => true | _ => false end) eqn:E.
  { destruct ty; try discriminate. exists d. split; [reflexivity|split; auto; intros; simpl; ring]. }
  assert (Hty : ty <> NoFade) by (destruct ty; discriminate).
  assert (H' : INR lf <= 5 / 100 * len * fs < INR lf + 1 /\ (2 <= lf)%nat /\ (lf < length d)%nat) by (destruct ty; try easy; exact H).
  destruct H' as (H1 & H2 & H3).
  destruct (fade1_ok ty (5 / 100 * len) fs true d lf) as (o1 & E1 & L1 & V1); auto; [lra|].
  destruct (fade1_ok ty (5 / 100 * len) fs false o1 lf) as (o2 & E2 & L2 & V2); auto; [lra|lia|].
  exists o2. unfold fade_both. rewrite E1. cbn [bind]. split; [exact E2|]. split; [lia|].
  intros i Hi. rewrite V2 by lia. rewrite V1, L1 by auto.
  replace (env (Some ty) lf (length d) i) with (ramp ty lf i * ramp ty lf (length d - 1 - i)) by (destruct ty; try easy; reflexivity). ring.
Qed.
Lemma finish_col_ok dbfs fade len fs n raw lf : 0 < len -> 0 < fs -> fade_fits fade (5 / 100 * len) fs lf (length raw) ->
  (exists v, In v raw /\ v <> 0) -> exists out, finish_col dbfs fade len fs n (map Some raw) = Ok (map Some out) /\ made dbfs fade lf n raw out.
Proof.
  intros Hl Hf H (v & Hv & N). pose proof (peak_nonzero raw v Hv N) as P. set (Tg := Rpower 10 (dbfs / 20)).
  assert (HT : 0 < Tg) by apply exp_pos. set (g := Tg / vpeak raw). assert (G : 0 < g) by (apply Rdiv_lt_0_compat; auto).
  assert (E1 : level_col dbfs (map Some raw) = Ok (map Some (scale g raw))).
  { unfold level_col, finite. rewrite opt_seq_some, norm_col_ok by lra. destruct raw; [easy|]. reflexivity. }
  assert (Ls : length (scale g raw) = length raw) by apply scale_length.
  destruct (fade_both_ok fade len fs lf (scale g raw)) as (o1 & E2 & L1 & V1); auto. { now rewrite Ls. }
  destruct (fit_some n o1) as (out & E3 & L2 & V2). exists out. unfold finish_col. rewrite E1. cbn [bind]. rewrite E2. cbn [bind]. split; [now rewrite E3|].
  split; auto. exists g. split; auto. split.
  - pose proof (vpeak_loudest raw v Hv) as L. pose proof (loudest_scale _ _ _ G L) as L3. simpl in L3. replace (vpeak raw * g) with Tg in L3 by (unfold g; field; lra).
    replace (map (Rmult g) raw) with (scale g raw) by (apply map_ext; intros; ring). exact L3.
  - intros i Hi. rewrite V2 by auto. rewrite L1, Ls. destruct (Nat.ltb_spec i (length raw)); auto. rewrite V1, Ls by lia.
    unfold scale. rewrite (nth_indep _ 0 (0 * g)) by (now rewrite map_length). rewrite (map_nth (fun v => v * g)). ring.
Qed.
Lemma made_bound dbfs fade lf n raw out : dbfs <= 0 -> (fade = None \/ fade = Some NoFade \/ (2 <= lf)%nat) -> made dbfs fade lf n raw out ->
  forall i, (i < n)%nat -> Rabs (nth i out 0) <= Rpower 10 (dbfs / 20).
Proof.
  intros Hd Hf (Ln & g & G & (L1 & L2) & V) i Hi. rewrite V by auto. assert (0 < Rpower 10 (dbfs / 20)) by apply exp_pos.
  destruct (Nat.ltb_spec i (length raw)); [|rewrite Rabs_R0; lra].
  assert (Q : Rabs (g * nth i raw 0) <= Rpower 10 (dbfs / 20)).
  { apply (L1 (map (Rmult g) raw)); [now left|]. apply in_map. now apply nth_In. }
  pose proof (env_bounds fade lf (length raw) i Hf). rewrite Rabs_mult, (Rabs_right (env _ _ _ _)) by lra.
  pose proof (Rabs_pos (g * nth i raw 0)). nra.
Qed.
Lemma fits_two fade len fs lf l : fade_fits fade len fs lf l -> fade = None \/ fade = Some NoFade \/ (2 <= lf)%nat.
Proof. intros H. destruct fade as [[]|]; auto; right; right; apply H. Qed.
Lemma db_le_one dbfs : dbfs <= 0 -> Rpower 10 (dbfs / 20) <= 1.
Proof. intros H. rewrite <- (Rpower_O 10) by lra. apply Rle_Rpower; lra. Qed.
Lemma finish_signal dbfs fade lf n k fs raws outs : dbfs <= 0 -> (fade = None \/ fade = Some NoFade \/ (2 <= lf)%nat) ->
  Forall2 (made dbfs fade lf n) raws outs -> length raws = k -> (1 <= k <= n)%nat -> (2 <= n)%nat ->
  exists s, to_signal fs (map (map Some) outs) = Ok (Some s) /\ s_re s = outs /\ s_im s = None /\ s_scale s = 1 /\ s_constr s = true /\ s_fs s = fs /\ shape (s_re s) n k.
Proof.
  intros Hd Hf F Lk Hk Hn. assert (Sh : shape outs n k).
  { split; [rewrite <- Lk; clear - F; induction F; simpl; auto|]. clear - F. induction F; constructor; auto. apply H. }
  unfold to_signal. rewrite map_map. rewrite (opt_seq_map _ (fun c => c)) by (intros; apply opt_seq_some). rewrite map_id.
  rewrite (set_identity true fs (mkIn outs None false) n k); auto; try lia.
  - cbn [bind i_re i_im]. eexists. split; [reflexivity|]. repeat (split; [reflexivity|]). exact Sh.
  - split; auto. cbn. intros; discriminate.
  - intros _. split; [|cbn; intros; discriminate]. cbn [i_re]. intros i c Hi Hc.
    assert (Q : exists r, made dbfs fade lf n r (nth c outs [])).
    { destruct Sh as (Sh & _). rewrite <- Sh in Hc. clear - F Hc. revert c Hc. induction F; intros c Hc; simpl in Hc; [lia|]. destruct c; simpl; eauto. apply IHF. lia. }
    destruct Q as (r & Q). pose proof (made_bound _ _ _ _ _ _ Hd Hf Q i Hi). pose proof (db_le_one dbfs Hd). unfold entry. lra.
Qed.

(** ** C79: dirac *)
Definition dirac_args (length delay channels fs : Z) : Prop := (0 <= delay < length)%Z /\ (0 < channels)%Z /\ (0 < fs)%Z.
Lemma dirac_eq len d ch fs : dirac_args len d ch fs ->
  dirac len d ch fs = set_time_data true fs (mkIn (repeat (impulse (Z.to_nat len) (Z.to_nat d)) (Z.to_nat ch)) None false).
Proof.
  intros ((A & B) & D & E). unfold dirac. rewrite (proj2 (Z.ltb_lt _ _)) by lia. rewrite (proj2 (Z.leb_le _ _)) by lia.
  rewrite (proj2 (Z.ltb_lt d len)) by lia. rewrite (proj2 (Z.ltb_lt _ _) D), (proj2 (Z.ltb_lt _ _) E). reflexivity.
Qed.
Lemma impulse_entry n d k i c : (i < n)%nat -> (c < k)%nat -> entry (repeat (impulse n d) k) i c = if (i =? d)%nat then 1 else 0.
Proof. intros Hi Hc. unfold entry. rewrite (nth_indep _ [] (impulse n d)) by now rewrite repeat_length. rewrite nth_repeat. unfold impulse. now rewrite mk_at. Qed.
Lemma repeat_shape (c : list R) k : shape (repeat c k) (length c) k.
Proof. split. apply repeat_length. apply Forall_forall. intros x Hx. now rewrite (repeat_spec _ _ _ Hx). Qed.
Lemma dirac_data (len d ch fs : Z) : dirac_args len d ch fs -> (len * ch <> 1)%Z ->
  let n := Z.to_nat len in let k := Z.to_nat ch in
  exists s, dirac len d ch fs = Ok s /\ s_im s = None /\ s_scale s = 1 /\ s_fs s = fs /\ shape (s_re s) (max n k) (min n k) /\
    forall i c, (i < max n k)%nat -> (c < min n k)%nat -> entry (s_re s) i c = if ((if n <? k then c else i) =? Z.to_nat d)%nat then 1 else 0.
Proof.
  intros H H1. cbv zeta. set (n := Z.to_nat len). set (k := Z.to_nat ch). rewrite dirac_eq by auto. fold n k. destruct H as (A & B & D).
  assert (Sh : shape (repeat (impulse n (Z.to_nat d)) k) n k).
  { pose proof (repeat_shape (impulse n (Z.to_nat d)) k) as Q. unfold impulse at 2 in Q. now rewrite mk_len in Q. }
  destruct (set_time_data_spec true fs (mkIn (repeat (impulse n (Z.to_nat d)) k) None false) n k 1) as (s & E & P1 & P2 & P3 & P4 & P5 & P6); auto.
  - split; [exact Sh|]. cbn. intros; discriminate.
  - unfold n. lia.
  - unfold k. lia.
  - unfold n, k. intros Q. apply H1. assert (Z.of_nat (Z.to_nat len * Z.to_nat ch) = 1%Z) by now rewrite Q. rewrite Nat2Z.inj_mul, !Z2Nat.id in H by lia. auto.
  - unfold is_peak. cbn [i_re i_im]. split.
    + intros i c Hi Hc. split; [|intros; discriminate]. rewrite impulse_entry by auto. destruct (_ =? _)%nat; rewrite ?Rabs_R0, ?Rabs_R1; lra.
    + exists (Z.to_nat d), 0%nat. split; [unfold n; lia|]. split; [unfold k; lia|]. left. rewrite impulse_entry by (unfold n, k; lia). rewrite Nat.eqb_refl. now rewrite Rabs_R1.
  - exists s. split; auto. cbn [i_im i_re] in *. split; [assumption|]. assert (P3' : s_scale s = 1). { rewrite P3. destruct (Rlt_dec 1 1) as [Q|]; auto. lra. }
    split; auto. split; auto. split; auto. intros i c Hi Hc. rewrite P5, P3' by auto. unfold oriented. rewrite Rmult_1_l.
    destruct (Nat.ltb_spec n k); rewrite impulse_entry by lia; reflexivity.
Qed.
(** At least as many samples as channels, two samples or more: every channel is 1 at the delay and 0 elsewhere, and its spectrum has magnitude 1 and the phase of that delay. *)
Theorem C79_dirac : forall (len d ch fs : Z), dirac_args len d ch fs -> (ch <= len)%Z -> (2 <= len)%Z ->
  exists s, dirac len d ch fs = Ok s /\ s_im s = None /\ s_scale s = 1 /\ s_fs s = fs /\ shape (s_re s) (Z.to_nat len) (Z.to_nat ch) /\
    forall c, (c < Z.to_nat ch)%nat ->
      (forall i, (i < Z.to_nat len)%nat -> entry (s_re s) i c = if (i =? Z.to_nat d)%nat then 1 else 0) /\
      (forall k, (k <= Z.to_nat len)%nat -> dft (Z.to_nat len) (nth c (s_re s) []) k = cis (2 * PI * (- IZR d * INR k) / IZR len)).
Proof.
  intros len d ch fs H Hc Hl. destruct (dirac_data len d ch fs H) as (s & E & A & B & D & F & G). { destruct H as (Q1 & Q2 & Q3). nia. }
  rewrite Nat.max_l, Nat.min_r in F by lia. rewrite Nat.max_l, Nat.min_r in G by lia.
  assert (G' : forall i c, (i < Z.to_nat len)%nat -> (c < Z.to_nat ch)%nat -> entry (s_re s) i c = if (i =? Z.to_nat d)%nat then 1 else 0).
  { intros i c Hi Hj. rewrite G by auto. destruct (Nat.ltb_spec (Z.to_nat len) (Z.to_nat ch)); [lia|]. reflexivity. }
  exists s. repeat (split; [assumption|]). intros c Hj. split. { intros; auto. }
  intros k Hk. unfold dft. rewrite (sum_single (HA := CRing_C) _ (Z.to_nat d)); [|destruct H; lia|intros t Ht Hne; rewrite <- nth_get; fold (entry (s_re s) t c); rewrite G' by auto; destruct (Nat.eqb_spec t (Z.to_nat d)); [lia|]; apply c_ext; simpl; ring].
  rewrite <- nth_get. fold (entry (s_re s) (Z.to_nat d) c). destruct H as (Q1 & Q2 & Q3). rewrite G', Nat.eqb_refl by lia.
  unfold root. rewrite Z2Nat.id by lia. rewrite (INR_IZR_INZ (Z.to_nat len)), Z2Nat.id by lia. rewrite opp_IZR, mult_IZR, <- INR_IZR_INZ.
  replace (2 * PI * - (IZR d * INR k) / IZR len) with (2 * PI * (- IZR d * INR k) / IZR len) by (unfold Rdiv; ring). apply c_ext; simpl; ring.
Qed.
Print Assumptions C79_dirac.
Example C79_dirac_example : dirac_args 512 40 2 48000 /\ (2 <= 512)%Z /\ (2 <= 512)%Z.
Proof. unfold dirac_args. lia. Qed.

(** The refusals: exactly a length or a channel count or a sampling rate that is not positive, or a delay outside the signal. A single sample in one channel is another error. *)
Theorem C79_dirac_refusals : forall (len d ch fs : Z),
  (dirac len d ch fs = Err AssertionError <-> ~ dirac_args len d ch fs) /\
  ((exists s, dirac len d ch fs = Ok s) <-> dirac_args len d ch fs /\ (len * ch <> 1)%Z).
Proof.
  intros len d ch fs. assert (Dec : dirac_args len d ch fs \/ ~ dirac_args len d ch fs) by (unfold dirac_args; lia).
  assert (R1 : ~ dirac_args len d ch fs -> dirac len d ch fs = Err AssertionError).
  { intros H. unfold dirac. destruct (Z.ltb_spec 0 len), (Z.leb_spec 0 d), (Z.ltb_spec d len), (Z.ltb_spec 0 ch), (Z.ltb_spec 0 fs); auto. exfalso. apply H. unfold dirac_args. lia. }
  assert (R2 : dirac_args len d ch fs -> (len * ch = 1)%Z -> dirac len d ch fs = Err IndexError).
  { intros H Q. rewrite dirac_eq by auto. destruct H as (H1 & H2 & H3). assert (len = 1 /\ ch = 1)%Z as (-> & ->) by nia. reflexivity. }
  destruct Dec as [H|H].
  - destruct (Z.eq_dec (len * ch) 1) as [Q|Q].
    + rewrite (R2 H Q). split; split; intros K; try discriminate; try (now destruct K); tauto.
    + destruct (dirac_data len d ch fs H Q) as (s & E & _). rewrite E. split; split; intros K; try discriminate; try tauto. eauto.
  - rewrite (R1 H). split; split; intros K; auto; [destruct K; discriminate|tauto].
Qed.
Print Assumptions C79_dirac_refusals.

(** More channels than samples: the array is transposed. The result has as many samples as channels were asked for; one of its channels is constantly 1, the others are silent. *)
Theorem C79_dirac_wide_refuted : forall (len d ch fs : Z), dirac_args len d ch fs -> (len < ch)%Z ->
  exists s, dirac len d ch fs = Ok s /\ shape (s_re s) (Z.to_nat ch) (Z.to_nat len) /\
    forall i c, (i < Z.to_nat ch)%nat -> (c < Z.to_nat len)%nat -> entry (s_re s) i c = if (c =? Z.to_nat d)%nat then 1 else 0.
Proof.
  intros len d ch fs H Hc. destruct (dirac_data len d ch fs H) as (s & E & A & B & D & F & G). { destruct H as (Q1 & Q2 & Q3). nia. }
  destruct H as (Q1 & Q2 & Q3). rewrite Nat.max_r, Nat.min_l in F by lia. rewrite Nat.max_r, Nat.min_l in G by lia.
  exists s. repeat (split; [assumption|]). intros i c Hi Hj. rewrite G by auto. destruct (Nat.ltb_spec (Z.to_nat len) (Z.to_nat ch)); [|lia]. reflexivity.
Qed.
Print Assumptions C79_dirac_wide_refuted.
Example C79_dirac_wide_example : dirac_args 2 1 4 48000 /\ (2 < 4)%Z.
Proof. unfold dirac_args. lia. Qed.
