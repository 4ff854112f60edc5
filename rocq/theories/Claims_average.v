(** Property C87: the average of the channels of an impulse response. *)
From Coq Require Import List Arith Lia ZArith Bool Reals Lra Psatz.
From Verif Require Import Alg Spec Dft M_arrays M_signal P_arrays P_signal M_scaling M_tf M_ir M_latency M_block P_block P_dft2 M_minphase P_minphase M_groupdelay M_fracdelay M_average Claims_room Claims_deconv Claims_minphase Claims_groupdelay Claims_fracdelay Claims_stft Claims_signal Claims_irfilter.
Import ListNotations.
Local Open Scope R_scope.

(** ** Specification *)
(** f is the first of the channels with the largest latency *)
Definition followed (lat : list R) (f : nat) : Prop :=
  (f < length lat)%nat /\ (forall j, (j < length lat)%nat -> nth j lat 0 <= nth f lat 0) /\ (forall j, (j < f)%nat -> nth j lat 0 < nth f lat 0).
(** x delayed by m samples *)
Definition later (m : nat) (x : list R) (t : nat) : R := if (t <? m)%nat then 0 else nth (t - m) x 0.
(** sum of squares *)
Definition power (x : list R) : R := rsum (length x) (fun t => nth t x 0 ^ 2).

(** ** Auxiliary facts *)
Lemma followed_argmax lat f : followed lat f -> argmax lat = f.
Proof.
  intros (A & B & D). assert (N : lat <> []) by (intros ->; simpl in A; lia). destruct (argmax_spec lat N) as (A' & B' & D'). cbv zeta in *. set (r := argmax lat) in *.
  destruct (Nat.lt_trichotomy r f) as [H|[H|H]]; auto. specialize (D r H). specialize (B' f A). lra. specialize (D' f H). specialize (B r A'). lra.
Qed.
Lemma mean_bound k f : (0 < k)%nat -> (forall c, (c < k)%nat -> Rabs (f c) <= 1) -> Rabs (mean k f) <= 1.
Proof.
  intros Hk H. unfold mean. assert (P : 0 < INR k) by (apply lt_0_INR; auto).
  assert (G : forall j, (j <= k)%nat -> Rabs (rsum j f) <= INR j).
  { induction j; intros Hj. simpl. change (@r0 R CRing_R) with 0. rewrite Rabs_R0. lra. rewrite S_INR. simpl. eapply Rle_trans; [apply Rabs_triang|]. specialize (IHj ltac:(lia)). specialize (H j ltac:(lia)). lra. }
  unfold Rdiv. rewrite Rabs_mult, (Rabs_pos_eq (/ INR k)) by (left; now apply Rinv_0_lt_compat). apply (Rmult_le_reg_r (INR k)); auto. rewrite Rmult_assoc, Rinv_l by lra. specialize (G k ltac:(lia)). lra.
Qed.
Lemma mean_ext k f g : (forall c, (c < k)%nat -> f c = g c) -> mean k f = mean k g.
Proof. intros H. unfold mean. f_equal. now apply (sum_ext (HA := CRing_R)). Qed.
Lemma mean_const k v : (0 < k)%nat -> mean k (fun _ => v) = v.
Proof.
  intros Hk. unfold mean. assert (P : 0 < INR k) by (apply lt_0_INR; auto). assert (G : forall j, rsum j (fun _ => v) = INR j * v). { induction j. simpl. change (@r0 R CRing_R) with 0. ring. rewrite S_INR. simpl. rewrite IHj. ring. }
  rewrite G. field. lra.
Qed.
Lemma set_col s (y : list R) n : length y = n -> (2 <= n)%nat -> (s_constr s = true -> forall i, (i < n)%nat -> Rabs (nth i y 0) <= 1) ->
  set_data s (mkIn [y] None false) = Ok (mkSig [y] None 1 (s_constr s) (s_fs s)).
Proof.
  intros L Hn H. unfold set_data. rewrite (set_identity _ _ _ n 1); auto; try lia.
  - split; [|discriminate]. split; [reflexivity|]. repeat constructor. exact L.
  - intros Hc. split; [|discriminate]. intros i c Hi Hc'. assert (c = 0)%nat by lia. subst c. now apply H.
Qed.
Lemma col_length s n k c : sig_ok s n k -> (c < k)%nat -> length (nth c (s_re s) []) = n.
Proof. intros OK Hc. destruct (ok_re _ _ _ OK) as (L1 & L2). rewrite Forall_forall in L2. apply L2. apply nth_In. lia. Qed.
Lemma one_channel_of s n k c : sig_ok s n k -> s_im s = None -> (c < k)%nat -> get_channels [Z.of_nat c] s = Ok (mkSig [nth c (s_re s) []] None 1 (s_constr s) (s_fs s)).
Proof.
  intros OK Im Hc. pose proof (ok_n _ _ _ OK). destruct (ok_re _ _ _ OK) as (L1 & L2). unfold get_channels, ncols. rewrite L1.
  assert (E : py_index k (Z.of_nat c) = Some c). { unfold py_index. destruct (Z.leb_spec 0 (Z.of_nat c)); [|lia]. destruct (Z.ltb_spec (Z.of_nat c) (Z.of_nat k)); [|lia]. simpl. now rewrite Nat2Z.id. }
  rewrite (resolve_one _ _ _ E). unfold map_data, get_data. cbn [i_re i_im i_int select map]. rewrite Im. cbn [option_map]. apply (set_col s _ n); auto. now apply (col_length s n k).
  intros Hb i Hi. apply (ok_bre _ _ _ OK Hb i c); auto.
Qed.
Lemma aligned_by b late own s n k c y : sig_ok s n k -> s_im s = None -> (c < k)%nat -> length y = n -> (s_constr s = true -> forall i, (i < n)%nat -> Rabs (nth i y 0) <= 1) ->
  fractional_td b (IZR (s_fs s)) ((late - own) / IZR (s_fs s)) None true 30 60 [nth c (s_re s) []] = Ok [y] -> aligned b late own c s = Ok y.
Proof.
  intros OK Im Hc Ly By E. unfold aligned. rewrite (one_channel_of s n k c) by auto. cbn [bind s_re nth]. unfold frac_one. rewrite E. cbn [bind nth]. rewrite (set_col s y n); auto. apply (ok_n _ _ _ OK).
Qed.
Lemma later_bound m x t : (forall i, (i < length x)%nat -> Rabs (nth i x 0) <= 1) -> Rabs (later m x t) <= 1.
Proof.
  intros H. unfold later. destruct (t <? m)%nat. rewrite Rabs_R0. lra. destruct (Nat.lt_ge_cases (t - m) (length x)). now apply H. rewrite nth_overflow by auto. rewrite Rabs_R0. lra.
Qed.
Lemma channel_bound s n k c : sig_ok s n k -> (c < k)%nat -> s_constr s = true -> forall i, (i < length (nth c (s_re s) []))%nat -> Rabs (nth i (nth c (s_re s) []) 0) <= 1.
Proof. intros OK Hc Hb i Hi. rewrite (col_length s n k) in Hi by auto. apply (ok_bre _ _ _ OK Hb i c); auto. Qed.
Lemma aligned_whole b late own s n k c m : sig_ok s n k -> s_im s = None -> (0 < s_fs s)%Z -> (c < k)%nat -> b (Rsqr (kaiser_beta 60)) <> 0 -> late - own = INR m -> (m < n)%nat ->
  aligned b late own c s = Ok (mk n (later m (nth c (s_re s) []))).
Proof.
  intros OK Im Hf Hc Hb Hd Hm. pose proof (col_length s n k c OK Hc) as Lx. assert (F0 : 0 < IZR (s_fs s)) by (now apply IZR_lt). apply (aligned_by b late own s n k); auto. apply mk_length.
  - intros Hk i Hi. rewrite nth_mk by auto. apply later_bound. now apply (channel_bound s n k).
  - rewrite Hd. destruct m as [|m].
    + rewrite (proj1 (C71_limits b (IZR (s_fs s)) _ None true 30 60 [nth c (s_re s) []] F0)). 2:{ simpl. field. lra. } do 2 f_equal. apply (nth_ext _ _ 0 0). now rewrite mk_length. intros i Hi. rewrite Lx in Hi. rewrite nth_mk by auto. unfold later. cbn [Nat.ltb Nat.leb]. now rewrite Nat.sub_0_r.
    + destruct (C71_whole_delay b (IZR (s_fs s)) (INR (S m) / IZR (s_fs s)) (S m) None true 30 60 [nth c (s_re s) []] n) as (out & E & Lo & V); auto; try lia.
      { unfold Rdiv. rewrite Rmult_assoc, Rinv_l by lra. ring. } { discriminate. } { discriminate. } { repeat constructor. intros []. } { intros z [<-|[]]. simpl. lia. }
      rewrite E. destruct out as [|y [|]]; try discriminate. do 2 f_equal. destruct (V 0%nat) as (Ly & G). simpl; lia. cbn [nth] in *. apply (nth_ext _ _ 0 0). now rewrite mk_length. intros i Hi. rewrite nth_mk by lia. destruct (G i Hi) as (G1 & _).
      change (nth i y 0) with (@get R CRing_R y i). rewrite G1. reflexivity. left. now left.
Qed.
Lemma time_core b lat fast (norm : bool) s n k f (a : mat) (d : nat -> list R) : sig_ok s n k -> s_im s = None -> (1 < k)%nat -> length lat = k -> followed lat f ->
  (forall c, (c < k)%nat -> c <> f -> aligned b (nth f lat 0) (nth c lat 0) c s = Ok (d c)) ->
  (norm = true -> power (nth 0 (s_re s) []) <> 0) ->
  (if norm then exists g, set_data s (mkIn (scaled_by_energy (s_re s)) None false) = Ok g /\ s_re g = a else a = s_re s) ->
  (s_constr s = true -> forall c, (c < k)%nat -> forall i, (i < n)%nat -> Rabs (nth i (if (c =? f)%nat then nth f a [] else d c) 0) <= 1) ->
  average_irs b lat fast true norm s = Ok (Some (mkSig [mk n (fun t => mean k (fun c => nth t (if (c =? f)%nat then nth f a [] else d c) 0))] None 1 (s_constr s) (s_fs s))).
Proof.
  intros OK Im Hk Ll Hf Hd Hn Ha Hb. pose proof (ok_n _ _ _ OK). destruct (ok_re _ _ _ OK) as (L1 & L2). assert (Nr : nrows (s_re s) = n) by (apply (shape_nrows _ n k); [now split|lia]).
  unfold average_irs. rewrite Nr. unfold ncols. rewrite L1. destruct (Nat.ltb_spec 1 k); [|lia]. cbn [negb]. rewrite (followed_argmax lat f) by auto.
  rewrite (seq_result_ok _ _ (map (fun i => if (i =? f)%nat then [] else d i) (seq 0 k))).
  2:{ rewrite map_map. apply map_ext_in. intros i Hi. apply in_seq in Hi. destruct (Nat.eqb_spec i f); auto. apply Hd; auto. lia. }
  cbn [bind]. assert (EE : energy_of (nth 0 (s_re s) []) = power (nth 0 (s_re s) [])). { apply (sum_ext (HA := CRing_R)). intros t Ht. unfold get. simpl. change (@r0 R CRing_R) with 0. ring. }
  rewrite EE. set (z := (norm && _)%bool). assert (Ez : z = false). { unfold z. destruct norm; auto. destruct (Req_EM_T _ 0); auto. now destruct (Hn eq_refl). } rewrite Ez.
  assert (G : exists g, (if norm then set_data s (mkIn (scaled_by_energy (s_re s)) None false) else Ok s) = Ok g /\ s_re g = a). { destruct norm; auto. exists s. split; auto. }
  destruct G as (g & -> & Eg). cbn [bind]. rewrite Eg.
  assert (EM : forall t, mean k (fun c => @get R CRing_R (if (c =? f)%nat then nth c a [] else nth c (map (fun i => if (i =? f)%nat then [] else d i) (seq 0 k)) []) t) = mean k (fun c => nth t (if (c =? f)%nat then nth f a [] else d c) 0)).
  { intros t. apply mean_ext. intros c Hc. unfold get. destruct (Nat.eqb_spec c f). now subst. change (@r0 R CRing_R) with 0. f_equal. change (map (fun i => if (i =? f)%nat then [] else d i) (seq 0 k)) with (mk k (fun i => if (i =? f)%nat then [] else d i)). rewrite nth_mk by auto. destruct (Nat.eqb_spec c f); congruence. }
  rewrite (set_col s _ n); auto. 2: apply mk_length. 2:{ intros Hc i Hi. rewrite nth_mk by auto. rewrite EM. apply mean_bound. lia. intros c Hc'. now apply Hb. }
  cbn [bind]. do 4 f_equal. unfold mk. apply map_ext_in. intros t _. apply EM.
Qed.

Lemma energy_power x : energy_of x = power x.
Proof. apply (sum_ext (HA := CRing_R)). intros t Ht. unfold get. simpl. change (@r0 R CRing_R) with 0. ring. Qed.

(** ** C87, mean in the time domain *)
(** Without normalisation and with latencies which differ by whole samples: the mean of the channels, each delayed to the largest latency. *)
Theorem C87_time_average : forall (b : R -> R) (lat : list R) (fast : bool) (s : signal) (n k f : nat) (m : nat -> nat),
  sig_ok s n k -> s_im s = None -> (1 < k)%nat -> (0 < s_fs s)%Z -> b (Rsqr (kaiser_beta 60)) <> 0 -> length lat = k -> followed lat f ->
  (forall c, (c < k)%nat -> nth f lat 0 - nth c lat 0 = INR (m c) /\ (m c < n)%nat) ->
  average_irs b lat fast true false s = Ok (Some (mkSig [mk n (fun t => rsum k (fun c => later (m c) (nth c (s_re s) []) t) / INR k)] None 1 (s_constr s) (s_fs s))).
Proof.
  intros b lat fast s n k f m OK Im Hk Hf Hb Ll Ff Hm.
  rewrite (time_core b lat fast false s n k f (s_re s) (fun c => mk n (later (m c) (nth c (s_re s) [])))); auto; try discriminate.
  - do 4 f_equal. unfold mk at 1 3. apply map_ext_in. intros t Ht. apply in_seq in Ht. apply mean_ext. intros c Hc. destruct (Nat.eqb_spec c f) as [->|N].
    + destruct (Hm f Hc) as (E & _). rewrite Rminus_eq_0 in E. assert (m f = 0)%nat as -> by (apply INR_eq; simpl; lra). unfold later. cbn [Nat.ltb Nat.leb]. now rewrite Nat.sub_0_r.
    + now rewrite nth_mk by lia.
  - intros c Hc N. destruct (Hm c Hc). now apply (aligned_whole b _ _ s n k).
  - intros Hcs c Hc i Hi. destruct (Nat.eqb_spec c f) as [->|N]. { apply (ok_bre _ _ _ OK Hcs i f); auto. } rewrite nth_mk by auto. apply later_bound. now apply (channel_bound s n k).
Qed.
Print Assumptions C87_time_average.
(** Channels which are delayed copies of one response: the average is the latest copy. *)
Theorem C87_delayed_copies : forall (b : R -> R) (lat : list R) (fast : bool) (s : signal) (n k f : nat) (h : list R) (a : nat -> nat) (L : R),
  sig_ok s n k -> s_im s = None -> (1 < k)%nat -> (0 < s_fs s)%Z -> b (Rsqr (kaiser_beta 60)) <> 0 -> length lat = k -> followed lat f ->
  (forall c, (c < k)%nat -> nth c lat 0 = L + INR (a c) /\ (a c < n)%nat /\ nth c (s_re s) [] = mk n (later (a c) h)) ->
  average_irs b lat fast true false s = Ok (Some (mkSig [mk n (later (a f) h)] None 1 (s_constr s) (s_fs s))).
Proof.
  intros b lat fast s n k f h a L OK Im Hk Hf Hb Ll Ff H. destruct (Ff) as (F1 & F2 & _). rewrite Ll in *.
  assert (Ha : forall c, (c < k)%nat -> (a c <= a f)%nat). { intros c Hc. apply INR_le. destruct (H c Hc) as (E1 & _), (H f F1) as (E2 & _). specialize (F2 c Hc). lra. }
  rewrite (C87_time_average b lat fast s n k f (fun c => a f - a c)%nat); auto.
  - do 4 f_equal. unfold mk. apply map_ext_in. intros t Ht. apply in_seq in Ht. fold (mean k (fun c => later (a f - a c) (nth c (s_re s) []) t)).
    rewrite (mean_ext k _ (fun _ => later (a f) h t)). { apply mean_const. lia. }
    intros c Hc. destruct (H c Hc) as (_ & Hl & ->). specialize (Ha c Hc). unfold later at 1. destruct (Nat.ltb_spec t (a f - a c)). { unfold later. destruct (Nat.ltb_spec t (a f)); [auto|lia]. }
    rewrite nth_mk by lia. unfold later. destruct (Nat.ltb_spec (t - (a f - a c)) (a c)), (Nat.ltb_spec t (a f)); try lia; auto. f_equal. lia.
  - intros c Hc. destruct (H c Hc) as (E1 & L1 & _), (H f F1) as (E2 & L2 & _). rewrite E1, E2. specialize (Ha c Hc). rewrite minus_INR by auto. split; [ring|lia].
Qed.
Print Assumptions C87_delayed_copies.
(** With normalisation: only the channel with the largest latency is changed, by the ratio of its energy to that of the first channel (and by
    the peak of all the scaled channels when that exceeds one); the other channels enter as they are. *)
Theorem C87_normalised_law : forall (b : R -> R) (lat : list R) (fast : bool) (s : signal) (n k f : nat) (m : nat -> nat) (p : R),
  sig_ok s n k -> s_im s = None -> (1 < k)%nat -> (0 < s_fs s)%Z -> b (Rsqr (kaiser_beta 60)) <> 0 -> length lat = k -> followed lat f ->
  (forall c, (c < k)%nat -> nth f lat 0 - nth c lat 0 = INR (m c) /\ (m c < n)%nat) ->
  let E c := power (nth c (s_re s) []) in
  E 0%nat <> 0 -> top (map (fun x => map (fun v => v * (power x / E 0%nat)) x) (s_re s)) p ->
  let q := if s_constr s then if Rlt_dec 1 p then / p else 1 else 1 in
  average_irs b lat fast true true s =
    Ok (Some (mkSig [mk n (fun t => rsum k (fun c => (if (c =? f)%nat then q * (E f / E 0%nat) else 1) * later (m c) (nth c (s_re s) []) t) / INR k)] None 1 (s_constr s) (s_fs s))).
Proof.
  intros b lat fast s n k f m p OK Im Hk Hf Hb Ll Ff Hm E HE Tp q. destruct (ok_re _ _ _ OK) as (L1 & L2). pose proof (ok_n _ _ _ OK) as Hn. pose proof (ok_kn _ _ _ OK) as Hkn. pose proof L2 as L3. rewrite Forall_forall in L3.
  destruct Ff as (F1 & F2). rewrite Ll in F1.
  set (sc := scaled_by_energy (s_re s)). assert (Esc : sc = map (fun x => map (fun v => v * (power x / E 0%nat)) x) (s_re s)).
  { unfold sc, scaled_by_energy. apply map_ext. intros x. apply map_ext. intros v. now rewrite !energy_power. }
  assert (Ls : length sc = k) by (rewrite Esc, map_length; auto). assert (Fs : Forall (fun x => length x = n) sc). { rewrite Esc. apply Forall_forall. intros x Hx. apply in_map_iff in Hx as (y & <- & Hy). rewrite map_length. now apply L3. }
  assert (Sh : shape sc n k) by (split; auto).
  assert (Pk : is_peak (mkIn sc None false) n k p). { rewrite <- Ls. apply top_peak; auto. lia. intros Z. rewrite Z in Ls. simpl in Ls. lia. now rewrite Esc. }
  destruct (set_time_data_spec (s_constr s) (s_fs s) (mkIn sc None false) n k p) as (g & Eg & A & B & D & F & G & I); auto; try lia. { split; auto. discriminate. }
  rewrite Nat.max_l, Nat.min_r in * by lia.
  assert (Gf : forall t, (t < n)%nat -> nth t (nth f (s_re g) []) 0 = q * (E f / E 0%nat) * nth t (nth f (s_re s) []) 0).
  { intros t Ht. fold (entry (s_re g) t f). rewrite G by lia. cbn [i_re]. rewrite oriented_tall by lia. rewrite D. unfold entry. rewrite Esc. set (gg := fun x : list R => map (fun v => v * (power x / E 0%nat)) x). rewrite (nth_indep _ [] (gg [])) by (rewrite map_length; lia). rewrite map_nth. unfold gg.
    rewrite (nth_map' (fun v => v * (power (nth f (s_re s) []) / E 0%nat)) _ t 0 0) by (rewrite (col_length s n k); auto). fold (E f). unfold q. destruct (s_constr s); [destruct (Rlt_dec 1 p)|]; unfold Rdiv; ring. }
  rewrite (time_core b lat fast true s n k f (s_re g) (fun c => mk n (later (m c) (nth c (s_re s) [])))); auto.
  - do 4 f_equal. unfold mk at 1 3. apply map_ext_in. intros t Ht. apply in_seq in Ht. apply mean_ext. intros c Hc. destruct (Nat.eqb_spec c f) as [->|N].
    + rewrite Gf by lia. destruct (Hm f Hc) as (Ed & _). rewrite Rminus_eq_0 in Ed. assert (m f = 0)%nat as -> by (apply INR_eq; simpl; lra). unfold later. cbn [Nat.ltb Nat.leb]. now rewrite Nat.sub_0_r.
    + rewrite nth_mk by lia. ring.
  - split; auto. lia.
  - intros c Hc N. destruct (Hm c Hc). now apply (aligned_whole b _ _ s n k).
  - exists g. split; auto.
  - intros Hcs c Hc i Hi. destruct (Nat.eqb_spec c f) as [->|N].
    + fold (entry (s_re g) i f). rewrite G by lia. cbn [i_re]. rewrite oriented_tall by lia. rewrite D, Hcs. destruct Pk as (P1 & _). destruct (P1 i f) as (P2 & _); auto. cbn [i_re] in P2.
      rewrite Rabs_mult. pose proof (Rabs_pos (entry sc i f)). destruct (Rlt_dec 1 p).
      * rewrite Rabs_pos_eq by (left; apply Rdiv_lt_0_compat; lra). apply (Rmult_le_reg_l p); [lra|]. replace (p * (1 / p * Rabs (entry sc i f))) with (Rabs (entry sc i f)) by (field; lra). lra.
      * rewrite Rabs_R1. lra.
    + rewrite nth_mk by auto. apply later_bound. now apply (channel_bound s n k).
Qed.
Print Assumptions C87_normalised_law.
Lemma power_scaled x g : power (map (fun v => v * g) x) = g ^ 2 * power x.
Proof.
  unfold power. rewrite map_length. rewrite <- (sum_scal_l (HA := CRing_R)). apply (sum_ext (HA := CRing_R)). intros t Ht. rewrite (nth_map' (fun v => v * g) x t 0 0) by auto. change (@rmul R CRing_R) with Rmult. ring.
Qed.
Lemma power_nonneg x : 0 <= power x.
Proof. unfold power. generalize (length x). induction n; simpl; change (@r0 R CRing_R) with 0; change (@radd R CRing_R) with Rplus. lra. pose proof (pow2_ge_0 (nth n x 0)). simpl in *. lra. Qed.
Lemma peak_top m n k p : (0 < n)%nat -> (0 < k)%nat -> shape m n k -> is_peak (mkIn m None false) n k p -> top m p.
Proof.
  intros Hn Hk (L1 & L2) (P1 & (i0 & c0 & Hi0 & Hc0 & E)). cbn [i_re i_im] in *. rewrite Forall_forall in L2. split.
  - intros b i Hb. pose proof (L2 b Hb) as Lb. apply (In_nth _ _ []) in Hb as (c & Hc & <-). destruct (Nat.lt_ge_cases i n). { destruct (P1 i c) as (Q & _); auto; lia. } rewrite nth_overflow by lia. rewrite Rabs_R0. destruct (P1 0%nat c) as (Q & _); try lia. eapply Rle_trans; [apply Rabs_pos|exact Q].
  - destruct E as [E|(im & D & _)]; [|discriminate]. exists (nth c0 m []), i0. assert (In (nth c0 m []) m) by (apply nth_In; lia). split; auto. rewrite L2 by auto. split; auto.
Qed.
(** Twice the same response, once with half the amplitude: the normalisation has no effect, the average has three quarters of the amplitude
    although the channels should have been brought to the same energy. Where the factor is used, the energy of the channel becomes
    E_f^3 / E_0^2, which is that of the first channel only if it has been so before. *)
Theorem C87_normalisation_refuted : forall (b : R -> R) (x : list R) (L : R) (fast : bool), (2 <= length x)%nat -> within x -> power x <> 0 -> b (Rsqr (kaiser_beta 60)) <> 0 ->
  let s := mkSig [x; map (fun v => v * / 2) x] None 1 true 48000 in
  (forall norm, average_irs b [L; L] fast true norm s = Ok (Some (mkSig [map (fun v => 3 / 4 * v) x] None 1 true 48000))) /\
  map (fun v => 3 / 4 * v) x <> x /\
  (forall (h : list R) (E0 : R), 0 < E0 -> power (map (fun v => v * (power h / E0)) h) = power h ^ 3 / E0 ^ 2 /\ (power (map (fun v => v * (power h / E0)) h) = E0 -> power h = E0)).
Proof.
  intros b x L fast Hl Hw Hp Hb s. set (n := length x) in *.
  assert (OK : sig_ok s n 2).
  { constructor; cbn [s s_re s_im]; try lia; try discriminate. split; auto. repeat constructor. now rewrite map_length.
    intros _ i c Hi Hc. unfold entry. specialize (Hw i). assert (c = 0 \/ c = 1)%nat as [->| ->] by lia; cbn [nth]; auto. rewrite (nth_map' (fun v => v * / 2) x i 0 0) by auto. rewrite Rabs_mult, (Rabs_pos_eq (/ 2)) by lra. lra. }
  assert (Ff : followed [L; L] 0). { split; [simpl; lia|]. split. intros [|[|j]] Hj; simpl in *; try lra; lia. intros j Hj; lia. }
  assert (Hm : forall c, (c < 2)%nat -> nth 0 [L; L] 0 - nth c [L; L] 0 = INR 0 /\ (0 < n)%nat). { intros c Hc. assert (c = 0 \/ c = 1)%nat as [->| ->] by lia; simpl; split; try lia; ring. }
  assert (RR : forall g, g = 1 -> mk n (fun t => rsum 2 (fun c => (if (c =? 0)%nat then g else 1) * later 0 (nth c (s_re s) []) t) / INR 2) = map (fun v => 3 / 4 * v) x).
  { intros g ->. apply (nth_ext _ _ 0 0). now rewrite mk_length, map_length. intros t Ht. rewrite mk_length in Ht. rewrite nth_mk by auto. rewrite (nth_map' (fun v => 3 / 4 * v) x t 0 0) by auto. cbn [s s_re]. unfold later. cbn [Nat.ltb Nat.leb]. rewrite Nat.sub_0_r. simpl rsum. cbn [nth].
    rewrite (nth_map' (fun v => v * / 2) x t 0 0) by auto. change (@r0 R CRing_R) with 0. simpl. field. }
  split; [|split].
  - intros norm. destruct norm.
    + destruct (is_peak_exists (mkIn (map (fun y => map (fun v => v * (power y / power x)) y) (s_re s)) None false) n 2) as (p & Pk); try lia. { split; [|discriminate]. split; [reflexivity|]. cbn [i_re s s_re map]. repeat constructor; rewrite ?map_length; auto. }
      assert (Tp : top (map (fun y => map (fun v => v * (power y / power x)) y) (s_re s)) p). { apply (peak_top _ n 2); auto; try lia. split; [reflexivity|]. cbn [s s_re map]. repeat constructor; rewrite ?map_length; auto. }
      rewrite (C87_normalised_law b [L; L] fast s n 2 0 (fun _ => 0%nat) p); auto; try lia; try reflexivity.
      cbn [s s_constr s_fs]. fold s. do 4 f_equal. apply RR. destruct (Rlt_dec 1 p) as [G|G].
      * exfalso. destruct Tp as (_ & (y & i & Hy & Hi & E)). cbn [s s_re map] in Hy. destruct Hy as [<-|[<-|[]]].
        -- rewrite map_length in Hi. rewrite (nth_map' (fun v => v * (power x / power x)) x i 0 0) in E by auto. specialize (Hw i). replace (nth i x 0 * (power x / power x)) with (nth i x 0) in E by (field; auto). lra.
        -- rewrite !map_length in Hi. rewrite (nth_map' _ (map (fun v => v * / 2) x) i 0 0) in E by (now rewrite map_length). rewrite (nth_map' (fun v => v * / 2) x i 0 0) in E by auto. rewrite power_scaled in E. replace (nth i x 0 * / 2 * ((/ 2) ^ 2 * power x / power x)) with (/ 8 * nth i x 0) in E by (field; auto). specialize (Hw i). rewrite Rabs_mult, (Rabs_pos_eq (/ 8)) in E by lra. lra.
      * cbn [s s_re nth]. field. auto.
    + rewrite (C87_time_average b [L; L] fast s n 2 0 (fun _ => 0%nat)); auto; try lia; try reflexivity.
      cbn [s s_constr s_fs]. fold s. do 4 f_equal. rewrite <- (RR 1 eq_refl). unfold mk. apply map_ext_in. intros t _. f_equal. apply (sum_ext (HA := CRing_R)). intros c _. destruct (c =? 0)%nat; now rewrite Rmult_1_l.
  - intros E. apply Hp. unfold power. apply (sum_zero' (HA := CRing_R)). intros t Ht. assert (Et : nth t (map (fun v => 3 / 4 * v) x) 0 = nth t x 0) by now rewrite E. rewrite (nth_map' (fun v => 3 / 4 * v) x t 0 0) in Et by auto. assert (Z : nth t x 0 = 0) by lra. rewrite Z. change (@r0 R CRing_R) with 0. ring.
  - intros h E0 H0. rewrite power_scaled. pose proof (power_nonneg h) as P. set (e := power h) in *. split. { field. lra. }
    intros Q. assert (C3 : e ^ 3 = E0 ^ 3). { apply (Rmult_eq_reg_r (/ E0 ^ 2)). 2: apply Rinv_neq_0_compat, pow_nonzero; lra. transitivity ((e / E0) ^ 2 * e). field; lra. rewrite Q. field. lra. }
    assert (F : (e - E0) * (e * e + e * E0 + E0 * E0) = 0) by (transitivity (e ^ 3 - E0 ^ 3); [ring|rewrite C3; ring]). apply Rmult_integral in F as [F|F]; [lra|nra].
Qed.
Print Assumptions C87_normalisation_refuted.

(** ** C87, mean of magnitudes and phases *)
Lemma jump_spec d : (exists m : Z, unwrap_jump d = d + 2 * PI * IZR m) /\ Rabs (unwrap_jump d) <= PI.
Proof.
  pose proof PI_RGT_0 as P. unfold unwrap_jump, rmod. set (q := Int_part ((d + PI) / (2 * PI))).
  destruct (base_Int_part ((d + PI) / (2 * PI))) as (B1 & B2). fold q in B1, B2. assert (M : (d + PI) / (2 * PI) * (2 * PI) = d + PI) by (field; lra).
  assert (A1 : 2 * PI * IZR q <= d + PI) by nra. assert (A2 : d + PI < 2 * PI * IZR q + 2 * PI) by nra.
  set (m := d + PI - 2 * PI * IZR q - PI). destruct (Rlt_dec (Rabs d) PI). { split; [exists 0%Z; simpl; ring|lra]. }
  destruct (Req_EM_T m (- PI)); [destruct (Rlt_dec 0 d)|].
  - split; [exists (1 - q)%Z; rewrite minus_IZR; unfold m in e; lra|rewrite Rabs_pos_eq; lra].
  - split; [exists (- q)%Z; rewrite opp_IZR; unfold m; ring|]. apply Rabs_le. unfold m in *. lra.
  - split; [exists (- q)%Z; rewrite opp_IZR; unfold m; ring|]. apply Rabs_le. unfold m in *. lra.
Qed.
Lemma unwrap_spec l : (forall k, (k < length l)%nat -> exists m : Z, nth k (unwrap l) 0 = nth k l 0 + 2 * PI * IZR m) /\
  (forall k, (k + 1 < length l)%nat -> Rabs (nth (k + 1) (unwrap l) 0 - nth k (unwrap l) 0) <= PI) /\ nth 0 (unwrap l) 0 = nth 0 l 0.
Proof.
  destruct l as [|v t]. { repeat split; intros; simpl in *; lia. } cbn [unwrap].
  assert (G : forall t acc prev, (exists m : Z, acc = prev + 2 * PI * IZR m) -> (forall k, (k < length t)%nat -> exists m : Z, nth k (unwrap_from acc prev t) 0 = nth k t 0 + 2 * PI * IZR m) /\
    forall k, (k < length t)%nat -> Rabs (nth k (unwrap_from acc prev t) 0 - nth k (acc :: unwrap_from acc prev t) 0) <= PI).
  { clear. induction t as [|v t IH]; intros acc prev (m & E). { split; intros; simpl in *; lia. } cbn [unwrap_from]. destruct (jump_spec (v - prev)) as ((mj & Ej) & Bj).
    destruct (IH (acc + unwrap_jump (v - prev)) v) as (I1 & I2). { exists (m + mj)%Z. rewrite Ej, E, plus_IZR. ring. }
    split; intros [|k] Hk; cbn [nth length] in *.
    - exists (m + mj)%Z. rewrite Ej, E, plus_IZR. ring.
    - apply I1. lia.
    - replace (acc + unwrap_jump (v - prev) - acc) with (unwrap_jump (v - prev)) by ring. exact Bj.
    - apply I2. lia. }
  destruct (G t v v) as (G1 & G2). { exists 0%Z. simpl. ring. } repeat split.
  - intros [|k] Hk; cbn [nth length] in *. exists 0%Z; simpl; ring. apply G1. lia.
  - intros k Hk. cbn [length] in Hk. rewrite Nat.add_1_r. cbn [nth]. apply G2. lia.
Qed.
Lemma cis_turns a (m : Z) : cis (a + 2 * PI * IZR m) = cis a.
Proof.
  assert (G : forall n : nat, forall a, cis (a + 2 * INR n * PI) = cis a) by (intros n u; unfold cis; now rewrite cos_period, sin_period). destruct m as [|p|p].
  - f_equal. simpl. ring.
  - rewrite <- (G (Pos.to_nat p) a). f_equal. rewrite INR_IZR_INZ, positive_nat_Z. ring.
  - rewrite <- (G (Pos.to_nat p) (a + 2 * PI * IZR (Z.neg p))). f_equal. rewrite INR_IZR_INZ, positive_nat_Z. change (Z.neg p) with (- Z.pos p)%Z. rewrite opp_IZR. ring.
Qed.
Definition end_bin (n b : nat) : bool := ((b =? 0) || (2 * b =? n))%nat.
Lemma irfft_ends n X : (0 < n)%nat -> irfft_n n X = irfft_n n (mk (n / 2 + 1) (fun b => if end_bin n b then rc (fst (nth b X (rc 0))) else nth b X (rc 0))).
Proof.
  intros Hn. unfold irfft_n, mk at 1 2. apply map_ext_in. intros t Ht. f_equal. set (X' := mk (n / 2 + 1) _).
  assert (V : forall b, (b <= n / 2)%nat -> nth b X' (rc 0) = if end_bin n b then rc (fst (nth b X (rc 0))) else nth b X (rc 0)) by (intros b Hb; unfold X'; now rewrite nth_mk by lia).
  assert (F : forall (u v : nat -> C) j, (forall i, (i < j)%nat -> fst (u i) = fst (v i)) -> fst (csum j u) = fst (csum j v)).
  { induction j; intros H; simpl; auto. rewrite IHj by auto. now rewrite H by lia. }
  apply F. intros b Hb. assert (D2 : (2 * (n / 2) <= n < 2 * (n / 2) + 2)%nat) by (pose proof (Nat.div_mod n 2 ltac:(lia)); pose proof (Nat.mod_upper_bound n 2 ltac:(lia)); lia).
  unfold herm. destruct (Nat.leb_spec b (n / 2)).
  - rewrite V by auto. unfold end_bin. destruct (Nat.eqb_spec b 0) as [->|N0]; cbn [orb].
    + replace (Z.of_nat 0 * Z.of_nat t)%Z with 0%Z by lia. rewrite root_0. simpl. ring.
    + destruct (Nat.eqb_spec (2 * b) n) as [E|N2]; auto. pose proof (root_refl n b t Hn ltac:(lia)) as Q. replace (n - b)%nat with b in Q by lia. assert (S0 : snd (root n (Z.of_nat b * Z.of_nat t)) = 0). { apply (f_equal snd) in Q. simpl in Q. simpl. lra. }
      simpl. simpl in S0. rewrite S0. ring.
  - rewrite V by lia. unfold end_bin. destruct (Nat.eqb_spec (n - b) 0); [lia|]. destruct (Nat.eqb_spec (2 * (n - b)) n); [lia|]. reflexivity.
Qed.
Lemma polar z a : (exists m : Z, a = angle z + 2 * PI * IZR m) -> z = cmulr (cis a) (cmod z).
Proof.
  intros (m & ->). rewrite cis_turns. destruct (c_is_zero z) eqn:E.
  - apply c_is_zero_spec in E. subst z. unfold cmod, cabs2, cmulr. apply c_ext; simpl; replace (0 * 0 + 0 * 0) with 0 by ring; rewrite sqrt_0; ring.
  - assert (N : z <> rc 0) by (intros Q; apply c_is_zero_spec in Q; congruence). now destruct (angle_spec z N).
Qed.
(** a response is assigned to the result: it is divided by its peak when that exceeds one *)
Definition fit (constr : bool) (p : R) : R := if constr then if Rlt_dec 1 p then / p else 1 else 1.
Lemma set_any s (y : list R) p : (2 <= length y)%nat -> top [y] p ->
  set_data s (mkIn [y] None false) = Ok (mkSig [map (fun v => fit (s_constr s) p * v) y] None (fit (s_constr s) p) (s_constr s) (s_fs s)).
Proof.
  intros Ly Tp. destruct (set_time_data_spec (s_constr s) (s_fs s) (mkIn [y] None false) (length y) 1 p) as (g & E & A & B & D & F & G & I); auto; try lia.
  - split; [|discriminate]. split; [reflexivity|]. repeat constructor.
  - change 1%nat with (length [y]). apply top_peak; auto. lia. discriminate.
  - unfold set_data. rewrite E. f_equal. rewrite Nat.max_l, Nat.min_r in * by lia. destruct g as [re im sc cs fs]. cbn [s_re s_im s_scale s_constr s_fs i_im] in *. subst im cs fs. assert (Es : sc = fit (s_constr s) p). { rewrite D. unfold fit. destruct (s_constr s); auto. destruct (Rlt_dec 1 p); auto. field. lra. } rewrite Es in *. f_equal.
    apply (mat_ext _ _ (length y) 1); auto. { split; [reflexivity|]. repeat constructor. now rewrite map_length. } intros i c Hi Hc. assert (c = 0)%nat by lia. subst c. rewrite G by auto. cbn [i_re]. rewrite oriented_tall by lia. unfold entry. cbn [nth]. now rewrite (nth_map' (fun v => fit (s_constr s) p * v) y i 0 0).
Qed.
Lemma top_exists (y : list R) : (0 < length y)%nat -> exists p, top [y] p.
Proof.
  intros H. destruct (is_peak_exists (mkIn [y] None false) (length y) 1) as (p & Pk); try lia. { split; [|discriminate]. split; [reflexivity|]. repeat constructor. }
  exists p. apply (peak_top _ (length y) 1); auto. split; [reflexivity|]. repeat constructor.
Qed.
(** With the transform as long as the response: each bin of the average has the mean of the channels' magnitudes and the mean of their phases,
    which are unwrapped from bin to bin; at 0 Hz and at the Nyquist frequency only the real part is left. The energies are not normalised at all. *)
Theorem C87_spectral_average : forall (b : R -> R) (lat : list R) (fast : bool) (s : signal) (n k : nat),
  sig_ok s n k -> (1 < k)%nat -> fast = false \/ next_fast_len n = n ->
  let X c j := dft n (nth c (s_re s) []) j in
  exists (ph : list R -> nat -> R) (y : list R) (p : R),
    (forall x j, (j <= n / 2)%nat -> dft n x j = cmulr (cis (ph x j)) (cmod (dft n x j))) /\
    (forall x, - PI < ph x 0%nat <= PI) /\
    (forall x j, (j + 1 <= n / 2)%nat -> Rabs (ph x (j + 1)%nat - ph x j) <= PI) /\
    length y = n /\ top [y] p /\
    (forall j, (j <= n / 2)%nat -> let z := cmulr (cis (rsum k (fun c => ph (nth c (s_re s) []) j) / INR k)) (rsum k (fun c => cmod (X c j)) / INR k) in
       dft n y j = if end_bin n j then rc (fst z) else z) /\
    forall norm, average_irs b lat fast false norm s = Ok (Some (mkSig [map (fun v => fit (s_constr s) p * v) y] None (fit (s_constr s) p) (s_constr s) (s_fs s))).
Proof.
  intros b lat fast s n k OK Hk Hfast X. destruct (ok_re _ _ _ OK) as (L1 & L2). pose proof (ok_n _ _ _ OK) as Hn. assert (Nr : nrows (s_re s) = n) by (apply (shape_nrows _ n k); [now split|lia]).
  set (ph := fun x j => nth j (unwrap (map angle (rfft n x))) 0).
  set (Y := mean_spectrum n (s_re s)). set (y := irfft_n n Y).
  assert (Ly : length y = n) by apply mk_length. destruct (top_exists y ltac:(lia)) as (p & Tp).
  assert (La : forall x, length (map angle (rfft n x)) = (n / 2 + 1)%nat) by (intros x; rewrite map_length; apply rfft_length).
  assert (Va : forall x j, (j <= n / 2)%nat -> nth j (map angle (rfft n x)) 0 = angle (dft n x j)).
  { intros x j Hj. rewrite (nth_map' angle _ j (rc 0) 0) by (rewrite rfft_length; lia). unfold rfft. now rewrite nth_mk by lia. }
  exists ph, y, p. split; [|split; [|split; [|split; [|split; [|split]]]]]; auto.
  - intros x j Hj. apply polar. destruct (unwrap_spec (map angle (rfft n x))) as (U & _). destruct (U j) as (m & E). rewrite La; lia. exists m. unfold ph. rewrite E, Va by auto. reflexivity.
  - intros x. unfold ph. destruct (unwrap_spec (map angle (rfft n x))) as (_ & _ & ->). rewrite Va by lia. destruct (c_is_zero (dft n x 0)) eqn:E. unfold angle. rewrite E. pose proof PI_RGT_0. lra.
    assert (N : dft n x 0 <> rc 0) by (intros Q; apply c_is_zero_spec in Q; congruence). now destruct (angle_spec _ N).
  - intros x j Hj. unfold ph. destruct (unwrap_spec (map angle (rfft n x))) as (_ & U & _). apply U. rewrite La. lia.
  - intros j Hj z. unfold y. rewrite irfft_ends by lia. rewrite dft_irfft; auto; try lia.
    + rewrite nth_mk by lia. assert (E : nth j Y (rc 0) = z). 2: now rewrite E. unfold Y, mean_spectrum. rewrite nth_mk by lia. unfold z, mean. rewrite L1.
      assert (E1 : rsum k (fun c => cmod (nth j (nth c (map (rfft n) (s_re s)) []) (rc 0))) = rsum k (fun c => cmod (X c j))).
      { apply (sum_ext (HA := CRing_R)). intros c Hc. rewrite (nth_map' (rfft n) (s_re s) c [] []) by lia. unfold rfft. now rewrite nth_mk by lia. }
      assert (E2 : rsum k (fun c => @get R CRing_R (nth c (map (fun X => unwrap (map angle X)) (map (rfft n) (s_re s))) []) j) = rsum k (fun c => ph (nth c (s_re s) []) j)).
      { apply (sum_ext (HA := CRing_R)). intros c Hc. rewrite map_map. rewrite (nth_map' (fun x => unwrap (map angle (rfft n x))) (s_re s) c [] []) by lia. reflexivity. }
      rewrite E1, E2. unfold cmulr. apply c_ext; simpl; ring.
    + rewrite nth_mk by lia. reflexivity.
    + intros i Hi. assert (i <= n / 2)%nat by (apply Nat.div_le_lower_bound; lia). rewrite nth_mk by lia. unfold end_bin. rewrite (proj2 (Nat.eqb_eq (2 * i) n) Hi), orb_true_r. reflexivity.
  - intros norm. unfold average_irs. rewrite Nr. unfold ncols. rewrite L1. destruct (Nat.ltb_spec 1 k); [|lia]. cbn [negb].
    assert (EN : (if fast then next_fast_len n else n) = n) by (destruct Hfast as [->| ->]; [auto|now destruct fast]). rewrite EN. fold Y. fold y. rewrite (set_any s y p); auto. lia.
Qed.
Print Assumptions C87_spectral_average.
(** The same response in all channels is returned, in both modes and with and without normalisation. *)
Theorem C87_identical_channels : forall (b : R -> R) (L : R) (fast time_average norm : bool) (s : signal) (n k : nat) (x : list R),
  sig_ok s n k -> s_im s = None -> (1 < k)%nat -> (0 < s_fs s)%Z -> b (Rsqr (kaiser_beta 60)) <> 0 -> s_re s = repeat x k ->
  (time_average = false -> fast = false \/ next_fast_len n = n) -> (norm = true -> power x <> 0) ->
  average_irs b (repeat L k) fast time_average norm s = Ok (Some (mkSig [x] None 1 (s_constr s) (s_fs s))).
Proof.
  intros b L fast ta norm s n k x OK Im Hk Hf Hb Hx Hfast Hnorm. pose proof (ok_n _ _ _ OK) as Hn. pose proof (ok_kn _ _ _ OK) as Hkn.
  assert (Nx : forall c, (c < k)%nat -> nth c (s_re s) [] = x). { intros c Hc. rewrite Hx. rewrite (nth_indep _ [] x) by (now rewrite repeat_length). apply nth_repeat. }
  assert (Lx : length x = n) by (rewrite <- (Nx 0%nat ltac:(lia)); apply (col_length s n k); auto; lia).
  assert (Wx : s_constr s = true -> within x). { intros Hc i. destruct (Nat.lt_ge_cases i n). 2:{ rewrite nth_overflow by lia. rewrite Rabs_R0. lra. } rewrite <- (Nx 0%nat ltac:(lia)). apply (ok_bre _ _ _ OK Hc i 0%nat); auto. lia. }
  assert (Nl : forall c, (c < k)%nat -> nth c (repeat L k) 0 = L). { intros c Hc. rewrite (nth_indep _ 0 L) by (now rewrite repeat_length). apply nth_repeat. }
  assert (Fi : forall p, top [x] p -> fit (s_constr s) p = 1). { intros p (_ & (y & i & [<-|[]] & Hi & E)). unfold fit. destruct (s_constr s) eqn:Q; auto. specialize (Wx eq_refl i). destruct (Rlt_dec 1 p); [lra|auto]. }
  destruct ta.
  - assert (Ff : followed (repeat L k) 0). { split; [rewrite repeat_length; lia|]. rewrite repeat_length. split; [|lia]. intros j Hj. rewrite !Nl by lia. lra. }
    assert (Hm : forall c, (c < k)%nat -> nth 0 (repeat L k) 0 - nth c (repeat L k) 0 = INR 0 /\ (0 < n)%nat). { intros c Hc. rewrite !Nl by lia. simpl. split; [ring|lia]. }
    assert (RR : forall g, g = 1 -> mk n (fun t => rsum k (fun c => (if (c =? 0)%nat then g else 1) * later 0 (nth c (s_re s) []) t) / INR k) = x).
    { intros g ->. apply (nth_ext _ _ 0 0). now rewrite mk_length. intros t Ht. rewrite mk_length in Ht. rewrite nth_mk by auto. fold (mean k (fun c => (if (c =? 0)%nat then 1 else 1) * later 0 (nth c (s_re s) []) t)). rewrite (mean_ext k _ (fun _ => nth t x 0)). apply mean_const; lia.
      intros c Hc. rewrite Nx by auto. unfold later. cbn [Nat.ltb Nat.leb]. rewrite Nat.sub_0_r. destruct (c =? 0)%nat; ring. }
    destruct norm.
    + specialize (Hnorm eq_refl). assert (SC : map (fun y => map (fun v => v * (power y / power (nth 0 (s_re s) []))) y) (s_re s) = s_re s).
      { rewrite Nx by lia. rewrite Hx. rewrite <- (map_id (repeat x k)) at 2. apply map_ext_in. intros y Hy. apply repeat_spec in Hy. subst y. cbv beta. transitivity (map (fun v : R => v) x); [apply map_ext; intros; field; auto|apply map_id]. }
      destruct (is_peak_exists (mkIn (s_re s) None false) n k) as (p & Pk); try lia. { split; [apply (ok_re _ _ _ OK)|discriminate]. }
      assert (Tp : top (s_re s) p) by (apply (peak_top _ n k); auto; try lia; apply (ok_re _ _ _ OK)).
      rewrite (C87_normalised_law b (repeat L k) fast s n k 0 (fun _ => 0%nat) p); auto; try lia; try (now rewrite repeat_length). 2:{ now rewrite Nx by lia. } 2:{ now rewrite SC. }
      do 4 f_equal. apply RR. rewrite Nx by lia. assert (Q : (if s_constr s then if Rlt_dec 1 p then / p else 1 else 1) = 1).
      { destruct (s_constr s) eqn:Q; auto. destruct (Rlt_dec 1 p) as [G|G]; auto. destruct Tp as (_ & (y & i & Hy & Hi & E)). rewrite Hx in Hy. apply repeat_spec in Hy. subst y. specialize (Wx eq_refl i). lra. }
      rewrite Q. field. auto.
    + rewrite (C87_time_average b (repeat L k) fast s n k 0 (fun _ => 0%nat)); auto; try lia; try (now rewrite repeat_length).
      do 4 f_equal. rewrite <- (RR 1 eq_refl) at 1. unfold mk. apply map_ext_in. intros t _. f_equal. apply (sum_ext (HA := CRing_R)). intros c _. destruct (c =? 0)%nat; now rewrite Rmult_1_l.
  - destruct (C87_spectral_average b (repeat L k) fast s n k OK Hk (Hfast eq_refl)) as (ph & y & p & V & V0 & VJ & Ly & Tp & D & E). rewrite E.
    assert (Ex : y = x).
    { assert (EX : irfft_n n (rfft n y) = irfft_n n (rfft n x)).
      { rewrite (irfft_ends n (rfft n x)) by lia. f_equal. unfold rfft at 1. unfold mk. apply map_ext_in. intros j Hj. apply in_seq in Hj. rewrite D by lia.
        assert (M1 : rsum k (fun c => cmod (dft n (nth c (s_re s) []) j)) / INR k = cmod (dft n x j)). { fold (mean k (fun c => cmod (dft n (nth c (s_re s) []) j))). rewrite (mean_ext k _ (fun _ => cmod (dft n x j))). apply mean_const; lia. intros c Hc. now rewrite Nx. }
        assert (M2 : rsum k (fun c => ph (nth c (s_re s) []) j) / INR k = ph x j). { fold (mean k (fun c => ph (nth c (s_re s) []) j)). rewrite (mean_ext k _ (fun _ => ph x j)). apply mean_const; lia. intros c Hc. now rewrite Nx. }
        rewrite M1, M2. rewrite <- V by lia. unfold rfft. now rewrite !nth_mk by lia. }
      apply (get_ext (HA := CRing_R)). lia. intros t Ht. rewrite <- (irfft_rfft n y t) by lia. rewrite EX. apply irfft_rfft; lia. }
    subst y. rewrite Fi by auto. do 4 f_equal. rewrite <- (map_id x) at 2. apply map_ext. intros; ring.
Qed.
Print Assumptions C87_identical_channels.
Lemma spectrum_identical N x k j : (0 < k)%nat -> (j <= N / 2)%nat -> nth j (mean_spectrum N (repeat x k)) (rc 0) = dft N x j.
Proof.
  intros Hk Hj. unfold mean_spectrum. rewrite nth_mk by lia. rewrite repeat_length.
  assert (Nr : forall T U (F : T -> list U) (v : T) c, (c < k)%nat -> nth c (map F (repeat v k)) [] = F v).
  { intros T U F v c Hc. rewrite (nth_map' F (repeat v k) c v []) by now rewrite repeat_length. now rewrite nth_repeat. }
  rewrite (mean_ext k _ (fun _ => cmod (dft N x j))). 2:{ intros c Hc. rewrite Nr by auto. unfold rfft. now rewrite nth_mk by lia. }
  rewrite (mean_ext k (fun c => get _ j) (fun _ => nth j (unwrap (map angle (rfft N x))) 0)). 2:{ intros c Hc. rewrite map_map. rewrite (Nr _ _ (fun y => unwrap (map angle (rfft N y)))) by auto. reflexivity. }
  rewrite !mean_const by auto. transitivity (cmulr (cis (nth j (unwrap (map angle (rfft N x))) 0)) (cmod (dft N x j))). { unfold cmulr. apply c_ext; simpl; ring. } symmetry. apply polar.
  destruct (unwrap_spec (map angle (rfft N x))) as (U & _). assert (La : length (map angle (rfft N x)) = (N / 2 + 1)%nat) by (rewrite map_length; apply rfft_length). destruct (U j) as (m & E). lia. exists m. rewrite E.
  rewrite (nth_map' angle _ j (rc 0) 0) by (rewrite rfft_length; lia). unfold rfft. now rewrite nth_mk by lia.
Qed.
Lemma re_mul_le a b : cabs2 a = 1 -> cabs2 b = 1 -> fst (cmul a b) <= 1.
Proof. unfold cabs2. destruct a as [a1 a2], b as [b1 b2]. cbn [fst snd cmul]. intros A B. simpl. pose proof (Rle_0_sqr (a1 - b1)). pose proof (Rle_0_sqr (a2 + b2)). unfold Rsqr in *. nra. Qed.
Lemma sum_below (f : nat -> R) n i : (i < n)%nat -> (forall j, (j < n)%nat -> f j <= 1) -> f i < 1 -> rsum n f < INR n.
Proof.
  intros Hi H1 Hl. assert (G : forall m, (m <= n)%nat -> rsum m f <= INR m /\ ((i < m)%nat -> rsum m f < INR m)).
  { induction m; intros Hm. { simpl. change (@r0 R CRing_R) with 0. split; [lra|lia]. } rewrite S_INR. destruct (IHm ltac:(lia)) as (I1 & I2). specialize (H1 m ltac:(lia)). simpl rsum. change (@radd R CRing_R) with Rplus. split. lra.
    intros Hi'. destruct (Nat.eq_dec i m) as [->|N]. lra. specialize (I2 ltac:(lia)). lra. }
  now apply G.
Qed.
(** When the number of samples is not a product of twos, threes and fives and the spectrum is zero padded (the default), the padded spectrum is
    transformed back with the original length: the average of two channels with the same late impulse is another response. *)
Theorem C87_padded_refuted : forall (b : R -> R) (lat : list R) (norm : bool) (n : nat), (2 <= n)%nat -> next_fast_len n <> n ->
  let x := unit_at n (n - 1) in
  exists z, average_irs b lat true false norm (mkSig [x; x] None 1 true 48000) = Ok (Some z) /\ length (nth 0 (s_re z) []) = n /\ entry (s_re z) (n - 1) 0 < nth (n - 1) x 0.
Proof.
  intros b lat norm n Hn Hf x. set (N := next_fast_len n) in *. assert (HN : (n < N)%nat) by (pose proof (next_fast_len_ge n); fold N in H; lia).
  assert (Lx : length x = n) by apply mk_length. set (y := irfft_n n (mean_spectrum N [x; x])). assert (Ly : length y = n) by apply mk_length. destruct (top_exists y ltac:(lia)) as (p & Tp).
  exists (mkSig [map (fun v => fit true p * v) y] None (fit true p) true 48000). split; [|split].
  - unfold average_irs. cbn [s_re]. change (nrows [x; x]) with (length x). change (ncols [x; x]) with 2%nat. cbn [negb Nat.ltb Nat.leb]. rewrite Lx. fold N. fold y. rewrite (set_any _ y p); auto. lia.
  - cbn [s_re nth]. now rewrite map_length.
  - unfold entry. cbn [s_re nth]. rewrite (nth_map' (fun v => fit true p * v) y (n - 1) 0 0) by lia.
    assert (X1 : nth (n - 1) x 0 = 1). { unfold x, unit_at. rewrite nth_mk by lia. now rewrite Nat.eqb_refl. } rewrite X1.
    assert (DX : forall j, dft N x j = root N (- (Z.of_nat (n - 1) * Z.of_nat j))).
    { intros j. unfold x. apply unit_dft; lia. }
    assert (Hd : (n / 2 <= N / 2)%nat) by (apply Nat.div_le_mono; lia). assert (H1 : (1 <= n / 2)%nat) by (change 1%nat with (2 / 2)%nat; apply Nat.div_le_mono; lia).
    assert (Hv : forall j, (j <= n / 2)%nat -> nth j (mean_spectrum N [x; x]) (rc 0) = root N (- (Z.of_nat (n - 1) * Z.of_nat j))). { intros j Hj. rewrite <- DX. apply (spectrum_identical N x 2); lia. }
    assert (Y1 : nth (n - 1) y 0 < 1).
    { unfold y, irfft_n. rewrite nth_mk by lia. assert (P : 0 < INR n) by (apply lt_0_INR; lia). apply (Rmult_lt_reg_r (INR n)); auto. unfold Rdiv. rewrite Rmult_assoc, Rinv_l, Rmult_1_l, Rmult_1_r by lra.
      assert (Fs : forall (u : nat -> C) m, fst (csum m u) = rsum m (fun i => fst (u i))) by (intros u; induction m; simpl; auto; now rewrite IHm). rewrite Fs. apply (sum_below _ n 1); try lia.
      - intros j Hj. apply re_mul_le. 2: apply Claims_minphase.root_abs2. unfold herm. destruct (Nat.leb_spec j (n / 2)). rewrite Hv by auto. apply Claims_minphase.root_abs2.
        rewrite Hv by (pose proof (Nat.div_mod n 2 ltac:(lia)); pose proof (Nat.mod_upper_bound n 2 ltac:(lia)); lia). rewrite <- (Claims_minphase.root_abs2 N (- (Z.of_nat (n - 1) * Z.of_nat (n - j)))). unfold cabs2, cconj. cbn [fst snd]. ring.
      - unfold herm. destruct (Nat.leb_spec 1 (n / 2)); [|lia]. rewrite Hv by auto. unfold root. rewrite <- cis_add. cbn [cis fst]. set (th := _ + _).
        assert (Et : th = 2 * PI * INR (n - 1) * (/ INR n - / INR N)). { unfold th. rewrite opp_IZR, !mult_IZR, <- !INR_IZR_INZ. simpl (INR 1). unfold Rdiv. ring. }
        assert (Q : INR n < INR N) by (now apply lt_INR). assert (Q1 : 0 < / INR n - / INR N) by (assert (/ INR N < / INR n); [apply Rinv_lt_contravar; nra|lra]). assert (Q2 : 0 < / INR N) by (apply Rinv_0_lt_compat; lra).
        assert (Q3 : 0 < INR (n - 1) < INR n) by (split; [apply lt_0_INR; lia|apply lt_INR; lia]). pose proof PI_RGT_0 as PP.
        assert (Q4 : INR (n - 1) * (/ INR n - / INR N) < 1). { assert (INR (n - 1) * / INR n < 1) by (apply (Rmult_lt_reg_r (INR n)); [lra|]; rewrite Rmult_assoc, Rinv_l by lra; lra). nra. }
        assert (T : 0 < th < 2 * PI). { rewrite Et. rewrite Rmult_assoc. assert (0 < INR (n - 1) * (/ INR n - / INR N)) by (apply Rmult_lt_0_compat; lra). split; [apply Rmult_lt_0_compat; lra|]. rewrite <- (Rmult_1_r (2 * PI)) at 2. apply Rmult_lt_compat_l; lra. }
        pose proof (cos_lt_1 th T). pose proof (COS_bound th). lra. }
    unfold fit. destruct (Rlt_dec 1 p); [|lra]. assert (0 < / p < 1) by (split; [apply Rinv_0_lt_compat; lra|rewrite <- Rinv_1; apply Rinv_lt_contravar; lra]). nra.
Qed.
Print Assumptions C87_padded_refuted.
Example C87_padded_case : next_fast_len 7 <> 7%nat /\ next_fast_len 100 = 100%nat /\ next_fast_len 101 <> 101%nat.
Proof. repeat split; vm_compute; congruence. Qed.

(** Channels with opposite signs at 0 Hz: the phases 0 and pi have the mean pi / 2, whose real part is lost. The average of two constant
    channels u and - v is silence, although the mean magnitude at 0 Hz is n (u + v) / 2. *)
Theorem C87_opposite_signs_refuted : forall (b : R -> R) (lat : list R) (fast norm : bool) (n : nat) (u v : R), (2 <= n)%nat -> fast = false \/ next_fast_len n = n -> 0 < u <= 1 -> 0 < v <= 1 ->
  let s := mkSig [repeat u n; repeat (- v) n] None 1 true 48000 in
  average_irs b lat fast false norm s = Ok (Some (mkSig [repeat 0 n] None 1 true 48000)) /\
  (cmod (dft n (repeat u n) 0) + cmod (dft n (repeat (- v) n) 0)) / 2 = INR n * (u + v) / 2.
Proof.
  intros b lat fast norm n u v Hn Hf Hu Hv s. assert (P : 0 < INR n) by (apply lt_0_INR; lia).
  assert (Nr : forall w i, (i < n)%nat -> nth i (repeat w n) 0 = w) by (intros w i Hi; rewrite (nth_indep _ 0 w) by (now rewrite repeat_length); apply nth_repeat).
  assert (M : forall w, cmod (dft n (repeat w n) 0) = INR n * Rabs w).
  { intros w. rewrite dft_const by lia. cbn [Nat.eqb]. unfold cmod, cabs2. cbn [rc fst snd]. replace (INR n * w * (INR n * w) + 0 * 0) with (Rsqr (INR n * w)) by (unfold Rsqr; ring). rewrite sqrt_Rsqr_abs, Rabs_mult, (Rabs_pos_eq (INR n)) by lra. reflexivity. }
  split. 2:{ rewrite !M. rewrite Rabs_Ropp, !Rabs_pos_eq by lra. field. }
  assert (OK : sig_ok s n 2).
  { constructor; cbn [s s_re s_im]; try lia; try discriminate. split; auto. repeat constructor; apply repeat_length.
    intros _ i c Hi Hc. unfold entry. assert (c = 0 \/ c = 1)%nat as [->| ->] by lia; cbn [nth]; rewrite Nr by auto; apply Rabs_le; lra. }
  destruct (C87_spectral_average b lat fast s n 2 OK ltac:(lia) Hf) as (ph & y & p & V & V0 & _ & Ly & Tp & D & E). rewrite E. pose proof PI_RGT_0 as PP.
  assert (Pu : ph (repeat u n) 0%nat = 0).
  { pose proof (V (repeat u n) 0%nat ltac:(lia)) as Q. rewrite M, dft_const, (Rabs_pos_eq u) in Q by (try lia; lra). cbn [Nat.eqb] in Q. assert (C : cis (ph (repeat u n) 0%nat) = cis 0). { rewrite cis_0. assert (0 < INR n * u) by nra. unfold cmulr in Q. apply c_ext; [apply (f_equal fst) in Q|apply (f_equal snd) in Q]; simpl in *; nra. }
    apply cis_eq in C as (m & C). destruct (V0 (repeat u n)). rewrite C in *. assert (m = 0)%Z as ->; [|simpl; ring]. assert (IZR m < 1 /\ -1 < IZR m) as (A & B) by (split; nra). apply lt_IZR in A. apply (lt_IZR (-1)) in B. lia. }
  assert (Pv : ph (repeat (- v) n) 0%nat = PI).
  { pose proof (V (repeat (- v) n) 0%nat ltac:(lia)) as Q. rewrite M, dft_const, Rabs_Ropp, (Rabs_pos_eq v) in Q by (try lia; lra). cbn [Nat.eqb] in Q. assert (C : cis (ph (repeat (- v) n) 0%nat) = cis PI). { unfold cis at 2. rewrite cos_PI, sin_PI. assert (0 < INR n * v) by nra. unfold cmulr in Q. apply c_ext; [apply (f_equal fst) in Q|apply (f_equal snd) in Q]; simpl in *; nra. }
    apply cis_eq in C as (m & C). destruct (V0 (repeat (- v) n)). rewrite C in *. assert (m = 0)%Z as ->; [|simpl; ring]. assert (IZR m < 1 /\ -1 < IZR m) as (A & B) by (split; nra). apply lt_IZR in A. apply (lt_IZR (-1)) in B. lia. }
  assert (Z : y = repeat 0 n).
  { apply (get_ext (HA := CRing_R)). now rewrite repeat_length. intros t Ht. rewrite Ly in Ht. rewrite <- (irfft_rfft n y t), <- (irfft_rfft n (repeat 0 n) t) by lia. f_equal. f_equal. unfold rfft, mk. apply map_ext_in. intros j Hj. apply in_seq in Hj.
    assert (Hj2 : (j < n)%nat) by (pose proof (Nat.div_lt n 2 ltac:(lia) ltac:(lia)); lia). rewrite D by lia. rewrite dft_const by lia. cbn [s s_re]. simpl rsum. cbn [nth]. destruct (Nat.eqb_spec j 0) as [->|N0].
    - cbn [end_bin Nat.eqb orb]. rewrite Pu, Pv. change (@r0 R CRing_R) with 0. change (@radd R CRing_R) with Rplus. unfold cmulr. cbn [cis fst]. replace ((0 + 0 + PI) / INR 2) with (PI / 2) by (simpl; field). rewrite cos_PI2. unfold rc. f_equal; ring.
    - rewrite !dft_const by lia. destruct (Nat.eqb_spec j 0); [lia|]. assert (M0 : cmod (rc 0) = 0) by (unfold cmod, cabs2; simpl; replace (0 * 0 + 0 * 0) with 0 by ring; apply sqrt_0). rewrite M0. change (@r0 R CRing_R) with 0. change (@radd R CRing_R) with Rplus. unfold cmulr, rc. destruct (end_bin n j); cbn [fst snd]; f_equal; unfold Rdiv; ring. }
  subst y. assert (F1 : fit (s_constr s) p = 1). { cbn [s s_constr]. unfold fit. destruct (Rlt_dec 1 p) as [G|]; auto. destruct Tp as (_ & (w & i & [<-|[]] & Hi & Ep)). rewrite repeat_length in Hi. rewrite Nr in Ep by auto. rewrite Rabs_R0 in Ep. lra. }
  rewrite F1. cbn [s s_constr s_fs]. do 4 f_equal. apply (nth_ext _ _ 0 0). now rewrite map_length. intros i Hi. rewrite map_length, repeat_length in Hi. rewrite (nth_map' (fun v => 1 * v) _ i 0 0) by now rewrite repeat_length. rewrite Nr by auto. ring.
Qed.
Print Assumptions C87_opposite_signs_refuted.

(** ** Refusals and cases *)
(** One channel is refused, and so are latencies which differ by the length of the response or more; a silent first channel and normalisation
    leave nothing but nan. *)
Theorem C87_refusals : forall (b : R -> R) (lat : list R) (fast time_average norm : bool) (s : signal),
  ((ncols (s_re s) <= 1)%nat -> average_irs b lat fast time_average norm s = Err AssertionError) /\
  (forall n k f c, sig_ok s n k -> s_im s = None -> (1 < k)%nat -> (0 < s_fs s)%Z -> b (Rsqr (kaiser_beta 60)) <> 0 -> length lat = k -> followed lat f -> (c < k)%nat -> INR n <= nth f lat 0 - nth c lat 0 ->
     (forall c', (c' < c)%nat -> exists m, nth f lat 0 - nth c' lat 0 = INR m /\ (m < n)%nat) -> average_irs b lat fast true norm s = Err AssertionError) /\
  (forall n k f, sig_ok s n k -> s_im s = None -> (1 < k)%nat -> (0 < s_fs s)%Z -> b (Rsqr (kaiser_beta 60)) <> 0 -> length lat = k -> followed lat f ->
     (forall c, (c < k)%nat -> exists m, nth f lat 0 - nth c lat 0 = INR m /\ (m < n)%nat) -> power (nth 0 (s_re s) []) = 0 -> average_irs b lat fast true true s = Ok None).
Proof.
  intros b lat fast ta norm s. split; [|split].
  - intros H. unfold average_irs. destruct (Nat.ltb_spec 1 (ncols (s_re s))); [lia|reflexivity].
  - intros n k f c OK Im Hk Hf Hb Ll Ff Hc Hd Hw. destruct (ok_re _ _ _ OK) as (L1 & L2). unfold average_irs, ncols. rewrite L1. destruct (Nat.ltb_spec 1 k); [|lia]. cbn [negb]. rewrite (followed_argmax lat f Ff).
    assert (F0 : 0 < IZR (s_fs s)) by (now apply IZR_lt). pose proof (ok_n _ _ _ OK) as Hn. assert (P : 0 < INR n) by (apply lt_0_INR; lia).
    assert (Ac : aligned b (nth f lat 0) (nth c lat 0) c s = Err AssertionError).
    { unfold aligned. rewrite (one_channel_of s n k c) by auto. cbn [bind s_re nth]. unfold frac_one. destruct (C71_limits b (IZR (s_fs s)) ((nth f lat 0 - nth c lat 0) / IZR (s_fs s)) None true 30 60 [nth c (s_re s) []] F0) as (_ & _ & Q & _). rewrite Q; auto.
      - apply Rdiv_lt_0_compat; lra.
      - cbn [hd]. rewrite (col_length s n k) by auto. unfold Rdiv. rewrite Rmult_assoc, Rinv_l by lra. lra. }
    assert (Nf : c <> f). { intros ->. lra. }
    set (g := fun i => if (i =? f)%nat then Ok [] else aligned b (nth f lat 0) (nth i lat 0) i s).
    assert (G : forall m j, (j <= c)%nat -> (c < j + m)%nat -> seq_result (map g (seq j m)) = Err AssertionError).
    { induction m; intros j Hj Hm; [lia|]. cbn [seq map seq_result]. destruct (Nat.eq_dec j c) as [->|N].
      - unfold g at 1. destruct (Nat.eqb_spec c f); [congruence|]. rewrite Ac. reflexivity.
      - assert (Gj : exists y, g j = Ok y). { unfold g. destruct (Nat.eqb_spec j f); [eauto|]. destruct (Hw j ltac:(lia)) as (mm & E1 & E2). exists (mk n (later mm (nth j (s_re s) []))). apply (aligned_whole b _ _ s n k); auto. lia. }
        destruct Gj as (y & ->). cbn [bind]. rewrite IHm by lia. reflexivity. }
    rewrite (G k 0%nat) by lia. reflexivity.
  - intros n k f OK Im Hk Hf Hb Ll Ff Hw H0. destruct (ok_re _ _ _ OK) as (L1 & L2). unfold average_irs, ncols. rewrite L1. destruct (Nat.ltb_spec 1 k); [|lia]. cbn [negb]. rewrite (followed_argmax lat f Ff).
    assert (G : exists v, seq_result (map (fun i => if (i =? f)%nat then Ok [] else aligned b (nth f lat 0) (nth i lat 0) i s) (seq 0 k)) = Ok v).
    { assert (Q : forall l, (forall i, In i l -> (i < k)%nat) -> exists v, seq_result (map (fun i => if (i =? f)%nat then Ok [] else aligned b (nth f lat 0) (nth i lat 0) i s) l) = Ok v).
      { induction l as [|i l IH]; intros Hl. { exists []. reflexivity. } cbn [map seq_result]. destruct IH as (v & IHv). { intros j Hj. apply Hl. now right. } rewrite IHv.
        destruct (i =? f)%nat. { cbn [bind]. eauto. } destruct (Hw i (Hl i (or_introl eq_refl))) as (mm & E1 & E2). rewrite (aligned_whole b _ _ s n k i mm); auto. cbn [bind]. eauto. apply Hl. now left. }
      apply Q. intros i Hi. apply in_seq in Hi. lia. }
    destruct G as (v & ->). cbn [bind]. rewrite energy_power, H0. destruct (Req_EM_T 0 0); [reflexivity|lra].
Qed.
Print Assumptions C87_refusals.
(** three samples; the second channel is the first one, one sample later *)
Definition two_irs : signal := mkSig [[1; 1 / 2; 0]; [0; 1; 1 / 2]] None 1 true 48000.
Example C87_case : sig_ok two_irs 3 2 /\ followed [1; 2] 1 /\ power (nth 0 (s_re two_irs) []) <> 0 /\
  average_irs (fun t => 1 + t / 4) [1; 2] true true false two_irs = Ok (Some (mkSig [[0; 1; 1 / 2]] None 1 true 48000)) /\ within [1; 1 / 2; 0].
Proof.
  assert (OK : sig_ok two_irs 3 2).
  { constructor; cbn [two_irs s_re s_im]; try lia; try discriminate. split; [reflexivity|]. repeat constructor. intros _ i c Hi Hc. assert (c = 0 \/ c = 1)%nat as [->| ->] by lia; assert (i = 0 \/ i = 1 \/ i = 2)%nat as [->|[->| ->]] by lia; unfold entry; simpl; apply Rabs_le; lra. }
  assert (Ff : followed [1; 2] 1). { split; [simpl; lia|]. split; [intros [|[|j]] Hj; simpl in *; try lra; lia|intros [|j] Hj; simpl; lra || lia]. }
  split; auto. split; auto. split. { unfold power. simpl. change (@r0 R CRing_R) with 0. change (@radd R CRing_R) with Rplus. lra. } split.
  - rewrite (C87_delayed_copies (fun t => 1 + t / 4) [1; 2] true two_irs 3 2 1 [1; 1 / 2; 0] (fun c => c) 1); auto; try lia; try reflexivity.
    + pose proof (Rle_0_sqr (kaiser_beta 60)). lra.
    + intros [|[|c]] Hc; [| |lia]; repeat split; try (simpl; lra); try lia.
  - intros [|[|[|[|i]]]]; simpl; apply Rabs_le; lra.
Qed.
