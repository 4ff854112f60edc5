(** Property C104: combining impulse responses with perfect impulses. *)
From Coq Require Import List Arith Lia ZArith Bool Reals Lra Psatz.
From Verif Require Import Alg Spec M_arrays M_signal P_signal M_level M_fvec Claims_fvec M_fracdelay Claims_fracdelay M_combine.
Import ListNotations.
Local Open Scope R_scope.
Notation gt := (get (HA := CRing_R)).

(** ** Specification *)
(** a unit impulse at sample p of n samples (nothing when p is beyond the end) *)
Definition impulse_at (n p : nat) (x : list R) : Prop := length x = n /\ forall t, (t < n)%nat -> gt x t = if (t =? p)%nat then 1 else 0.
Definition total (ls : list nat) : nat := fold_right Nat.add 0%nat ls.
Definition mean_square (n : nat) (x : nat -> R) : R := sum (HA := CRing_R) n (fun t => x t ^ 2) / INR n.
(** the largest absolute value of n samples *)
Definition is_top (n : nat) (x : nat -> R) (p : R) : Prop := (exists t, (t < n)%nat /\ Rabs (x t) = p) /\ forall t, (t < n)%nat -> Rabs (x t) <= p.

(** ** Auxiliary facts *)
Lemma frac_one_impulse b fs l n p x : 0 < fs -> b (Rsqr (kaiser_beta 60)) <> 0 -> (l < n)%nat -> impulse_at n p x -> exists y, frac_one b fs (INR l / fs) true x = Ok y /\ impulse_at n (p + l) y.
Proof.
  intros Hf B Hl (Lx & Vx). unfold frac_one. destruct (Nat.eq_dec l 0) as [->|Nl].
  - destruct (C71_limits b fs (INR 0 / fs) None true 30 60 [x] Hf) as (E & _). rewrite E by (simpl; field; lra). exists x. split; auto. rewrite Nat.add_0_r. split; auto.
  - destruct (C71_whole_delay b fs (INR l / fs) l None true 30 60 [x] n) as (out & E & Lo & V); auto; try lia.
    { field. lra. } { discriminate. } { simpl. discriminate. } { simpl. repeat constructor. auto. } { intros z Hz. simpl in Hz. destruct Hz as [<-|[]]. simpl. lia. }
    rewrite E. cbn [bind]. exists (nth 0 out []). split; auto. destruct (V 0%nat ltac:(simpl; lia)) as (L1 & G1). split; auto. intros t Ht.
    destruct (G1 t ltac:(lia)) as (G & _). rewrite G by (left; simpl; auto). cbn [nth]. destruct (Nat.ltb_spec t l). destruct (Nat.eqb_spec t (p + l)); [lia|auto].
    rewrite Vx by lia. destruct (Nat.eqb_spec (t - l) p), (Nat.eqb_spec t (p + l)); auto; lia.
Qed.
Lemma loop_spec b fs n : 0 < fs -> b (Rsqr (kaiser_beta 60)) <> 0 -> forall ls ch imps p, (forall l, In l ls -> (l < n)%nat) -> length imps = S ch -> impulse_at n p (nth ch imps []) ->
  exists new, delay_loop b fs (map INR ls) ch imps = Ok (tl imps ++ new) /\ length new = length ls /\ forall c, (c < length ls)%nat -> impulse_at n (p + total (firstn (S c) ls)) (nth c new []).
Proof.
  intros Hf B. induction ls as [|l ls IH]; intros ch imps p Hl Li Hi. exists []. cbn. rewrite app_nil_r. split; auto. split; auto. intros; lia.
  cbn [map delay_loop]. destruct (frac_one_impulse b fs l n p (nth ch imps []) Hf B (Hl l (or_introl eq_refl)) Hi) as (y & -> & Hy). cbn [bind].
  destruct (IH (S ch) (imps ++ [y]) (p + l)%nat) as (new & E & Ln & V). { intros; apply Hl; now right. } { rewrite app_length. simpl. lia. } { rewrite app_nth2 by lia. rewrite Li, Nat.sub_diag. exact Hy. }
  exists (y :: new). rewrite E. destruct imps as [|i0 imps]; [discriminate|]. cbn [app tl]. rewrite <- app_assoc. split; auto. split. simpl. lia.
  intros [|c] Hc. { simpl. now rewrite Nat.add_0_r. } cbn [nth]. specialize (V c ltac:(simpl in Hc; lia)). replace (p + total (firstn (S (S c)) (l :: ls)))%nat with (p + l + total (firstn (S c) ls))%nat by (simpl; lia). exact V.
Qed.
Lemma sq_sum (x : list R) : fold_right (fun v acc => v ^ 2 + acc) 0 x = sum (HA := CRing_R) (length x) (fun t => gt x t ^ 2).
Proof. induction x as [|a x IH]. reflexivity. cbn [fold_right length]. rewrite (sum_S_front (HA := CRing_R)), IH. reflexivity. Qed.
Lemma rms_sq x : x <> [] -> rms x ^ 2 = mean_square (length x) (gt x).
Proof.
  intros H. unfold rms, mean_square. rewrite sq_sum. rewrite pow2_sqrt; auto. apply Rmult_le_pos.
  - clear H. induction (length x); cbn [sum]. simpl; lra. simpl radd. apply Rplus_le_le_0_compat; auto. apply pow2_ge_0.
  - left. apply Rinv_0_lt_compat, lt_0_INR. destruct x; [easy|simpl; lia].
Qed.

(** ** Theorems *)
(** The impulse added to a channel is delayed by the sum of the latencies of this and all the channels before it. *)
Theorem C104_impulses b fs n ls : 0 < fs -> b (Rsqr (kaiser_beta 60)) <> 0 -> (forall l, In l ls -> (l < n)%nat) ->
  exists imps, impulses b fs n (map INR ls) = Ok imps /\ length imps = length ls /\ forall c, (c < length ls)%nat -> impulse_at n (total (firstn (S c) ls)) (nth c imps []).
Proof.
  intros Hf B Hl. destruct (loop_spec b fs n Hf B ls 0 [unit_impulse n] 0 Hl eq_refl) as (new & E & L & V).
  - split. apply mk_length. intros t Ht. unfold unit_impulse. cbn [nth]. rewrite (get_mk (HA := CRing_R)) by auto. reflexivity.
  - exists new. unfold impulses. rewrite E. auto.
Qed.
Print Assumptions C104_impulses.
(** So it is aligned with the response in the first channel, and in another one exactly when the channels before have no latency. *)
Theorem C104_aligned b fs n ls imps c : 0 < fs -> b (Rsqr (kaiser_beta 60)) <> 0 -> (forall l, In l ls -> (l < n)%nat) -> impulses b fs n (map INR ls) = Ok imps -> (c < length ls)%nat ->
  impulse_at n (nth c ls 0%nat) (nth c imps []) <-> forall i, (i < c)%nat -> nth i ls 0%nat = 0%nat.
Proof.
  intros Hf B Hl E Hc. destruct (C104_impulses b fs n ls Hf B Hl) as (imps' & E' & L & V). rewrite E in E'. injection E' as <-. specialize (V c Hc).
  assert (T : total (firstn (S c) ls) = (total (firstn c ls) + nth c ls 0)%nat). { clear -Hc. revert ls Hc. induction c; intros [|a ls] Hc; simpl in Hc; try lia. simpl. destruct ls; simpl; lia. cbn [firstn total fold_right nth]. specialize (IHc ls ltac:(lia)). unfold total in *. cbn [firstn] in IHc. rewrite IHc. lia. }
  assert (Hn : (nth c ls 0 < n)%nat) by (apply Hl, nth_In; auto).
  assert (Z : total (firstn c ls) = 0%nat <-> forall i, (i < c)%nat -> nth i ls 0%nat = 0%nat).
  { clear -Hc. revert ls Hc. induction c; intros ls Hc. simpl. split; auto. intros; lia. destruct ls as [|a ls]; [simpl in Hc; lia|]. cbn [firstn total fold_right]. specialize (IHc ls ltac:(simpl in Hc; lia)). unfold total in IHc. split.
    - intros H [|i] Hi. simpl; lia. simpl. apply IHc; lia.
    - intros H. pose proof (H 0%nat ltac:(lia)) as H0. simpl in H0. assert (fold_right Nat.add 0%nat (firstn c ls) = 0%nat); [|lia]. apply IHc. intros i Hi. apply (H (S i)). lia. }
  rewrite <- Z. split.
  - intros (_ & W). destruct V as (_ & V). specialize (W _ Hn). rewrite V in W by auto. rewrite Nat.eqb_refl in W. rewrite T in W. destruct (Nat.eqb_spec (nth c ls 0%nat) (total (firstn c ls) + nth c ls 0%nat)); [lia|lra].
  - intros H. rewrite T, H in V. exact V.
Qed.
Print Assumptions C104_aligned.
(** Two channels with the same latency l > 0: the second impulse comes l samples late, or not at all. *)
Theorem C104_second_channel_refuted b fs n l : 0 < fs -> b (Rsqr (kaiser_beta 60)) <> 0 -> (0 < l < n)%nat ->
  exists i0 i1, impulses b fs n (map INR [l; l]) = Ok [i0; i1] /\ impulse_at n l i0 /\ impulse_at n (2 * l) i1 /\ gt i1 l = 0.
Proof.
  intros Hf B Hl. destruct (C104_impulses b fs n [l; l] Hf B) as (imps & E & L & V). { intros q [<-|[<-|[]]]; lia. }
  destruct imps as [|i0 [|i1 [|]]]; simpl in L; try lia. exists i0, i1. split; auto. pose proof (V 0%nat ltac:(simpl; lia)) as V0. pose proof (V 1%nat ltac:(simpl; lia)) as V1. cbn [nth firstn total fold_right] in V0, V1.
  replace (l + 0)%nat with l in V0 by lia. replace (l + (l + 0))%nat with (2 * l)%nat in V1 by lia. split; auto. split; auto. destruct V1 as (_ & W). rewrite W by lia. destruct (Nat.eqb_spec l (2 * l)); [lia|auto].
Qed.
Print Assumptions C104_second_channel_refuted.

(** The result: one band of the response plus the other band of the impulse, with the sign of the response at its latency and the requested gain. *)
Theorem C104_result b low high fs lower nrm ls chs n : 0 < fs -> b (Rsqr (kaiser_beta 60)) <> 0 -> (forall l, In l ls -> (l < n)%nat) -> chs <> [] -> length ls = length chs -> (forall x, In x chs -> length x = n) ->
  exists imps out, impulses b fs n (map INR ls) = Ok imps /\ combine_dirac b low high fs lower nrm (map INR ls) chs = Ok out /\ length out = length chs /\
    forall c, (c < length chs)%nat -> 
      let ir := (if lower then low else high) (nth c chs []) in let imp := (if lower then high else low) (nth c imps []) in let v := gt (nth c chs []) (nth c ls 0%nat) in
      exists pol, (0 < v -> pol = 1) /\ (v < 0 -> pol = -1) /\ (v = 0 -> pol = 0) /\ length (nth c out []) = n /\
        forall t, (t < n)%nat -> nth t (nth c out []) None = option_map (fun g => gt ir t + pol * g * gt imp t) (imp_gain nrm ir imp).
Proof.
  intros Hf B Hl NC LL Len. destruct (C104_impulses b fs n ls Hf B Hl) as (imps & E & L & V). exists imps. unfold combine_dirac.
  assert (En : length (hd [] chs) = n) by (destruct chs; [easy|apply Len; now left]). rewrite En, E. cbn [bind].
  assert (T : forall l, Z.to_nat (truncate (INR l + 1 / 2)) = l). { intros l. unfold truncate. pose proof (pos_INR l). destruct (Rlt_dec _ 0); [lra|]. rewrite (Int_part_unique _ (Z.of_nat l)). lia. rewrite <- INR_IZR_INZ. lra. }
  set (sg := mk (length chs) (fun c => sgn (gt (nth c chs []) (nth c ls 0%nat)))).
  assert (EP : seq_result (map (fun p => polarity (fst p) (snd p)) (combine (map INR ls) chs)) = Ok sg).
  { unfold sg. clear -Hl LL Len T. revert ls LL Hl. induction chs as [|x chs IH]; intros [|l ls] LL Hl; try discriminate. reflexivity. cbn [map combine seq_result fst snd]. unfold polarity at 1. rewrite T.
    destruct (nth_error x l) as [v|] eqn:Q. 2:{ apply nth_error_None in Q. rewrite (Len x (or_introl eq_refl)) in Q. specialize (Hl l (or_introl eq_refl)). lia. }
    cbn [bind]. rewrite IH. 2:{ intros; apply Len; now right. } 2:{ simpl in LL; lia. } 2:{ intros; apply Hl; now right. } cbn [bind length]. f_equal. unfold mk. cbn [seq map nth]. f_equal. { f_equal. symmetry. apply nth_error_nth. exact Q. } rewrite <- seq_shift, map_map. reflexivity. }
  rewrite EP. cbn [bind]. eexists. split; [reflexivity|]. split; [reflexivity|]. assert (Ls : length sg = length chs) by apply mk_length. split. { rewrite map_length, !combine_length. lia. }
  intros c Hc. set (ir := (if lower then low else high) (nth c chs [])). set (imp := (if lower then high else low) (nth c imps [])). set (v := gt (nth c chs []) (nth c ls 0%nat)). exists (sgn v). split; [|split; [|split]].
  - intros H. unfold sgn. destruct (Rlt_dec v 0); [lra|]. destruct (Rlt_dec 0 v); lra.
  - intros H. unfold sgn. destruct (Rlt_dec v 0); lra.
  - intros H. unfold sgn. destruct (Rlt_dec v 0); [lra|]. destruct (Rlt_dec 0 v); lra.
  - rewrite (nth_map' _ _ _ (([], []), 0) []) by (rewrite !combine_length; lia). rewrite !combine_nth by (rewrite ?combine_length; lia). cbn [fst snd]. rewrite mk_length. split; auto. intros t Ht. rewrite nth_mk by auto.
    fold ir imp. assert (Es : nth c sg 0 = sgn v) by (unfold sg; now rewrite nth_mk by auto). rewrite Es. destruct (imp_gain nrm ir imp); auto. cbn [option_map]. f_equal. ring.
Qed.
Print Assumptions C104_result.

(** Matching: the scaled impulse band has the power, or the peak, of the response band; without impulse in the band there is no result (nan or inf). *)
Theorem C104_energy ir imp : ir <> [] -> imp <> [] ->
  match imp_gain Energy ir imp with Some g => 0 <= g /\ mean_square (length imp) (fun t => g * gt imp t) = mean_square (length ir) (gt ir) | None => forall t, (t < length imp)%nat -> gt imp t = 0 end.
Proof.
  intros N1 N2. unfold imp_gain, ratio. pose proof (rms_sq imp N2) as Q2. pose proof (rms_sq ir N1) as Q1. assert (P : 0 < INR (length imp)) by (apply lt_0_INR; destruct imp; [easy|simpl; lia]). destruct (Req_EM_T (rms imp) 0) as [Z|Z].
  - rewrite Z in Q2. assert (S0 : sum (HA := CRing_R) (length imp) (fun t => gt imp t ^ 2) = 0). { unfold mean_square in Q2. apply Rmult_eq_reg_r with (/ INR (length imp)). unfold Rdiv in Q2. rewrite <- Q2. ring. apply Rinv_neq_0_compat. lra. }
    assert (NS : forall m, 0 <= sum (HA := CRing_R) m (fun t => gt imp t ^ 2)). { induction m; cbn [sum]. simpl; lra. simpl radd. apply Rplus_le_le_0_compat; auto. apply pow2_ge_0. }
    intros t Ht. revert S0 Ht. generalize (length imp). induction n; intros S0 Ht. lia. change (sum (HA := CRing_R) n (fun t => gt imp t ^ 2) + gt imp n ^ 2 = 0) in S0. pose proof (NS n). pose proof (pow2_ge_0 (gt imp n)). destruct (Nat.eq_dec t n) as [->|]. assert (gt imp n ^ 2 = 0) by lra. apply Rsqr_0_uniq. unfold Rsqr. nra. apply IHn; [lra|lia].
  - assert (R1 : 0 <= rms ir) by apply sqrt_pos. assert (R2 : 0 < rms imp). { destruct (sqrt_pos (fold_right (fun v acc => v ^ 2 + acc) 0 imp / INR (length imp))) as [A|A]; auto. unfold rms in Z. congruence. }
    split. apply Rmult_le_pos; auto. left. now apply Rinv_0_lt_compat. rewrite <- Q1. transitivity ((rms ir / rms imp) ^ 2 * mean_square (length imp) (gt imp)). 2:{ rewrite <- Q2. field. lra. }
    unfold mean_square, Rdiv at 1 4. rewrite <- Rmult_assoc. f_equal. etransitivity; [|exact (sum_scal_l (HA := CRing_R) (length imp) ((rms ir / rms imp) ^ 2) (fun t => gt imp t ^ 2))]. apply (sum_ext (HA := CRing_R)). intros. simpl rmul. ring.
Qed.
Print Assumptions C104_energy.
Theorem C104_peak ir imp p : is_top (length ir) (gt ir) p ->
  match imp_gain Peak ir imp with Some g => 0 <= g /\ is_top (length imp) (fun t => g * gt imp t) p | None => forall t, (t < length imp)%nat -> gt imp t = 0 end.
Proof.
  intros ((t0 & H0 & E0) & B0). unfold imp_gain, ratio.
  assert (VP : forall x, x <> [] -> is_top (length x) (gt x) (vpeak x)).
  { clear. induction x as [|a x IH]; intros N. easy. destruct x as [|a' x].
    - unfold vpeak. cbn. rewrite Rmax_left by apply Rabs_pos. split. exists 0%nat. auto. intros [|t] Ht. cbn. lra. simpl in Ht; lia.
    - destruct (IH ltac:(discriminate)) as ((t & Ht & E) & Bd). set (y := a' :: x) in *. change (vpeak (a :: y)) with (Rmax (Rabs a) (vpeak y)). split.
      + unfold Rmax. destruct (Rle_dec _ _). exists (S t). split. cbn [length]. lia. exact E. exists 0%nat. split. cbn [length]. lia. reflexivity.
      + intros [|t'] Ht'. apply Rmax_l. eapply Rle_trans; [|apply Rmax_r]. apply (Bd t'). cbn [length] in Ht'. lia. }
  assert (Ei : vpeak ir = p). { destruct (VP ir) as ((t & Ht & E) & Bd). { intros Q. rewrite Q in H0. simpl in H0. lia. } apply Rle_antisym. rewrite <- E. now apply B0. rewrite <- E0. now apply Bd. }
  rewrite Ei. destruct imp as [|a imp'] eqn:EI. { unfold vpeak. cbn. destruct (Req_EM_T 0 0); [|lra]. intros; lia. } rewrite <- EI in *. destruct (VP imp ltac:(rewrite EI; discriminate)) as ((t & Ht & E) & Bd).
  destruct (Req_EM_T (vpeak imp) 0) as [Z|Z].
  - intros t' Ht'. specialize (Bd t' Ht'). rewrite Z in Bd. pose proof (Rabs_pos (gt imp t')). destruct (Req_dec (gt imp t') 0) as [|N]; auto. apply Rabs_pos_lt in N. lra.
  - assert (0 <= vpeak imp) by (rewrite <- E; apply Rabs_pos). assert (P : 0 < vpeak imp) by lra. assert (0 <= p) by (rewrite <- E0; apply Rabs_pos). assert (G : 0 <= p / vpeak imp) by (apply Rmult_le_pos; auto; left; now apply Rinv_0_lt_compat).
    split; auto. split.
    + exists t. split; auto. rewrite Rabs_mult, E, Rabs_pos_eq by auto. field. lra.
    + intros t' Ht'. rewrite Rabs_mult, (Rabs_pos_eq (p / vpeak imp)) by auto. replace p with (p / vpeak imp * vpeak imp) at 2 by (field; lra). apply Rmult_le_compat_l; auto.
Qed.
Print Assumptions C104_peak.
(** two channels of four samples with their peaks at sample 1: the second impulse is at sample 2 *)
(** A level in decibels is an amplitude level: the gain is positive and 20 log10 of it is the level. It does not depend on the bands. *)
Theorem C104_decibel d ir imp : exists g, imp_gain (Decibel d) ir imp = Some g /\ 0 < g /\ 20 * (ln g / ln 10) = d.
Proof.
  eexists. split; [reflexivity|]. assert (0 < ln 10) by (rewrite <- ln_1; apply ln_increasing; lra). unfold from_db, db_factor, Rpower. split; [apply exp_pos|]. rewrite ln_exp. field. lra.
Qed.
Print Assumptions C104_decibel.
Example C104_decibel_inst : exists g, imp_gain (Decibel (-20)) [1] [1] = Some g /\ g = / 10.
Proof.
  destruct (C104_decibel (-20) [1] [1]) as (g & E & P & L). exists g. split; auto. assert (0 < ln 10) by (rewrite <- ln_1; apply ln_increasing; lra).
  apply ln_inv; auto; try lra. rewrite ln_Rinv by lra. apply Rmult_eq_reg_r with (/ ln 10); [|apply Rinv_neq_0_compat; lra]. replace (- ln 10 * / ln 10) with (-1) by (field; lra). unfold Rdiv in L. lra.
Qed.
Example C104_example : exists imps, impulses (fun _ => 1) 48000 4 (map INR [1; 1]%nat) = Ok imps /\ impulse_at 4 1 (nth 0 imps []) /\ impulse_at 4 2 (nth 1 imps []).
Proof. destruct (C104_second_channel_refuted (fun _ => 1) 48000 4 1) as (i0 & i1 & E & A & B & _). lra. lra. lia. exists [i0; i1]. auto. Qed.
