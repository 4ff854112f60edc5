(** C74: minimum-phase impulse responses and minimum phases. *)
From Coq Require Import List Arith Lia ZArith Bool Reals Lra.
From Verif Require Import Alg Spec Dft P_parseval M_arrays P_arrays M_block P_block M_level M_tf M_scaling P_dft2 M_minphase P_minphase.
Import ListNotations.
Local Open Scope R_scope.

Notation getr l t := (@get R CRing_R l t) (only parsing).
(** ** Specification *)
(** A response [h] of N samples is the discrete minimum-phase response of [x]: same magnitudes on the N points of the circle, and its
    spectrum has a logarithm that is the transform of a real sequence [w] (the complex cepstrum) which vanishes at negative times, i.e.
    behind the middle. *)
Record minimum_phase_of (N : nat) (x h : list R) : Prop := {
  mp_length : length h = N;
  mp_magnitude : forall k, (k < N)%nat -> cabs2 (dft N h k) = cabs2 (dft N x k);
  mp_causal : exists w : list R, length w = N /\ (forall t, (t < N)%nat -> (N < 2 * t)%nat -> getr w t = 0) /\
    forall k, (k < N)%nat -> dft N h k = cexp (dft N w k) }.

Lemma next_fast_len_c_ge t : (t <= next_fast_len_c t)%nat.
Proof. unfold next_fast_len_c. destruct (find smooth11 (seq t (S t))) eqn:E; auto. now apply find_seq_ge in E. Qed.
Lemma mp_len_ge n p : (n * p <= mp_len n p)%nat /\ (n <= mp_len n p)%nat.
Proof. unfold mp_len. pose proof (next_fast_len_c_ge (Nat.max (n * p) n)). lia. Qed.
Local Opaque mp_len.
Lemma fold_late N y t : (t < N)%nat -> (N < 2 * t)%nat -> mp_fold N y t = 0.
Proof.
  intros Ht H. pose proof (Nat.div_mod N 2 ltac:(lia)) as D. pose proof (Nat.mod_upper_bound N 2 ltac:(lia)) as B.
  pose proof (Nat.div_mod (N + 1) 2 ltac:(lia)) as D1. pose proof (Nat.mod_upper_bound (N + 1) 2 ltac:(lia)) as B1.
  unfold mp_fold. destruct (Nat.eqb_spec t 0); [lia|]. destruct (Nat.even N) eqn:Ev.
  - destruct (Nat.ltb_spec t (N / 2)); [lia|]. destruct (Nat.ltb_spec t (N / 2 + 1)); auto. apply Nat.even_spec in Ev. destruct Ev. lia.
  - destruct (Nat.ltb_spec t ((N + 1) / 2)); [lia|]. auto.
Qed.
Lemma cdft_mk N (w : nat -> R) k : cdft N (fun t => rc (w t)) k = dft N (mk N w) k.
Proof. rewrite dft_cdft. apply cdft_ext. intros t Ht. now rewrite (get_mk (HA := CRing_R)). Qed.
Lemma mp_ir_minimum N x : (0 < N)%nat -> no_zero_bin N x -> exists h, mp_ir N x = Some h /\ minimum_phase_of N x h.
Proof.
  intros HN H. destruct (mp_ir_some N x HN H) as (h & E & L & V). exists h. split; auto. constructor; auto.
  - intros k Hk. rewrite V by auto. apply mp_bin_abs. now apply H.
  - set (lg := fun k => ln (cmod (dft N x k))). exists (mk N (mp_fold N (cepstrum N lg))). split; [apply mk_length|]. split.
    + intros t Ht Hl. rewrite (get_mk (HA := CRing_R)) by auto. now apply fold_late.
    + intros k Hk. rewrite V by auto. rewrite <- cdft_mk. rewrite fold_spectrum; auto. apply lg_even. lia.
Qed.
(** Real sequences with the same real part of the spectrum that vanish behind the middle are equal. *)
Lemma causal_unique N (v w : list R) : (0 < N)%nat -> (forall t, (t < N)%nat -> (N < 2 * t)%nat -> getr v t = 0) -> (forall t, (t < N)%nat -> (N < 2 * t)%nat -> getr w t = 0) ->
  (forall k, (k < N)%nat -> fst (dft N v k) = fst (dft N w k)) -> forall t, (t < N)%nat -> getr v t = getr w t.
Proof.
  intros HN Hv Hw H. set (d := fun t => getr v t - getr w t).
  assert (E : forall t, (t < N)%nat -> d t + d (rflx N t) = 0).
  { intros t Ht. assert (Q : rc (d t + d (rflx N t)) = rc 0); [|apply (f_equal fst) in Q; exact Q].
    apply (cdft_inj N (fun t => rc (d t + d (rflx N t))) (fun _ => rc 0)); auto. intros k Hk.
    assert (Z0 : cdft N (fun _ => rc 0) k = rc 0). { apply (sum_zero' (HA := CRing_C)). intros i Hi. apply cmul_rc0. }
    rewrite Z0. apply c_ext; cbn [fst snd rc].
    - rewrite cdft_rc_fst. rewrite (sum_ext (HA := CRing_R) N _ (fun t => radd (d t * fst (root N (Z.of_nat t * Z.of_nat k))) (d (rflx N t) * fst (root N (Z.of_nat t * Z.of_nat k))))).
      2:{ intros i Hi. change (@radd R CRing_R) with Rplus. ring. }
      rewrite (sum_add (HA := CRing_R)). change (@radd R CRing_R) with Rplus.
      assert (R1 : rsum N (fun t => d (rflx N t) * fst (root N (Z.of_nat t * Z.of_nat k))) = rsum N (fun t => d t * fst (root N (Z.of_nat t * Z.of_nat k)))).
      { rewrite (rsum_reflect N (fun t => d t * fst (root N (Z.of_nat t * Z.of_nat k)))) by auto. apply (sum_ext (HA := CRing_R)). intros i Hi. rewrite root_rflx by auto. reflexivity. }
      rewrite R1. assert (R2 : rsum N (fun t => d t * fst (root N (Z.of_nat t * Z.of_nat k))) = 0); [|lra].
      pose proof (H k Hk) as Q. rewrite !dft_cdft, !cdft_rc_fst in Q. unfold d.
      rewrite (sum_ext (HA := CRing_R) N _ (fun t => rsub (getr v t * fst (root N (Z.of_nat t * Z.of_nat k))) (getr w t * fst (root N (Z.of_nat t * Z.of_nat k))))).
      2:{ intros i Hi. change (@rsub R CRing_R) with Rminus. ring. }
      rewrite (sum_sub (HA := CRing_R)). change (@rsub R CRing_R) with Rminus. lra.
    - rewrite cdft_rc_snd. rewrite (sin_even_zero N (fun t => d t + d (rflx N t))); auto. ring.
      intros i Hi. destruct (Nat.eq_dec i 0) as [->|Hi0]. { rewrite !rflx_0. reflexivity. } rewrite !rflx_pos by lia. replace (N - (N - i))%nat with i by lia. ring. }
  intros t Ht. cut (d t = 0). { unfold d. lra. } pose proof (E t Ht) as Et. destruct (Nat.eq_dec t 0) as [->|H0]. { rewrite rflx_0 in Et. lra. }
  rewrite rflx_pos in Et by lia. destruct (lt_eq_lt_dec (2 * t) N) as [[Hl|He]|Hg].
  - assert (d (N - t)%nat = 0); [|lra]. unfold d. rewrite Hv, Hw by lia. ring.
  - replace (N - t)%nat with t in Et by lia. lra.
  - unfold d. rewrite Hv, Hw by auto. ring.
Qed.
Lemma exp_sq_inj a b : exp a * exp a = exp b * exp b -> a = b.
Proof. intros H. rewrite <- !exp_plus in H. apply exp_inv in H. lra. Qed.
Lemma list_ext_R (a b : list R) N : length a = N -> length b = N -> (forall t, (t < N)%nat -> getr a t = getr b t) -> a = b.
Proof. intros La Lb H. apply nth_ext with (d := 0) (d' := 0). lia. intros t Ht. apply H. lia. Qed.
(** There is only one minimum-phase response. *)
Theorem C74_unique :
  forall N x h h', (0 < N)%nat -> minimum_phase_of N x h -> minimum_phase_of N x h' -> h = h'.
Proof.
  intros N x h h' HN [L M (w & Lw & Cw & Ew)] [L' M' (w' & Lw' & Cw' & Ew')]. apply (list_ext_R _ _ N); auto. apply dft_inj. intros k Hk.
  rewrite Ew, Ew' by auto. f_equal. rewrite !dft_cdft. apply cdft_ext. intros t Ht. f_equal.
  apply (causal_unique N); auto. intros j Hj. apply exp_sq_inj. rewrite <- !cexp_abs, <- Ew, <- Ew' by auto. rewrite M, M' by auto. reflexivity.
Qed.
Print Assumptions C74_unique.

Definition energy (x : list R) : R := rsum (length x) (fun t => getr x t * getr x t).
Lemma energy_at N (x : list R) : (length x <= N)%nat -> rsum N (fun t => getr x t * getr x t) = energy x.
Proof.
  intros H. unfold energy. apply (sum_trunc (HA := CRing_R)); auto. intros t Ht. rewrite (get_out (HA := CRing_R)) by lia. change (@r0 R CRing_R) with 0. ring.
Qed.
Lemma same_energy N (x h : list R) : (0 < N)%nat -> (length x <= N)%nat -> (length h <= N)%nat -> (forall k, (k < N)%nat -> cabs2 (dft N h k) = cabs2 (dft N x k)) -> energy h = energy x.
Proof.
  intros HN Lx Lh H. pose proof (parseval N x HN) as Px. pose proof (parseval N h HN) as Ph. rewrite energy_at in Px, Ph by auto.
  rewrite (sum_ext (HA := CRing_R) N _ (fun k => cabs2 (dft N x k))) in Ph by auto. pose proof (INR_pos N HN). rewrite Px in Ph. apply Rmult_eq_reg_l in Ph; auto. lra.
Qed.
Lemma energy_firstn n (x : list R) : energy (firstn n x) <= energy x.
Proof.
  destruct (Nat.le_gt_cases (length x) n). { rewrite firstn_all2 by auto. lra. }
  unfold energy. rewrite firstn_length. replace (Nat.min n (length x)) with n by lia.
  replace (length x) with (n + (length x - n))%nat by lia. rewrite (sum_split (HA := CRing_R) n). change (@radd R CRing_R) with Rplus.
  rewrite (sum_ext (HA := CRing_R) n _ (fun t => getr x t * getr x t)).
  2:{ intros t Ht. rewrite (get_firstn (HA := CRing_R)). destruct (Nat.ltb_spec t n); [auto|lia]. }
  assert (P : forall m (f : nat -> R), (forall i, 0 <= f i) -> 0 <= rsum m f).
  { intros m f Hf. induction m; cbn [sum]. change (@r0 R CRing_R) with 0. lra. change (@radd R CRing_R) with Rplus. specialize (Hf m). lra. }
  assert (Q : 0 <= rsum (length x - n) (fun i => getr x (n + i) * getr x (n + i))) by (apply P; intros; nra). lra.
Qed.
(** ** The API *)
(** Each channel of the result is the beginning of the minimum-phase response on the padded length; the result is not a number exactly
    when a bin of the padded spectrum is zero. The energy never grows. *)
Theorem C74_minimum_phase_ir :
  forall sc chs n p, (forall x, In x chs -> length x = n) -> chs <> [] -> (0 < n)%nat -> (1 < p)%nat ->
  exists cols, min_phase_ir sc chs true p 1 = Ok cols /\ length cols = length chs /\
  exists N, (n * p <= N)%nat /\ forall c, (c < length chs)%nat -> let x := nth c chs [] in
    ((exists k, (k < N)%nat /\ dft N x k = rc 0) -> nth c cols None = None) /\
    ((forall k, (k < N)%nat -> dft N x k <> rc 0) -> exists h, minimum_phase_of N x h /\ nth c cols None = Some (firstn n h) /\
       energy h = energy x /\ energy (firstn n h) <= energy x).
Proof.
  intros sc chs n p Hl Hne Hn Hp. unfold min_phase_ir. destruct (Nat.leb_spec p 1); [lia|]. destruct (Rle_dec 1 1) as [_|Q]; [|lra]. destruct (Rlt_dec 0 1) as [_|Q]; [|lra].
  cbn [negb]. assert (Hh : length (hd [] chs) = n). { apply Hl. destruct chs; [congruence|now left]. } rewrite Hh. cbv zeta.
  destruct (Req_EM_T 1 1) as [_|Q]; [|congruence]. eexists. split; [reflexivity|]. split; [now rewrite !map_length|].
  exists (mp_len n p). destruct (mp_len_ge n p) as [G1 G2]. split; [exact G1|]. intros c Hc. set (x := nth c chs []) in *.
  assert (E : nth c (map (option_map (fun h => firstn n h)) (map (fun x => mp_ir (mp_len n p) x) chs)) None = option_map (fun h => firstn n h) (mp_ir (mp_len n p) x)).
  { rewrite map_map. rewrite (nth_indep _ None (option_map (fun h => firstn n h) (mp_ir (mp_len n p) []))) by (rewrite map_length; auto).
    rewrite (map_nth (fun x => option_map (fun h => firstn n h) (mp_ir (mp_len n p) x))). reflexivity. }
  rewrite E. split.
  - intros Hz. apply mp_ir_none in Hz. now rewrite Hz.
  - intros Hz. destruct (mp_ir_minimum (mp_len n p) x ltac:(lia) Hz) as (h & Eh & Mh). exists h. split; auto. rewrite Eh. split; [reflexivity|].
    assert (Lx : length x = n) by (apply Hl, nth_In; auto).
    assert (En : energy h = energy x). { apply (same_energy (mp_len n p)); try lia. now rewrite (mp_length _ _ _ Mh). apply Mh. }
    split; auto. rewrite <- En. apply energy_firstn.
Qed.
Print Assumptions C74_minimum_phase_ir.

(** Only the magnitudes matter. *)
Lemma mp_ir_same N x y : (0 < N)%nat -> (forall k, (k < N)%nat -> cabs2 (dft N x k) = cabs2 (dft N y k)) -> mp_ir N x = mp_ir N y.
Proof.
  intros HN H. assert (Z : forall z, z = rc 0 <-> cabs2 z = 0).
  { intros z. split; [intros ->; unfold cabs2; simpl; ring|]. intros E. destruct (c_is_zero z) eqn:Ez. now apply c_is_zero_spec. exfalso.
    assert (z <> rc 0). { intros Q. apply c_is_zero_spec in Q. congruence. } apply cmod_pos in H0. pose proof (cmod_sq z). nra. }
  destruct (mp_ir N x) as [h|] eqn:Ex.
  - assert (Nx : no_zero_bin N x). { intros k Hk E. assert (mp_ir N x = None); [|congruence]. apply mp_ir_none. eauto. }
    assert (Ny : no_zero_bin N y). { intros k Hk E. apply (Nx k Hk). apply Z. rewrite H by auto. now apply Z. }
    destruct (mp_ir_minimum N x HN Nx) as (hx & E1 & M1). destruct (mp_ir_minimum N y HN Ny) as (hy & E2 & M2). rewrite Ex in E1. injection E1 as <-. rewrite E2. f_equal.
    apply (C74_unique N y); auto. destruct M1 as [L M W]. constructor; auto. intros k Hk. rewrite M, H; auto.
  - symmetry. apply mp_ir_none. apply mp_ir_none in Ex. destruct Ex as (k & Hk & E). exists k. split; auto. apply Z. rewrite <- H by auto. now apply Z.
Qed.
Lemma dft_scaled N (x y : list R) g k : (forall t, getr y t = g * getr x t) -> dft N y k = cmulr (dft N x k) g.
Proof.
  intros H. unfold dft. assert (E : forall z, cmulr z g = cmul (rc g) z) by (intros; unfold cmulr; apply c_ext; simpl; ring). rewrite E.
  rewrite <- (sum_scal_l (HA := CRing_C)). apply (sum_ext (HA := CRing_C)). intros t Ht. rewrite H. change (@rmul C CRing_C) with cmul. apply c_ext; simpl; ring.
Qed.
Lemma dft_shift N (x y : list R) d k : (forall t, getr y (d + t) = getr x t) -> (forall t, (t < d)%nat -> getr y t = 0) -> (length x + d <= N)%nat ->
  dft N y k = cmul (root N (- (Z.of_nat d * Z.of_nat k))) (dft N x k).
Proof.
  intros H1 H2 L. unfold dft. replace N with (d + (N - d))%nat at 1 by lia. rewrite (sum_split (HA := CRing_C) d). change (@radd C CRing_C) with cadd.
  rewrite (sum_zero' (HA := CRing_C) d). 2:{ intros t Ht. rewrite H2 by auto. change (@rmul C CRing_C) with cmul. apply cmul_rc0. }
  change (@r0 C CRing_C) with (rc 0). assert (E0 : forall z, cadd (rc 0) z = z) by (intros; apply c_ext; simpl; ring). rewrite E0.
  rewrite <- (sum_scal_l (HA := CRing_C)). transitivity (csum (N - d) (fun i => cmul (root N (- (Z.of_nat d * Z.of_nat k))) (cmul (rc (getr x i)) (root N (- (Z.of_nat i * Z.of_nat k)))))).
  - apply (sum_ext (HA := CRing_C)). intros i Hi. rewrite H1. change (@rmul C CRing_C) with cmul. rewrite !cmul_assoc. rewrite (cmul_comm (root N _)). rewrite <- !cmul_assoc. f_equal.
    rewrite <- root_add. f_equal. lia.
  - symmetry. apply (sum_trunc (HA := CRing_C)); [lia|]. intros i Hi. rewrite (get_out (HA := CRing_R)) by lia. change (@r0 R CRing_R) with 0. change (@rmul C CRing_C) with cmul. change (@r0 C CRing_C) with (rc 0).
    rewrite cmul_rc0. rewrite cmul_comm. apply cmul_rc0.
Qed.
Lemma cabs2_mul a b : cabs2 (cmul a b) = cabs2 a * cabs2 b.
Proof. unfold cabs2, cmul. simpl. ring. Qed.
Lemma root_abs2 n a : cabs2 (root n a) = 1.
Proof. unfold cabs2, root, cis. simpl. pose proof (sin2_cos2 (2 * PI * IZR a / INR n)) as H. unfold Rsqr in H. lra. Qed.
Lemma dft_reversed N (x : list R) k : (length x <= N)%nat -> cabs2 (dft N (rev x) k) = cabs2 (dft N x k).
Proof.
  intros L. set (n := length x) in *. destruct (Nat.eq_dec n 0) as [H0|H0]. { destruct x; [reflexivity|discriminate]. }
  assert (E : dft N (rev x) k = cmul (root N (- (Z.of_nat (n - 1) * Z.of_nat k))) (cconj (dft N x k))).
  { assert (T : forall y : list R, length y = n -> dft N y k = csum n (fun t => cmul (rc (getr y t)) (root N (- (Z.of_nat t * Z.of_nat k))))).
    { intros y Ly. unfold dft. apply (sum_trunc (HA := CRing_C)); [lia|]. intros i Hi. rewrite (get_out (HA := CRing_R)) by lia. change (@rmul C CRing_C) with cmul. apply cmul_rc0. }
    rewrite (T (rev x)) by (rewrite rev_length; auto). rewrite (T x) by auto. rewrite csum_conj. rewrite <- (sum_scal_l (HA := CRing_C)).
    rewrite (sum_rev (HA := CRing_C) n). apply (sum_ext (HA := CRing_C)). intros i Hi. change (@rmul C CRing_C) with cmul. rewrite cconj_mul.
    assert (G : getr (rev x) (n - 1 - i) = getr x i). { unfold get. rewrite rev_nth by (fold n; lia). f_equal. fold n. lia. }
    rewrite G. rewrite <- root_conj, Z.opp_involutive. assert (Cr : cconj (rc (getr x i)) = rc (getr x i)) by (apply c_ext; simpl; ring). rewrite Cr.
    rewrite !cmul_assoc. rewrite (cmul_comm (root N _) (rc _)). rewrite <- cmul_assoc. f_equal. rewrite <- root_add. f_equal. rewrite !Nat2Z.inj_sub by lia. ring. }
  rewrite E, cabs2_mul, root_abs2, cabs2_cconj. ring.
Qed.
Lemma mpi_channels sc (xs ys : list (list R)) p alpha : length (hd [] xs) = length (hd [] ys) ->
  Forall2 (fun x y => mp_ir (mp_len (length (hd [] xs)) p) x = mp_ir (mp_len (length (hd [] xs)) p) y) xs ys -> alpha = 1 ->
  min_phase_ir sc xs true p alpha = min_phase_ir sc ys true p alpha.
Proof.
  intros L F ->. unfold min_phase_ir. destruct (p <=? 1)%nat; auto. destruct (negb _); auto. rewrite <- L. cbv zeta. destruct (Req_EM_T 1 1); [|congruence]. do 2 f_equal.
  set (N := mp_len _ _) in *. clearbody N. clear L. induction F as [|a b xs' ys' Hab F' IH]; cbn [map]; [reflexivity|]. now rewrite Hab, IH.
Qed.
(** The result does not change when the signal is inverted, reversed in time, or delayed within its length. *)
Theorem C74_invariance :
  forall sc x y p, length y = length x -> (0 < length x)%nat ->
  (forall t, getr y t = - getr x t) \/ y = rev x \/
  (exists d, (forall t, getr y (d + t) = getr x t) /\ (forall t, (t < d)%nat -> getr y t = 0)) ->
  min_phase_ir sc [y] true p 1 = min_phase_ir sc [x] true p 1.
Proof.
  intros sc x y p L Hn H. destruct (Nat.le_gt_cases p 1) as [Hp|Hp].
  { unfold min_phase_ir. destruct (Nat.leb_spec p 1); [reflexivity|lia]. }
  apply (mpi_channels sc [y] [x] p 1 L); [|reflexivity]. cbn [hd]. constructor; [|constructor]. destruct (mp_len_ge (length y) p) as [G0 G]. set (N := mp_len _ _) in *. assert (2 * length x <= N)%nat by nia.
  apply mp_ir_same; [lia|]. intros k Hk. destruct H as [H|[H|(d & H1 & H2)]].
  - rewrite (dft_scaled N x y (-1)). unfold cmulr, cabs2. simpl. ring. intros t. rewrite H. ring.
  - subst y. apply dft_reversed. lia.
  - destruct (Nat.le_gt_cases (length x + d) N) as [Hd|Hd].
    + rewrite (dft_shift N x y d k) by auto. rewrite cabs2_mul, root_abs2. ring.
    + (* the delay exceeds the padding: all samples are zero *)
      assert (Zx : forall t, getr x t = 0). { intros t. rewrite <- H1. rewrite (get_out (HA := CRing_R)) by (rewrite L; lia). reflexivity. }
      assert (Zy : forall t, getr y t = 0). { intros t. destruct (Nat.lt_ge_cases t d). now apply H2. replace t with (d + (t - d))%nat by lia. now rewrite H1. }
      f_equal. rewrite !dft_cdft. apply cdft_ext. intros t Ht. now rewrite Zx, Zy.
Qed.
Print Assumptions C74_invariance.
Lemma weighted_get a (x : list R) t : getr (weighted a x) t = getr x t * a ^ t.
Proof.
  unfold weighted. destruct (Nat.lt_ge_cases t (length x)). now rewrite (get_mk (HA := CRing_R)).
  rewrite !(get_out (HA := CRing_R)) by (rewrite ?mk_length; auto). change (@r0 R CRing_R) with 0. ring.
Qed.
(** Weighting with powers of alpha: the weighted result is the beginning of the minimum-phase response of the weighted signal. *)
Theorem C74_alpha :
  forall sc chs n p alpha, (forall x, In x chs -> length x = n) -> chs <> [] -> (0 < n)%nat -> (1 < p)%nat -> 0 < alpha < 1 ->
  exists cols, min_phase_ir sc chs true p alpha = Ok cols /\ length cols = length chs /\
  exists N, (n * p <= N)%nat /\ forall c v, (c < length chs)%nat -> (forall t, getr v t = getr (nth c chs []) t * alpha ^ t) ->
    (forall k, (k < N)%nat -> dft N v k <> rc 0) ->
    exists h l, minimum_phase_of N v h /\ nth c cols None = Some l /\ length l = n /\ forall t, (t < n)%nat -> getr l t * alpha ^ t = getr h t.
Proof.
  intros sc chs n p alpha Hl Hne Hn Hp Ha. unfold min_phase_ir. destruct (Nat.leb_spec p 1); [lia|]. destruct (Rle_dec alpha 1) as [_|Q]; [|lra]. destruct (Rlt_dec 0 alpha) as [_|Q]; [|lra].
  cbn [negb]. assert (Hh : length (hd [] chs) = n). { apply Hl. destruct chs; [congruence|now left]. } rewrite Hh. cbv zeta.
  destruct (Req_EM_T alpha 1) as [Q|_]; [lra|]. eexists. split; [reflexivity|]. split; [now rewrite !map_length|].
  exists (mp_len n p). destruct (mp_len_ge n p) as [G1 G2]. split; [exact G1|]. intros c v Hc Hv Hz. set (x := nth c chs []) in *. set (N := mp_len n p) in *.
  assert (E : nth c (map (option_map (fun h => firstn n (weighted (/ alpha) h))) (map (fun x => mp_ir N (weighted alpha x)) chs)) None = option_map (fun h => firstn n (weighted (/ alpha) h)) (mp_ir N (weighted alpha x))).
  { rewrite map_map. rewrite (nth_indep _ None (option_map (fun h => firstn n (weighted (/ alpha) h)) (mp_ir N (weighted alpha [])))) by (rewrite map_length; auto).
    rewrite (map_nth (fun x => option_map (fun h => firstn n (weighted (/ alpha) h)) (mp_ir N (weighted alpha x)))). reflexivity. }
  rewrite E. assert (S : forall k, dft N (weighted alpha x) k = dft N v k). { intros k. rewrite !dft_cdft. apply cdft_ext. intros t Ht. now rewrite weighted_get, Hv. }
  rewrite (mp_ir_same N (weighted alpha x) v) by (try lia; intros; now rewrite S).
  destruct (mp_ir_minimum N v ltac:(lia) Hz) as (h & Eh & Mh). rewrite Eh. cbn [option_map]. pose proof (mp_length _ _ _ Mh) as Lh.
  exists h. eexists. split; [exact Mh|]. split; [reflexivity|]. split. { rewrite firstn_length. unfold weighted. rewrite mk_length. lia. }
  intros t Ht. rewrite (get_firstn (HA := CRing_R)). destruct (Nat.ltb_spec t n); [|lia]. rewrite weighted_get, Rmult_assoc, <- Rpow_mult_distr, Rinv_l, pow1 by lra. ring.
Qed.
Print Assumptions C74_alpha.
Theorem C74_rejects :
  forall sc chs cepstral p alpha, (p <= 1)%nat \/ alpha <= 0 \/ 1 < alpha -> min_phase_ir sc chs cepstral p alpha = Err AssertionError.
Proof.
  intros sc chs cepstral p alpha H. unfold min_phase_ir. destruct (Nat.leb_spec p 1); auto. destruct (Rle_dec alpha 1); auto. destruct (Rlt_dec 0 alpha); auto. exfalso. destruct H as [H|[H|H]]; [lia|lra|lra].
Qed.
Print Assumptions C74_rejects.
(** The method for symmetric responses fails on every signal: scipy gives a filter of half the length, ceil(n / 2) samples. *)
Theorem C74_symmetric_method_refuted :
  forall sc chs n p alpha, (forall x m, length (sc x m) = (S (length x) / 2)%nat) -> chs <> [] -> (forall x, In x chs -> length x = n) -> (2 <= n)%nat -> (1 < p)%nat -> 0 < alpha <= 1 ->
  min_phase_ir sc chs false p alpha = Err ValueError.
Proof.
  intros sc chs n p alpha Hs Hne Hl Hn Hp Ha. unfold min_phase_ir. destruct (Nat.leb_spec p 1); [lia|]. destruct (Rle_dec alpha 1) as [_|Q]; [|lra]. destruct (Rlt_dec 0 alpha) as [_|Q]; [|lra].
  cbn [negb]. assert (Hh : length (hd [] chs) = n). { apply Hl. destruct chs; [congruence|now left]. } rewrite Hh. cbv zeta.
  destruct chs as [|x chs]; [congruence|]. cbn [map forallb]. rewrite firstn_length, Hs. rewrite (Hl x (or_introl eq_refl)).
  assert (S n / 2 < n)%nat by (apply Nat.div_lt_upper_bound; lia). destruct (Nat.eqb_spec (Nat.min n (S n / 2)) n); [lia|]. reflexivity.
Qed.
Print Assumptions C74_symmetric_method_refuted.

(** ** Laws of the response on the whole length *)
Lemma dft_add N (v w : list R) k : dft N (mk N (fun t => getr v t + getr w t)) k = cadd (dft N v k) (dft N w k).
Proof.
  unfold dft. rewrite <- (sum_add (HA := CRing_C)). apply (sum_ext (HA := CRing_C)). intros t Ht. rewrite (get_mk (HA := CRing_R)) by auto.
  change (@radd C CRing_C) with cadd. change (@rmul C CRing_C) with cmul. apply c_ext; simpl; ring.
Qed.
Lemma min_of_bins N x h : (0 < N)%nat -> (forall k, (k < N)%nat -> dft N x k <> rc 0) -> minimum_phase_of N x h -> mp_ir N x = Some h.
Proof. intros HN Hz M. destruct (mp_ir_minimum N x HN Hz) as (h' & E & M'). rewrite E. f_equal. now apply (C74_unique N x). Qed.
Lemma mp_ir_no_zero N x h : mp_ir N x = Some h -> no_zero_bin N x.
Proof. intros E k Hk Q. assert (mp_ir N x = None); [|congruence]. apply mp_ir_none. eauto. Qed.
Lemma mp_ir_spec N x h : (0 < N)%nat -> mp_ir N x = Some h -> minimum_phase_of N x h.
Proof. intros HN E. destruct (mp_ir_minimum N x HN (mp_ir_no_zero N x h E)) as (h' & E' & M). congruence. Qed.
(** Applying it again changes nothing. *)
Theorem C74_idempotent :
  forall N x h, (0 < N)%nat -> mp_ir N x = Some h -> mp_ir N h = Some h.
Proof.
  intros N x h HN E. pose proof (mp_ir_spec N x h HN E) as M. rewrite <- E. apply mp_ir_same; auto. intros k Hk. now apply (mp_magnitude _ _ _ M).
Qed.
Print Assumptions C74_idempotent.
(** A gain g becomes its absolute value: the sign is lost. *)
Theorem C74_gain :
  forall N x y h g, (0 < N)%nat -> g <> 0 -> (forall t, getr y t = g * getr x t) -> mp_ir N x = Some h -> mp_ir N y = Some (map (fun v => Rabs g * v) h).
Proof.
  intros N x y h g HN Hg Hy E. pose proof (mp_ir_spec N x h HN E) as M. destruct M as [L Mg (w & Lw & Cw & Ew)].
  assert (D : forall k, dft N y k = cmulr (dft N x k) g) by (intros; now apply dft_scaled).
  assert (G : forall t, getr (map (fun v => Rabs g * v) h) t = Rabs g * getr h t).
  { intros t. unfold get. change (@r0 R CRing_R) with 0. replace 0 with (Rabs g * 0) at 1 by ring. now rewrite (map_nth (fun v => Rabs g * v)). }
  apply (min_of_bins N y); auto.
  - intros k Hk Q. apply (mp_ir_no_zero N x h E k Hk). rewrite D in Q. unfold cmulr in Q. injection Q as Q1 Q2. apply c_ext; simpl; [apply (Rmult_eq_reg_r g)|apply (Rmult_eq_reg_r g)]; auto; lra.
  - assert (A2 : Rabs g * Rabs g = g * g) by (rewrite <- Rabs_mult; apply Rabs_right; nra).
    constructor. { now rewrite map_length. }
    + intros k Hk. rewrite (dft_scaled N h _ (Rabs g)) by auto. rewrite D. unfold cmulr, cabs2 in *. simpl. specialize (Mg k Hk). cbv beta in Mg.
      transitivity ((Rabs g * Rabs g) * (fst (dft N h k) * fst (dft N h k) + snd (dft N h k) * snd (dft N h k))); [ring|]. rewrite A2, Mg. ring.
    + exists (mk N (fun t => getr w t + getr [ln (Rabs g)] t)). split; [apply mk_length|]. split.
      * intros t Ht Hl. rewrite (get_mk (HA := CRing_R)) by auto. rewrite Cw by auto. rewrite (get_out (HA := CRing_R)) by (simpl; lia). change (@r0 R CRing_R) with 0. ring.
      * intros k Hk. rewrite dft_add, cexp_add, <- Ew by auto. rewrite (dft_scaled N h _ (Rabs g)) by auto.
        assert (D0 : dft N [ln (Rabs g)] k = rc (ln (Rabs g))).
        { unfold dft. destruct N as [|N']; [lia|]. rewrite (sum_S_front (HA := CRing_C)). rewrite (sum_zero' (HA := CRing_C)).
          2:{ intros i Hi. rewrite (get_out (HA := CRing_R)) by (simpl; lia). change (@rmul C CRing_C) with cmul. apply cmul_rc0. }
          change (@radd C CRing_C) with cadd. change (@rmul C CRing_C) with cmul. change (@r0 C CRing_C) with (rc 0). simpl (Z.of_nat 0). rewrite Z.mul_0_l. simpl Z.opp. rewrite root_0.
          unfold get. cbn [nth]. unfold cadd, cmul, rc. apply c_ext; cbn [fst snd]; ring. }
        rewrite D0. unfold cexp, rc. cbn [fst snd]. rewrite cos_0, sin_0, exp_ln by (now apply Rabs_pos_lt). unfold cmulr. apply c_ext; simpl; ring.
Qed.
Print Assumptions C74_gain.
(** The response of a cascade is the circular convolution of the responses. *)
Theorem C74_cascade :
  forall N x y z hx hy, (0 < N)%nat -> (forall t, (t < N)%nat -> getr z t = circ N x y t) -> mp_ir N x = Some hx -> mp_ir N y = Some hy ->
  exists hz, mp_ir N z = Some hz /\ length hz = N /\ forall t, (t < N)%nat -> getr hz t = circ N hx hy t.
Proof.
  intros N x y z hx hy HN Hz Ex Ey. pose proof (mp_ir_spec N x hx HN Ex) as [Lx Mx (wx & _ & Cx & Wx)]. pose proof (mp_ir_spec N y hy HN Ey) as [Ly My (wy & _ & Cy & Wy)].
  assert (D : forall k, (k < N)%nat -> dft N z k = cmul (dft N x k) (dft N y k)) by (intros; now apply dft_circ).
  exists (mk N (circ N hx hy)). split; [|split; [apply mk_length|intros; now rewrite (get_mk (HA := CRing_R))]].
  assert (D' : forall k, (k < N)%nat -> dft N (mk N (circ N hx hy)) k = cmul (dft N hx k) (dft N hy k)).
  { intros k Hk. apply dft_circ; auto. intros t Ht. now rewrite (get_mk (HA := CRing_R)). }
  apply (min_of_bins N z); auto.
  - intros k Hk Q. rewrite D in Q by auto. assert (Q2 : cabs2 (cmul (dft N x k) (dft N y k)) = 0) by (rewrite Q; unfold cabs2; simpl; ring). rewrite cabs2_mul in Q2.
    pose proof (cmod_pos _ (mp_ir_no_zero N x hx Ex k Hk)). pose proof (cmod_pos _ (mp_ir_no_zero N y hy Ey k Hk)). rewrite <- !cmod_sq in Q2.
    assert (0 < cmod (dft N x k) * cmod (dft N x k)) by nra. assert (0 < cmod (dft N y k) * cmod (dft N y k)) by nra. nra.
  - constructor. { apply mk_length. }
    + intros k Hk. rewrite D, D', !cabs2_mul, Mx, My by auto. reflexivity.
    + exists (mk N (fun t => getr wx t + getr wy t)). split; [apply mk_length|]. split.
      * intros t Ht Hl. rewrite (get_mk (HA := CRing_R)) by auto. rewrite Cx, Cy by auto. ring.
      * intros k Hk. rewrite D', dft_add, cexp_add, Wx, Wy by auto. reflexivity.
Qed.
Print Assumptions C74_cascade.

(** ** Phases *)
Lemma ratio_bounds z : z <> rc 0 -> -1 <= fst z / cmod z <= 1 /\ cmod z * sqrt (1 - Rsqr (fst z / cmod z)) = Rabs (snd z) /\ (snd z <> 0 -> -1 < fst z / cmod z).
Proof.
  intros H. pose proof (cmod_pos z H) as P. pose proof (cmod_sq z) as Q. unfold cabs2 in Q. set (m := cmod z) in *.
  assert (E : fst z / m * m = fst z) by (field; lra). set (r := fst z / m) in *.
  assert (B1 : (1 - r * r) * (m * m) = snd z * snd z). { replace ((1 - r * r) * (m * m)) with (m * m - (r * m) * (r * m)) by ring. rewrite E. lra. }
  assert (M2 : 0 < m * m) by (apply Rmult_lt_0_compat; auto).
  assert (B2 : r * r <= 1). { apply Rnot_lt_le. intros Q1. assert ((1 - r * r) * (m * m) < 0) by nra. pose proof (Rle_0_sqr (snd z)) as S2. unfold Rsqr in S2. lra. }
  split; [nra|]. split.
  - transitivity (sqrt (m * m) * sqrt (1 - Rsqr r)). { rewrite sqrt_square by lra. ring. }
    rewrite <- sqrt_mult by (unfold Rsqr; nra). unfold Rsqr. replace (m * m * (1 - r * r)) with (snd z * snd z) by lra. apply (sqrt_Rsqr_abs (snd z)).
  - intros Hs. assert (S2 : 0 < snd z * snd z) by nra. rewrite <- B1 in S2. assert (r * r < 1). { apply Rnot_le_lt. intros Q1. assert ((1 - r * r) * (m * m) <= 0) by nra. lra. } nra.
Qed.
Lemma angle_spec z : z <> rc 0 -> z = cmulr (cis (angle z)) (cmod z) /\ - PI < angle z <= PI.
Proof.
  intros H. destruct (ratio_bounds z H) as (B & S & B'). pose proof (cmod_pos z H) as P. unfold angle. destruct (c_is_zero z) eqn:E. { apply c_is_zero_spec in E. congruence. }
  pose proof (acos_bound (fst z / cmod z)) as A. pose proof PI_RGT_0. destruct (Rle_dec 0 (snd z)) as [Hs|Hs].
  - split; [|lra]. unfold cis, cmulr. apply c_ext; cbn [fst snd]. rewrite cos_acos by auto. field. lra.
    rewrite sin_acos by auto. rewrite Rmult_comm, S. symmetry. apply Rabs_right. lra.
  - split.
    + unfold cis, cmulr. rewrite cos_neg, sin_neg. apply c_ext; cbn [fst snd]. rewrite cos_acos by auto. field. lra.
      rewrite sin_acos by auto. rewrite Ropp_mult_distr_l_reverse, Rmult_comm, S. rewrite Rabs_left by lra. ring.
    + assert (Hlt : acos (fst z / cmod z) <> PI).
      { intros Q. assert (cos (acos (fst z / cmod z)) = -1) by (rewrite Q; apply cos_PI). rewrite cos_acos in H1 by auto. specialize (B' ltac:(lra)). lra. }
      lra.
Qed.
(** minimum_phase: the frequencies of the bins up to half the rate, and the principal values of the phases of the response on the whole
    length; they vanish at zero frequency and at half the rate. *)
Theorem C74_minimum_phase :
  forall fs p x h, (0 < length x)%nat -> 0 < fs ->
  mp_ir (mp_len (length x) p) x = Some h -> let N := length h in
  exists f ph, minimum_phase fs p x = Some (f, ph) /\ length f = (N / 2 + 1)%nat /\ length ph = (N / 2 + 1)%nat /\
  (forall k, (k <= N / 2)%nat -> getr f k = INR k * fs / INR N /\ 0 <= getr f k <= fs / 2 /\ - PI < getr ph k <= PI /\
     dft N h k = cmulr (cis (getr ph k)) (cmod (dft N x k))) /\
  getr ph 0 = 0 /\ (N = (2 * (N / 2))%nat -> getr ph (N / 2)%nat = 0).
Proof.
  intros fs p x h Hn Hfs E. destruct (mp_len_ge (length x) p) as [_ G]. set (M := mp_len (length x) p) in *. assert (HM : (0 < M)%nat) by lia.
  pose proof (mp_ir_no_zero M x h E) as Hz. pose proof (mp_length _ _ _ (mp_ir_spec M x h HM E)) as Lh. intros N. assert (EN : N = M) by exact Lh. rewrite EN. clear N EN.
  destruct (mp_spectrum_some M x Hz) as (S & ES & LS & VS). destruct (mp_ir_some M x HM Hz) as (h' & E' & _ & V'). rewrite E in E'. injection E' as <-.
  unfold minimum_phase. fold M. rewrite ES. cbn [option_map]. do 2 eexists. split; [reflexivity|]. split; [apply mk_length|]. split; [apply mk_length|].
  assert (Hd : (M / 2 < M)%nat) by (apply Nat.div_lt; lia). pose proof (INR_pos M HM) as IP.
  assert (NZ : forall k, (k < M)%nat -> nth k S (rc 0) <> rc 0).
  { intros k Hk Q. assert (Q2 : cabs2 (nth k S (rc 0)) = 0) by (rewrite Q; unfold cabs2; simpl; ring). rewrite VS, mp_bin_abs in Q2 by auto. pose proof (cmod_pos _ (Hz k Hk)). pose proof (cmod_sq (dft M x k)). nra. }
  assert (A0 : forall k, (k < M)%nat -> snd (nth k S (rc 0)) = 0 -> 0 < fst (nth k S (rc 0)) -> angle (nth k S (rc 0)) = 0).
  { intros k Hk Q1 Q2. unfold angle. destruct (c_is_zero _) eqn:Ec; auto. rewrite Q1. destruct (Rle_dec 0 0) as [_|]; [|lra].
    unfold cmod, cabs2. rewrite Q1. replace (fst (nth k S (rc 0)) * fst (nth k S (rc 0)) + 0 * 0) with (fst (nth k S (rc 0)) * fst (nth k S (rc 0))) by ring. rewrite sqrt_square by lra.
    replace (fst (nth k S (rc 0)) / fst (nth k S (rc 0))) with 1 by (field; lra). apply acos_1. }
  assert (R0 : forall k, (k < M)%nat -> mp_phase M (fun k => ln (cmod (dft M x k))) k = 0 -> angle (nth k S (rc 0)) = 0).
  { intros k Hk Q. apply A0; auto; rewrite VS, Q by auto; unfold cexp; cbn [fst snd]; rewrite ?sin_0, ?cos_0; [ring|]. pose proof (exp_pos (ln (cmod (dft M x k)))). lra. }
  split; [|split].
  - intros k Hk. rewrite !(get_mk (HA := CRing_R)) by lia. split; [reflexivity|]. split; [|].
    + pose proof (pos_INR k). pose proof (Nat.div_mod M 2 ltac:(lia)) as D. assert (K2 : (2 * k <= M)%nat) by lia. apply le_INR in K2. rewrite mult_INR in K2. simpl (INR 2) in K2.
      assert (0 < / INR M) by (now apply Rinv_0_lt_compat). unfold Rdiv. split. { apply Rmult_le_pos; [nra|lra]. }
      apply Rmult_le_reg_r with (INR M); auto. rewrite Rmult_assoc, Rinv_l by lra. nra.
    + destruct (angle_spec _ (NZ k ltac:(lia))) as (A1 & A2). split; auto. rewrite V' by lia. rewrite <- VS by lia. rewrite A1 at 1. f_equal.
      unfold cmod. f_equal. rewrite VS by lia. apply mp_bin_abs. apply Hz. lia.
  - rewrite (get_mk (HA := CRing_R)) by lia. apply R0; auto. apply mp_phase_0.
  - intros Ev. rewrite (get_mk (HA := CRing_R)) by lia. apply R0; auto. apply mp_phase_mid; auto. lia.
Qed.
Print Assumptions C74_minimum_phase.

(** The method from magnitudes (Hilbert transform) gives the same phase. *)
Lemma fold_scale N (y : nat -> R) t : mp_fold N (fun _ => 1) t * y t = mp_fold N y t.
Proof.
  unfold mp_fold. destruct (Nat.eqb_spec t 0) as [->|]. ring. destruct (Nat.even N). destruct (t <? N / 2)%nat; [ring|]. destruct (t <? N / 2 + 1)%nat; ring. destruct (t <? (N + 1) / 2)%nat; ring.
Qed.
Lemma hilbert_phase N u k : (0 < N)%nat -> even_on N u -> - snd (hilbert N u k) = mp_phase N u k.
Proof.
  intros HN He. unfold hilbert. pose proof (INR_pos N HN) as IP.
  rewrite (icdft_ext N _ (fun t => rc (INR N * mp_fold N (cepstrum N u) t))).
  2:{ intros t Ht. assert (E : cdft N (fun j => rc (u j)) t = rc (INR N * cepstrum N u t)).
      { apply c_ext; cbn [fst snd rc]. rewrite cdft_rc_fst, cepstrum_sum. field; lra. rewrite cdft_rc_snd, sin_even_zero by auto. ring. }
      rewrite E. rewrite <- (fold_scale N (cepstrum N u) t). apply c_ext; cbn [fst snd cmul rc]; ring. }
  unfold mp_phase. rewrite cdft_rc_snd. unfold icdft, cdivr. cbn [snd]. rewrite csum_snd.
  rewrite (sum_ext (HA := CRing_R) N _ (fun t => rmul (INR N) (mp_fold N (cepstrum N u) t * snd (root N (Z.of_nat t * Z.of_nat k))))).
  2:{ intros t Ht. simpl. ring. }
  rewrite (sum_scal_l (HA := CRing_R)). change (@rmul R CRing_R) with Rmult. field. lra.
Qed.
Lemma mirrored_length b (l : list R) : (2 <= length l)%nat -> length (mirrored b l) = if b then (2 * length l - 1)%nat else (2 * length l - 2)%nat.
Proof.
  intros H. unfold mirrored. rewrite app_length, rev_length. destruct l as [|a [|c l]]; [simpl in H; lia|simpl in H; lia|]. cbn [tl length].
  destruct b. simpl length. lia. rewrite removelast_firstn_len. rewrite firstn_length. cbn [length]. lia.
Qed.
Lemma mirrored_get b (l : list R) k : (2 <= length l)%nat -> (k < length (mirrored b l))%nat ->
  getr (mirrored b l) k = getr l (if (k <? length l)%nat then k else length (mirrored b l) - k)%nat.
Proof.
  intros H Hk. rewrite mirrored_length in * by auto. unfold mirrored. destruct (Nat.ltb_spec k (length l)).
  - now rewrite (get_app_l (HA := CRing_R)).
  - rewrite (get_app_r (HA := CRing_R)) by auto. destruct l as [|a l]; [simpl in H; lia|]. cbn [tl length] in *. destruct b.
    + unfold get. rewrite rev_nth by lia. replace (2 * S (length l) - 1 - k)%nat with (S (length l - S (k - S (length l))))%nat by lia. reflexivity.
    + rewrite removelast_firstn_len. unfold get. rewrite rev_nth by (rewrite firstn_length; lia). rewrite firstn_length.
      assert (Q : forall i m (q : list R), (i < m)%nat -> nth i (firstn m q) 0 = nth i q 0). { induction i; intros [|m] [|c q] Hi; simpl; auto; try lia. apply IHi. lia. }
      change (@r0 R CRing_R) with 0. rewrite Q by lia. replace (2 * S (length l) - 2 - k)%nat with (S (Nat.min (Nat.pred (length l)) (length l) - S (k - S (length l))))%nat by lia. reflexivity.
Qed.
Lemma mirrored_even b (l : list R) : (2 <= length l)%nat -> even_on (length (mirrored b l)) (get (mirrored b l)).
Proof.
  intros H k Hk. destruct (Nat.eq_dec k 0) as [->|H0]. now rewrite rflx_0. rewrite rflx_pos by lia. rewrite !mirrored_get by lia.
  pose proof (mirrored_length b l H) as L. set (N := length (mirrored b l)) in *.
  destruct (Nat.ltb_spec (N - k) (length l)), (Nat.ltb_spec k (length l)); try reflexivity.
  - f_equal. destruct b; lia.
  - f_equal. lia.
  - destruct b; lia.
Qed.
(** Magnitudes [mags] of the bins up to half the rate of a signal [x]; they exceed -500 dB of the largest magnitude. *)
Theorem C74_from_magnitude :
  forall N x h mx mags, (2 <= N)%nat -> (length x <= N)%nat -> mp_ir N x = Some h ->
  length mags = (N / 2 + 1)%nat -> (forall k, (k <= N / 2)%nat -> getr mags k = cmod (dft N x k) /\ Rpower 10 (-25) * mx <= getr mags k) ->
  let ph := minimum_phase_mag mx mags (N mod 2 =? 1)%nat in
  length ph = length mags /\ (forall k, (k <= N / 2)%nat -> dft N h k = cmulr (cis (getr ph k)) (getr mags k)) /\
  (N = (2 * (N / 2))%nat -> min_phase_from_mag mx mags = h).
Proof.
  intros N x h mx mags HN Lx E Lm Hm ph. assert (H0 : (0 < N)%nat) by lia. pose proof (mp_ir_no_zero N x h E) as Hz. pose proof (mp_length _ _ _ (mp_ir_spec N x h H0 E)) as Lh.
  pose proof (Nat.div_mod N 2 ltac:(lia)) as D. pose proof (Nat.mod_upper_bound N 2 ltac:(lia)) as B. assert (Hd : (N / 2 < N)%nat) by (apply Nat.div_lt; lia).
  destruct (mp_ir_some N x H0 Hz) as (h' & E' & _ & V'). rewrite E in E'. injection E' as <-.
  set (lg := map (fun m => ln (Rmax m (from_db true (-500) * mx))) mags). set (b := (N mod 2 =? 1)%nat) in *.
  assert (Ll : length lg = (N / 2 + 1)%nat) by (unfold lg; now rewrite map_length). assert (L2 : (2 <= length lg)%nat) by lia.
  assert (LF : length (mirrored b lg) = N). { rewrite mirrored_length by auto. unfold b. destruct (Nat.eqb_spec (N mod 2) 1); lia. }
  assert (F5 : from_db true (-500) = Rpower 10 (-25)). { unfold from_db, db_factor. f_equal. field. }
  assert (G : forall k, (k <= N / 2)%nat -> getr lg k = ln (cmod (dft N x k))).
  { intros k Hk. unfold lg, get. change (@r0 R CRing_R) with 0. rewrite (nth_indep _ 0 (ln (Rmax 0 (from_db true (-500) * mx)))) by (rewrite map_length; lia).
    rewrite (map_nth (fun m => ln (Rmax m (from_db true (-500) * mx)))). destruct (Hm k Hk) as [M1 M2]. unfold get in M1, M2. change (@r0 R CRing_R) with 0 in M1, M2. rewrite F5, Rmax_left by auto. now rewrite M1. }
  assert (GF : forall k, (k < N)%nat -> getr (mirrored b lg) k = ln (cmod (dft N x k))).
  { intros k Hk. rewrite mirrored_get by (auto; lia). rewrite LF. destruct (Nat.ltb_spec k (length lg)). { apply G. lia. }
    rewrite G by lia. rewrite dft_conj by lia. unfold cmod. now rewrite cabs2_cconj. }
  assert (PE : forall k, mp_phase N (get (mirrored b lg)) k = mp_phase N (fun k => ln (cmod (dft N x k))) k).
  { intros k. unfold mp_phase. f_equal. apply cdft_ext. intros t Ht. f_equal. rewrite <- (fold_scale N (cepstrum N (get (mirrored b lg))) t), <- (fold_scale N (cepstrum N (fun k => ln (cmod (dft N x k)))) t). f_equal. rewrite !cepstrum_sum. f_equal. apply (sum_ext (HA := CRing_R)). intros j Hj. now rewrite GF. }
  assert (P : forall k, (k <= N / 2)%nat -> getr ph k = mp_phase N (fun k => ln (cmod (dft N x k))) k).
  { intros k Hk. unfold ph, minimum_phase_mag. cbv zeta. fold lg. rewrite (get_mk (HA := CRing_R)) by lia. rewrite LF. rewrite hilbert_phase; auto. rewrite <- LF at 1. apply mirrored_even. auto. }
  assert (S : forall k, (k <= N / 2)%nat -> dft N h k = cmulr (cis (getr ph k)) (getr mags k)).
  { intros k Hk. rewrite V' by lia. rewrite P by auto. destruct (Hm k Hk) as [-> _]. unfold cexp, cmulr, cis. cbn [fst snd]. rewrite exp_ln by (apply cmod_pos, Hz; lia). apply c_ext; simpl; ring. }
  split. { unfold ph, minimum_phase_mag. apply mk_length. } split; [exact S|]. intros Ev.
  assert (Lm2 : ((length mags - 1) * 2)%nat = N) by lia.
  unfold min_phase_from_mag. rewrite Lm2. fold b. cbv zeta. fold ph. apply (list_ext_R _ _ N); auto. { unfold irfft_n. apply mk_length. }
  apply dft_inj_half. intros k Hk.
  assert (Bk : forall k, (k <= N / 2)%nat -> nth k (mk (length mags) (fun k => cmul (rc (getr mags k)) (cexp (0, getr ph k)))) (rc 0) = dft N h k).
  { intros j Hj. rewrite nth_mk' by lia. rewrite S by auto. unfold cexp, cmulr, cis. cbn [fst snd]. rewrite exp_0. apply c_ext; simpl; ring. }
  rewrite dft_irfft; auto.
  - rewrite Bk by lia. rewrite V' by lia. rewrite mp_phase_0. unfold cexp. cbn [fst snd]. rewrite sin_0. ring.
  - intros j Hj. rewrite Bk by lia. rewrite V' by lia. rewrite mp_phase_mid by lia. unfold cexp. cbn [fst snd]. rewrite sin_0. ring.
Qed.
Print Assumptions C74_from_magnitude.

(** ** Concrete cases *)
Lemma two_taps N a b k : (2 <= N)%nat -> dft N [a; b] k = cadd (rc a) (cmul (rc b) (root N (- Z.of_nat k))).
Proof.
  intros HN. unfold dft. destruct N as [|[|N]]; try lia. rewrite !(sum_S_front (HA := CRing_C)). rewrite (sum_zero' (HA := CRing_C)).
  2:{ intros i Hi. rewrite (get_out (HA := CRing_R)) by (simpl; lia). change (@rmul C CRing_C) with cmul. apply cmul_rc0. }
  change (@radd C CRing_C) with cadd. change (@rmul C CRing_C) with cmul. change (@r0 C CRing_C) with (rc 0). unfold get. cbn [nth].
  replace (- (Z.of_nat 0 * Z.of_nat k))%Z with 0%Z by lia. rewrite root_0. replace (- (Z.of_nat 1 * Z.of_nat k))%Z with (- Z.of_nat k)%Z by lia.
  apply c_ext; simpl; ring.
Qed.
Lemma two_taps_nonzero N a b k : (2 <= N)%nat -> Rabs b < Rabs a -> dft N [a; b] k <> rc 0.
Proof.
  intros HN H E. rewrite two_taps in E by auto. assert (Ea : cmul (rc b) (root N (- Z.of_nat k)) = rc (- a)).
  { apply c_ext; [apply (f_equal fst) in E|apply (f_equal snd) in E]; simpl in *; lra. }
  apply (f_equal cabs2) in Ea. rewrite cabs2_mul, root_abs2 in Ea. unfold cabs2, rc in Ea. simpl in Ea. assert (Q : Rsqr b = Rsqr a) by (unfold Rsqr; lra). apply Rsqr_eq_abs_0 in Q. lra.
Qed.
Lemma two_one N k : (2 <= N)%nat -> dft N [2; 1] k <> rc 0.
Proof. intros. apply two_taps_nonzero; auto. rewrite !Rabs_right; lra. Qed.
Example C74_minimum_phase_ir_example :
  forall sc, exists h l, min_phase_ir sc [[2; 1]] true 8 1 = Ok [Some l] /\ length l = 2%nat /\ energy h = 5 /\ energy l <= 5.
Proof.
  intros sc. destruct (C74_minimum_phase_ir sc [[2; 1]] 2 8) as (cols & E & L & N & GN & V); try lia; try discriminate. { intros x [<-|[]]; reflexivity. }
  destruct (V 0%nat ltac:(simpl; lia)) as [_ V1]. cbn [nth] in V1. destruct V1 as (h & Mh & Eh & E1 & E2). { intros k Hk. apply two_one. lia. }
  destruct cols as [|o [|]]; try discriminate. cbn [nth] in Eh. subst o. exists h, (firstn 2 h). split; auto.
  assert (EE : energy [2; 1] = 5) by (unfold energy, get; simpl; ring). rewrite EE in *. split; auto. rewrite firstn_length, (mp_length _ _ _ Mh). lia.
Qed.
Example C74_laws_example : exists h, mp_ir 16 [2; 1] = Some h /\ minimum_phase_of 16 [2; 1] h.
Proof. apply mp_ir_minimum. lia. intros k Hk. apply two_one. lia. Qed.
Example C74_alpha_example : forall sc, exists l, min_phase_ir sc [[1; 3]] true 8 (1 / 6) = Ok [Some l] /\ length l = 2%nat.
Proof.
  intros sc. destruct (C74_alpha sc [[1; 3]] 2 8 (1 / 6)) as (cols & E & L & N & GN & V); try lia; try lra; try discriminate. { intros x [<-|[]]; reflexivity. }
  destruct (V 0%nat [1; 1 / 2] ltac:(simpl; lia)) as (h & l & _ & El & Ll & _).
  - intros t. cbn [nth]. unfold get. change (@r0 R CRing_R) with 0. destruct t as [|[|t]]; simpl; try lra. destruct t; simpl; ring.
  - intros k Hk. apply two_taps_nonzero. lia. rewrite !Rabs_right; lra.
  - destruct cols as [|o [|]]; try discriminate. cbn [nth] in El. subst o. eauto.
Qed.
Example C74_symmetric_method_example : min_phase_ir (fun x m => firstn (S (length x) / 2) x) [[1; 2; 1]] false 8 1 = Err ValueError.
Proof.
  apply C74_symmetric_method_refuted with (n := 3%nat); try lia; try lra; try discriminate.
  - intros x m. rewrite firstn_length. assert (S (length x) / 2 <= length x)%nat; [|lia]. destruct (length x) as [|n]; [reflexivity|]. assert (S (S n) / 2 < S (S n))%nat by (apply Nat.div_lt; lia). lia.
  - intros x [<-|[]]; reflexivity.
Qed.
Example C74_from_magnitude_example : exists h, mp_ir 8 [2; 1] = Some h /\ min_phase_from_mag 3 (mk 5 (fun k => cmod (dft 8 [2; 1] k))) = h.
Proof.
  destruct (mp_ir_minimum 8 [2; 1] ltac:(lia)) as (h & E & _). { intros k Hk. apply two_one. lia. }
  exists h. split; auto. refine (proj2 (proj2 (C74_from_magnitude 8 [2; 1] h 3 _ _ _ E _ _)) _); try (simpl; lia); try reflexivity.
  change (8 / 2)%nat with 4%nat. intros k Hk. rewrite (get_mk (HA := CRing_R)) by lia. split; auto.
  assert (C1 : 1 <= cmod (dft 8 [2; 1] k)).
  { unfold cmod. apply Rle_trans with (sqrt 1); [rewrite sqrt_1; lra|]. apply sqrt_le_1_alt. rewrite two_taps by lia. unfold root, cis. set (w := 2 * PI * _ / _). unfold cabs2, cadd, cmul, rc. cbn [fst snd].
    pose proof (sin2_cos2 w) as Q. unfold Rsqr in Q. pose proof (COS_bound w). apply Rle_trans with (5 + 4 * cos w); [lra|]. apply Req_le. transitivity (4 + 4 * cos w + (sin w * sin w + cos w * cos w)); [rewrite Q; ring|ring]. }
  assert (P : Rpower 10 (-25) <= Rpower 10 (-1)) by (apply Rle_Rpower; lra). replace (Rpower 10 (-1)) with (/ 10) in P by (replace (-1) with (- (1)) by ring; rewrite Rpower_Ropp, Rpower_1; lra). lra.
Qed.
(** The returned response is cut to the original length: for the two taps a > b > 0, already of minimum phase, with padding factor 2, the
    result is another response with another gain at zero frequency. *)
Theorem C74_truncation_refuted :
  exists a b h, b < a /\ 0 < b /\ (forall sc, min_phase_ir sc [[a; b]] true 2 1 = Ok [Some h]) /\ length h = 2%nat /\ getr h 0 + getr h 1 < a + b.
Proof.
  set (E := exp PI). assert (HE : 1 < E) by (unfold E; rewrite <- exp_0; apply exp_increasing; apply PI_RGT_0).
  set (a := (E + 1) / 2). set (b := (E - 1) / 2). set (x := [a; b]).
  assert (Nz : no_zero_bin 4 x). { intros k Hk. apply two_taps_nonzero. lia. unfold a, b. rewrite !Rabs_right; lra. }
  destruct (mp_ir_some 4 x ltac:(lia) Nz) as (h & Eh & Lh & Vh).
  assert (ML : mp_len 2 2 = 4%nat) by reflexivity.
  exists a, b, (firstn 2 h). split; [unfold a, b; lra|]. split; [unfold b; lra|]. split.
  { intros sc. unfold min_phase_ir. change (2 <=? 1)%nat with false. cbn [hd length]. rewrite ML. destruct (Rle_dec 1 1); [|lra]. destruct (Rlt_dec 0 1); [|lra]. cbn [negb].
    destruct (Req_EM_T 1 1); [|congruence]. cbn [map]. fold x. rewrite Eh. reflexivity. }
  split; [rewrite firstn_length; lia|].
  assert (R0 : root 4 0 = (1, 0)) by apply root_0.
  assert (R1 : root 4 1 = (0, 1)). { unfold root, cis. simpl INR. replace (2 * PI * 1 / (1 + 1 + 1 + 1)) with (PI / 2) by field. now rewrite cos_PI2, sin_PI2. }
  assert (R2 : root 4 2 = (-1, 0)). { change 2%Z with (1 + 1)%Z. rewrite root_add, R1. apply c_ext; simpl; ring. }
  assert (R3 : root 4 3 = (0, -1)). { change 3%Z with (2 + 1)%Z. rewrite root_add, R1, R2. apply c_ext; simpl; ring. }
  assert (R6 : root 4 6 = (-1, 0)). { change 6%Z with (3 + 3)%Z. rewrite root_add, R3. apply c_ext; simpl; ring. }
  set (lg := fun k => ln (cmod (dft 4 x k))) in *.
  assert (CP : forall k q, 0 <= q -> dft 4 x k = rc q -> cmod (dft 4 x k) = q). { intros k q Hq ->. unfold cmod, cabs2, rc. cbn [fst snd]. replace (q * q + 0 * 0) with (q * q) by ring. now apply sqrt_square. }
  assert (M0 : cmod (dft 4 x 0) = E).
  { apply CP; [lra|]. unfold x. rewrite two_taps by lia. simpl (Z.of_nat 0). simpl Z.opp. rewrite R0. unfold a, b. apply c_ext; simpl; lra. }
  assert (M2 : cmod (dft 4 x 2) = 1).
  { apply CP; [lra|]. unfold x. rewrite two_taps by lia. rewrite root_conj. change (Z.of_nat 2) with 2%Z. rewrite R2. unfold a, b. apply c_ext; simpl; lra. }
  set (q := cmod (dft 4 x 1)) in *.
  assert (Q2 : q * q = (E * E + 1) / 2).
  { unfold q. rewrite cmod_sq. unfold x. rewrite two_taps by lia. rewrite root_conj. change (Z.of_nat 1) with 1%Z. rewrite R1. unfold cabs2, a, b. simpl. field. }
  assert (Q0 : 0 < q) by (apply cmod_pos, Nz; lia).
  assert (Q3 : cmod (dft 4 x 3) = q). { unfold q. change 3%nat with (4 - 1)%nat. rewrite dft_conj by lia. unfold cmod. now rewrite cabs2_cconj. }
  assert (PH : mp_phase 4 lg 1 = - (PI / 2)).
  { unfold mp_phase. rewrite cdft_rc_snd. cbn [sum]. unfold mp_fold. change (Nat.even 4) with true. change (4 / 2)%nat with 2%nat. cbn [Nat.eqb Nat.ltb Nat.leb Nat.add].
    rewrite (cepstrum_sum 4 lg 1). cbn [sum]. unfold lg. fold q. rewrite M0, M2, Q3.
    change (Z.of_nat 0) with 0%Z. change (Z.of_nat 1) with 1%Z. change (Z.of_nat 2) with 2%Z. change (Z.of_nat 3) with 3%Z. rewrite !Z.mul_1_r. rewrite R0, R1, R2, R3.
    change (@radd R CRing_R) with Rplus. change (@r0 R CRing_R) with 0. unfold E. rewrite ln_exp, ln_1. simpl INR. cbn [fst snd]. field. }
  assert (V0 : dft 4 h 0 = rc E). { rewrite Vh by lia. unfold lg at 1. rewrite M0, mp_phase_0. unfold cexp. cbn [fst snd]. rewrite exp_ln, cos_0, sin_0 by lra. apply c_ext; simpl; ring. }
  assert (V1 : dft 4 h 1 = (0, - q)).
  { rewrite Vh by lia. rewrite PH. unfold lg. fold q. unfold cexp. cbn [fst snd]. rewrite exp_ln, cos_neg, sin_neg, cos_PI2, sin_PI2 by lra. apply c_ext; simpl; ring. }
  assert (V2 : dft 4 h 2 = rc 1).
  { rewrite Vh by lia. rewrite M2, (mp_phase_mid 4 lg 2) by lia. unfold cexp. cbn [fst snd]. rewrite exp_ln, cos_0, sin_0 by lra. apply c_ext; simpl; ring. }
  assert (V3 : dft 4 h 3 = (0, q)). { change 3%nat with (4 - 1)%nat. rewrite dft_conj by lia. rewrite V1. apply c_ext; simpl; ring. }
  assert (H : forall t, (t < 4)%nat -> getr h t = fst (icdft 4 (dft 4 h) t)).
  { intros t Ht. rewrite (icdft_ext 4 (dft 4 h) (cdft 4 (fun t => rc (getr h t)))) by reflexivity. rewrite icdft_cdft by auto. reflexivity. }
  rewrite !(get_firstn (HA := CRing_R)). change (0 <? 2)%nat with true. change (1 <? 2)%nat with true. cbv iota. rewrite !H by lia. unfold icdft, cdivr. cbn [fst]. rewrite !csum_fst. cbn [sum].
  rewrite V0, V1, V2, V3. change (Z.of_nat 0) with 0%Z. change (Z.of_nat 1) with 1%Z. change (Z.of_nat 2) with 2%Z. change (Z.of_nat 3) with 3%Z. rewrite !Z.mul_1_r, !Z.mul_0_r. rewrite R0, R1, R2, R3.
  change (@radd R CRing_R) with Rplus. change (@r0 R CRing_R) with 0. simpl INR. unfold cmul, rc. cbn [fst snd].
  assert (q < E). { apply Rnot_le_lt. intros Hq. nra. } unfold a, b. lra.
Qed.
Print Assumptions C74_truncation_refuted.
