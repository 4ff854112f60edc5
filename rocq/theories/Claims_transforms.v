(** Property C76: cepstra, the analytic signal, mid/side conversion and the DFT at arbitrary frequencies. *)
From Coq Require Import List Arith Lia ZArith Bool Reals Lra.
From Verif Require Import Alg Spec Dft M_scaling M_arrays M_signal P_signal M_filter M_tf M_room M_minphase P_dft2 P_minphase Claims_minphase M_transforms.
Import ListNotations.
Local Open Scope R_scope.

(** ** Auxiliary facts *)
Lemma shape_mk_map {T} (f : T -> list R) (l : list T) n : (forall x, In x l -> length (f x) = n) -> shape (map f l) n (length l).
Proof. intros H. split. apply map_length. apply Forall_forall. intros c Hc. apply in_map_iff in Hc. destruct Hc as (x & <- & Hx). auto. Qed.
Lemma entry_map {T} (f : T -> list R) (l : list T) d i c : (c < length l)%nat -> entry (map f l) i c = nth i (f (nth c l d)) 0.
Proof. intros H. unfold entry. rewrite (nth_indep (map f l) [] (f d)) by (now rewrite map_length). now rewrite map_nth. Qed.
Lemma rabs_inv a b : Rabs a <= b -> - b <= a <= b.
Proof. intros H. pose proof (Rle_abs a). pose proof (Rle_abs (- a)) as Q. rewrite Rabs_Ropp in Q. lra. Qed.
Lemma nth_get (x : list R) i : nth i x 0 = get x i.
Proof. reflexivity. Qed.
Lemma shape_len m n k c : shape m n k -> (c < k)%nat -> length (nth c m []) = n.
Proof. intros H Hc. now apply (shape_col m n k). Qed.

(** What assigning an array with n >= k rows and columns stores. *)
Lemma stored constr fs x n k : in_shape x n k -> (1 <= k <= n)%nat -> (n * k <> 1)%nat -> i_int x = false ->
  exists p s, is_peak x n k p /\ set_time_data constr fs x = Ok s /\ s_constr s = constr /\ s_fs s = fs /\
    s_scale s = (if constr then if Rlt_dec 1 p then 1 / p else 1 else 1) /\ shape (s_re s) n k /\
    (forall i c, (i < n)%nat -> (c < k)%nat -> entry (s_re s) i c = s_scale s * entry (i_re x) i c) /\
    match i_im x with None => s_im s = None | Some im => exists im', s_im s = Some im' /\ shape im' n k /\
      forall i c, (i < n)%nat -> (c < k)%nat -> entry im' i c = s_scale s * entry im i c end.
Proof.
  intros Hs Hk H1 Hi. destruct (is_peak_exists x n k Hs ltac:(lia) ltac:(lia)) as (p & Hp).
  destruct (set_time_data_spec constr fs x n k p Hs ltac:(lia) ltac:(lia) H1 Hp) as (s & E & A & B & D & F & G & I); auto.
  exists p, s. repeat (split; [assumption|]). rewrite Nat.max_l, Nat.min_r in F by lia. split; [assumption|].
  assert (O : forall m i c, oriented m n k i c = entry m i c). { intros. unfold oriented. destruct (Nat.ltb_spec n k); [lia|reflexivity]. }
  split.
  - intros i c Hi' Hc. rewrite G by lia. now rewrite O.
  - destruct (i_im x); auto. destruct I as (im' & E1 & E2 & E3). rewrite Nat.max_l, Nat.min_r in E2 by lia. exists im'. repeat (split; [assumption|]).
    intros i c Hi' Hc. rewrite E3 by lia. now rewrite O.
Qed.
Lemma any_zero_false N X : any_zero N X = false <-> forall k, (k < N)%nat -> X k <> rc 0.
Proof.
  unfold any_zero. split; intros H.
  - intros k Hk E. assert (existsb (fun k => c_is_zero (X k)) (seq 0 N) = true); [|congruence].
    apply existsb_exists. exists k. split. apply in_seq. lia. now apply c_is_zero_spec.
  - destruct (existsb _ _) eqn:E; auto. apply existsb_exists in E. destruct E as (k & Hk & E). apply in_seq in Hk. apply c_is_zero_spec in E. exfalso. apply (H k); [lia|auto].
Qed.
Lemma cexp_clog z : z <> rc 0 -> cexp (clog z) = z.
Proof.
  intros H. pose proof (cmod_pos z H) as P. destruct (angle_spec z H) as (E & _). unfold cexp, clog. cbn [fst snd]. rewrite exp_ln by auto.
  transitivity (cmulr (cis (angle z)) (cmod z)); [|symmetry; exact E]. unfold cmulr, cis. apply c_ext; cbn [fst snd]; ring.
Qed.

(** ** Cepstra *)
(** nonzero_bins: no bin of the full DFT of the channel vanishes *)
Definition nonzero_bins (x : list R) : Prop := forall k, (k < length x)%nat -> dft (length x) x k <> rc 0.
(** The cepstra exist (their values are finite) exactly when no bin of the spectrum vanishes. *)
Theorem C76_cepstrum_defined x : (complex_cepstrum x <> None <-> nonzero_bins x) /\ (real_cepstrum x <> None <-> nonzero_bins x).
Proof.
  unfold complex_cepstrum, real_cepstrum, nonzero_bins. destruct (any_zero _ _) eqn:E.
  - assert (Q : ~ forall k, (k < length x)%nat -> dft (length x) x k <> rc 0) by (intros H; apply any_zero_false in H; congruence). split; split; intros H; try contradiction; congruence.
  - pose proof (proj1 (any_zero_false _ _) E). split; split; intros; try discriminate; auto.
Qed.
Print Assumptions C76_cepstrum_defined.

Lemma from_cepstrum_back x c : complex_cepstrum x = Some c -> from_cepstrum_col c = x.
Proof.
  intros H. assert (NZ : nonzero_bins x) by (apply (proj1 (C76_cepstrum_defined x)); congruence). unfold complex_cepstrum in H. destruct (any_zero _ _); [discriminate|].
  injection H as <-. unfold from_cepstrum_col. rewrite mk_length. set (N := length x) in *.
  apply list_ext_R with (N := N). apply mk_length. reflexivity. intros t Ht. rewrite (get_mk (HA := CRing_R)) by auto.
  rewrite (icdft_ext N _ (dft N x)).
  - rewrite (icdft_ext N _ (cdft N (fun t => rc (get x t)))) by (intros; apply dft_cdft). rewrite icdft_cdft by auto. reflexivity.
  - intros k Hk. rewrite (cdft_ext N _ (icdft N (fun k => clog (dft N x k)))) by (intros j Hj; apply nth_mk'; auto).
    rewrite cdft_icdft by auto. apply cexp_clog. now apply NZ.
Qed.
(** from_complex_cepstrum applied to the complex cepstra of the channels gives the channels back, divided by the peak when it exceeds 1
    (the returned Signal is always amplitude-constrained, whatever the original was) and with the scale factor recorded. *)
Theorem C76_cepstrum_round_trip fs (td : list (list R)) cs n k : shape td n k -> (1 <= k <= n)%nat -> (n * k <> 1)%nat ->
  map complex_cepstrum td = map Some cs ->
  exists p s, (forall i c, (i < n)%nat -> (c < k)%nat -> Rabs (entry td i c) <= p) /\ (exists i c, (i < n)%nat /\ (c < k)%nat /\ p = Rabs (entry td i c)) /\
    from_complex_cepstrum fs cs = Ok s /\ s_fs s = fs /\ s_constr s = true /\ s_im s = None /\ s_scale s = (if Rlt_dec 1 p then 1 / p else 1) /\ shape (s_re s) n k /\
    forall i c, (i < n)%nat -> (c < k)%nat -> entry (s_re s) i c = s_scale s * entry td i c.
Proof.
  intros Hs Hk H1 H. assert (E : map from_cepstrum_col cs = td).
  { clear Hs. revert cs H. induction td as [|x td IH]; intros [|c cs] H; try discriminate; auto. cbn [map] in H. injection H as Hx Ht. cbn [map].
    rewrite (from_cepstrum_back x c Hx). f_equal. auto. }
  unfold from_complex_cepstrum. rewrite E.
  destruct (stored true fs (mkIn td None false) n k) as (p & s & P & Es & A & B & D & F & G & I); auto.
  { split; auto. intros; discriminate. }
  cbn [i_re i_im] in *. destruct P as (P1 & P2). exists p, s. split. { intros i c Hi Hc. exact (proj1 (P1 i c Hi Hc)). } split.
  { destruct P2 as (i & c & Hi & Hc & [P2|(im & Q & _)]); [|discriminate]. exists i, c. auto. }
  repeat (split; [assumption|]). assumption.
Qed.
Print Assumptions C76_cepstrum_round_trip.

(** The real cepstrum is real and symmetric, its spectrum is the logarithm of the magnitudes, and no other real symmetric sequence has that spectrum. *)
Theorem C76_real_cepstrum x c : real_cepstrum x = Some c -> let N := length x in
  length c = N /\ (forall t, (t < N)%nat -> snd (nth t c (rc 0)) = 0) /\ (forall t, (0 < t < N)%nat -> nth (N - t) c (rc 0) = nth t c (rc 0)) /\
  (forall k, (k < N)%nat -> exp (fst (cdft N (fun t => nth t c (rc 0)) k)) = cmod (dft N x k) /\ snd (cdft N (fun t => nth t c (rc 0)) k) = 0) /\
  (forall d : nat -> C, (forall k, (k < N)%nat -> cdft N d k = rc (ln (cmod (dft N x k)))) -> forall t, (t < N)%nat -> d t = nth t c (rc 0)).
Proof.
  intros H N. assert (NZ : nonzero_bins x) by (apply (proj2 (C76_cepstrum_defined x)); congruence). unfold real_cepstrum in H. destruct (any_zero _ _); [discriminate|].
  injection H as <-. fold N in NZ |- *. fold N. split; [apply mk_length|].
  assert (V : forall t, (t < N)%nat -> nth t (mk N (fun t => icdft N (fun k => rc (ln (cmod (dft N x k)))) t)) (rc 0) = rc (cepstrum N (fun k => ln (cmod (dft N x k))) t)).
  { intros t Ht. rewrite nth_mk' by auto. apply cepstrum_real. lia. apply lg_even. lia. }
  split. { intros t Ht. now rewrite V. }
  split. { intros t Ht. rewrite !V by lia. f_equal. pose proof (cepstrum_even N (fun k => ln (cmod (dft N x k))) ltac:(lia) t ltac:(lia)) as E. rewrite rflx_pos in E by lia. exact E. }
  assert (Sp : forall k, (k < N)%nat -> cdft N (fun t => nth t (mk N (fun t => icdft N (fun k => rc (ln (cmod (dft N x k)))) t)) (rc 0)) k = rc (ln (cmod (dft N x k)))).
  { intros k Hk. rewrite (cdft_ext N _ (icdft N (fun k => rc (ln (cmod (dft N x k)))))) by (intros; now apply nth_mk'). now rewrite cdft_icdft. }
  split.
  - intros k Hk. rewrite Sp by auto. cbn [fst snd rc]. split; auto. apply exp_ln. apply cmod_pos. now apply NZ.
  - intros d Hd t Ht. apply (cdft_inj N d (fun t => nth t (mk N (fun t => icdft N (fun k => rc (ln (cmod (dft N x k)))) t)) (rc 0))); auto. intros k Hk. rewrite Sp by auto. now apply Hd.
Qed.
Print Assumptions C76_real_cepstrum.

Lemma cmod_mul a b : cmod (cmul a b) = cmod a * cmod b.
Proof. unfold cmod. rewrite cabs2_mul. apply sqrt_mult; apply cabs2_nonneg. Qed.
Lemma cmul_nonzero a b : a <> rc 0 -> b <> rc 0 -> cmul a b <> rc 0.
Proof. intros Ha Hb E. pose proof (cmod_pos a Ha). pose proof (cmod_pos b Hb). assert (Q : cmod (cmul a b) = 0). { rewrite E. unfold cmod, cabs2. cbn [fst snd rc]. replace (0 * 0 + 0 * 0) with 0 by ring. apply sqrt_0. } rewrite cmod_mul in Q. nra. Qed.
(** Filtering becomes addition: the real cepstrum of a circular convolution is the sum of the real cepstra. *)
Theorem C76_real_cepstrum_convolution x h y cx ch : length h = length x -> length y = length x ->
  (forall t, (t < length x)%nat -> get y t = circ (length x) x h t) -> real_cepstrum x = Some cx -> real_cepstrum h = Some ch ->
  exists cy, real_cepstrum y = Some cy /\ length cy = length x /\ forall t, (t < length x)%nat -> nth t cy (rc 0) = cadd (nth t cx (rc 0)) (nth t ch (rc 0)).
Proof.
  intros Lh Ly Hy Hx Hh. assert (NX : nonzero_bins x) by (apply (proj2 (C76_cepstrum_defined x)); congruence). assert (NH : nonzero_bins h) by (apply (proj2 (C76_cepstrum_defined h)); congruence).
  unfold nonzero_bins in NH. rewrite Lh in NH. unfold nonzero_bins in NX. set (N := length x) in *.
  assert (D : forall k, (k < N)%nat -> dft N y k = cmul (dft N x k) (dft N h k)). { intros k Hk. now apply dft_circ. }
  assert (NY : nonzero_bins y). { unfold nonzero_bins. rewrite Ly. intros k Hk. rewrite D by auto. apply cmul_nonzero; auto. }
  destruct (real_cepstrum y) as [cy|] eqn:E. 2:{ exfalso. destruct (C76_cepstrum_defined y) as [_ [_ Q]]. now apply Q. }
  exists cy. split; auto.
  destruct (C76_real_cepstrum x cx Hx) as (_ & _ & _ & SX & _). destruct (C76_real_cepstrum h ch Hh) as (_ & _ & _ & SH & _).
  destruct (C76_real_cepstrum y cy E) as (L & _ & _ & _ & U). fold N in SX. rewrite Lh in SH. rewrite Ly in L, U. split; auto.
  intros t Ht. symmetry. apply (U (fun t => cadd (nth t cx (rc 0)) (nth t ch (rc 0)))); auto.
  intros k Hk. rewrite D, cmod_mul by auto.
  assert (A : cdft N (fun t => cadd (nth t cx (rc 0)) (nth t ch (rc 0))) k = cadd (cdft N (fun t => nth t cx (rc 0)) k) (cdft N (fun t => nth t ch (rc 0)) k)).
  { unfold cdft. rewrite <- (sum_add (HA := CRing_C)). apply (sum_ext (HA := CRing_C)). intros j Hj. apply c_ext; simpl; ring. }
  rewrite A. destruct (SX k Hk) as (S1 & S2), (SH k Hk) as (T1 & T2). rewrite <- S1, <- T1, <- exp_plus, ln_exp. apply c_ext; cbn [fst snd cadd rc]; lra.
Qed.
Print Assumptions C76_real_cepstrum_convolution.

Lemma dft_2 (a b : R) : dft 2 [a; b] 0 = rc (a + b) /\ dft 2 [a; b] 1 = rc (a - b).
Proof.
  assert (W : root 2 (-1) = rc (-1)). { unfold root. replace (2 * PI * -1 / INR 2) with (- PI) by (simpl; field). rewrite cis_opp. unfold cis. rewrite cos_PI, sin_PI. apply c_ext; simpl; ring. }
  unfold dft. cbn [sum Z.of_nat Z.mul Z.opp Pos.of_succ_nat Pos.mul]. unfold get. cbn [nth]. change (-0)%Z with 0%Z. rewrite !root_0, W. split; apply c_ext; simpl; ring.
Qed.
Example C76_cepstrum_example : exists cs, map complex_cepstrum [[1; 1 / 2]; [-1; 1 / 4]] = map Some cs /\ shape [[1; 1 / 2]; [-1; 1 / 4]] 2 2 /\
  real_cepstrum [1; 1 / 2] <> None.
Proof.
  assert (A : forall a b, a + b <> 0 -> a - b <> 0 -> nonzero_bins [a; b]).
  { intros a b H1 H2 k Hk. destruct (dft_2 a b) as (E0 & E1). cbn [length] in *. destruct k as [|[|k]]; [rewrite E0|rewrite E1|lia]; intros E; injection E; lra. }
  pose proof (A 1 (1 / 2) ltac:(lra) ltac:(lra)) as N1. pose proof (A (-1) (1 / 4) ltac:(lra) ltac:(lra)) as N2.
  destruct (complex_cepstrum [1; 1 / 2]) as [c|] eqn:E1. 2:{ exfalso. now apply (proj2 (proj1 (C76_cepstrum_defined [1; 1 / 2])) N1). }
  destruct (complex_cepstrum [-1; 1 / 4]) as [d|] eqn:E2. 2:{ exfalso. now apply (proj2 (proj1 (C76_cepstrum_defined [-1; 1 / 4])) N2). }
  exists [c; d]. split. cbn [map]. now rewrite E1, E2. split. repeat constructor. now apply (proj2 (C76_cepstrum_defined [1; 1 / 2])).
Qed.
(** The complex cepstrum has no such law: phases are principal values. One sample of delay, applied twice in a circle of two samples, gives the
    unit impulse with cepstrum 0, while the cepstra add up to something else. *)
Theorem C76_complex_cepstrum_sum_refuted : exists x y cx cy, length y = length x /\ (forall t, (t < length x)%nat -> get y t = circ (length x) x x t) /\
  complex_cepstrum x = Some cx /\ complex_cepstrum y = Some cy /\ nth 0 cy (rc 0) <> cadd (nth 0 cx (rc 0)) (nth 0 cx (rc 0)).
Proof.
  destruct (dft_2 0 1) as (A0 & A1), (dft_2 1 0) as (B0 & B1).
  assert (Z : forall v, v <> 0 -> c_is_zero (rc v) = false). { intros v Hv. destruct (c_is_zero (rc v)) eqn:E; auto. apply c_is_zero_spec in E. injection E; congruence. }
  exists [0; 1], [1; 0]. eexists. eexists. split; [reflexivity|]. split.
  { intros t Ht. cbn [length] in *. unfold circ, get. destruct t as [|[|t]]; [| |lia]; cbn; ring. }
  unfold complex_cepstrum, any_zero. cbn [length seq existsb]. rewrite A0, A1, B0, B1, !Z by lra. cbn [orb].
  split; [reflexivity|]. split; [reflexivity|]. rewrite !nth_mk' by lia. unfold icdft. cbn [sum]. rewrite A0, A1, B0, B1. change (Z.of_nat 0) with 0%Z. rewrite !Z.mul_0_r, !root_0.
  unfold clog. intros E. apply (f_equal snd) in E. revert E.
  assert (M : forall v, cmod (rc v) = Rabs v). { intros v. unfold cmod, cabs2. cbn [fst snd rc]. replace (v * v + 0 * 0) with (Rsqr v) by (unfold Rsqr; ring). apply sqrt_Rsqr_abs. }
  assert (G : angle (rc (0 - 1)) = PI). { unfold angle. rewrite Z by lra. destruct (Rle_dec 0 (snd (rc (0 - 1)))) as [_|N]; [|exfalso; apply N; cbn; lra]. rewrite M. cbn [fst rc]. replace (0 - 1) with (Ropp 1) by lra. rewrite Rabs_Ropp, Rabs_R1. replace (Ropp 1 / 1) with (Ropp 1) by field. rewrite acos_opp, acos_1. lra. }
  assert (G1 : angle (rc 1) = 0). { unfold angle. rewrite Z by lra. destruct (Rle_dec 0 (snd (rc 1))) as [_|N]; [|exfalso; apply N; cbn; lra]. rewrite M. cbn [fst rc]. rewrite Rabs_R1. replace (1 / 1) with 1 by field. apply acos_1. }
  replace (0 + 1) with 1 by ring. replace (1 + 0) with 1 by ring. replace (1 - 0) with 1 by ring. rewrite G, G1. cbn [fst snd cdivr cmul cadd rc radd r0 CRing_C INR]. intros E. pose proof PI_RGT_0.
  replace (1 + 1) with 2 in E by lra. lra.
Qed.
Print Assumptions C76_complex_cepstrum_sum_refuted.

(** ** The analytic signal *)
Lemma weight_pair N k : (k < N)%nat -> analytic_weight N k + analytic_weight N (rflx N k) = 2.
Proof.
  intros Hk. pose proof (Nat.div_mod N 2 ltac:(lia)) as D. pose proof (Nat.mod_upper_bound N 2 ltac:(lia)) as B.
  pose proof (Nat.div_mod (N + 1) 2 ltac:(lia)) as D1. pose proof (Nat.mod_upper_bound (N + 1) 2 ltac:(lia)) as B1.
  unfold analytic_weight. destruct (Nat.eq_dec k 0) as [->|H0]. { rewrite rflx_0. destruct (Nat.even N); simpl; ring. }
  rewrite rflx_pos by lia. destruct (Nat.even N) eqn:Ev.
  - apply Nat.even_spec in Ev. destruct Ev as [h Hh]. assert (N mod 2 = 0)%nat by (rewrite Hh, Nat.mul_comm; apply Nat.mod_mul; lia).
    destruct (Nat.eqb_spec k 0); [lia|]. destruct (Nat.eqb_spec (N - k) 0); [lia|].
    destruct (Nat.ltb_spec k (N / 2)), (Nat.ltb_spec (N - k) (N / 2)), (Nat.eqb_spec k (N / 2)), (Nat.eqb_spec (N - k) (N / 2)); try lia; ring.
  - assert (N mod 2 = 1)%nat. { rewrite <- Nat.negb_odd in Ev. apply negb_false_iff, Nat.odd_spec in Ev. destruct Ev as [h ->]. replace (2 * h + 1)%nat with (1 + h * 2)%nat by lia. rewrite Nat.mod_add by lia. reflexivity. }
    assert ((N + 1) mod 2 = 0)%nat. { pose proof (Nat.add_mod N 1 2 ltac:(lia)) as Q. rewrite Q, H. reflexivity. }
    destruct (Nat.eqb_spec k 0); [lia|]. destruct (Nat.eqb_spec (N - k) 0); [lia|].
    destruct (Nat.ltb_spec k ((N + 1) / 2)), (Nat.ltb_spec (N - k) ((N + 1) / 2)); try lia; ring.
Qed.
Lemma weight_cases N k : (k < N)%nat -> analytic_weight N k = if (k =? 0)%nat then 1 else if (2 * k <? N)%nat then 2 else if (2 * k =? N)%nat then 1 else 0.
Proof.
  intros Hk. pose proof (Nat.div_mod N 2 ltac:(lia)) as D. pose proof (Nat.mod_upper_bound N 2 ltac:(lia)) as B.
  pose proof (Nat.div_mod (N + 1) 2 ltac:(lia)) as D1. pose proof (Nat.mod_upper_bound (N + 1) 2 ltac:(lia)) as B1.
  unfold analytic_weight. destruct (Nat.eqb_spec k 0). { now destruct (Nat.even N). } destruct (Nat.even N) eqn:Ev.
  - apply Nat.even_spec in Ev. destruct Ev as [h Hh]. assert (N mod 2 = 0)%nat by (rewrite Hh, Nat.mul_comm; apply Nat.mod_mul; lia).
    destruct (Nat.ltb_spec k (N / 2)), (Nat.ltb_spec (2 * k) N), (Nat.eqb_spec k (N / 2)), (Nat.eqb_spec (2 * k) N); try lia; reflexivity.
  - assert (N mod 2 = 1)%nat. { rewrite <- Nat.negb_odd in Ev. apply negb_false_iff, Nat.odd_spec in Ev. destruct Ev as [h ->]. replace (2 * h + 1)%nat with (1 + h * 2)%nat by lia. rewrite Nat.mod_add by lia. reflexivity. }
    assert ((N + 1) mod 2 = 0)%nat. { pose proof (Nat.add_mod N 1 2 ltac:(lia)) as Q. rewrite Q, H. reflexivity. }
    destruct (Nat.ltb_spec k ((N + 1) / 2)), (Nat.ltb_spec (2 * k) N), (Nat.eqb_spec (2 * k) N); try lia; reflexivity.
Qed.
Lemma icdft_weight_conj N (w : nat -> R) x t : (0 < N)%nat ->
  cconj (icdft N (fun k => cmul (rc (w k)) (dft N x k)) t) = icdft N (fun k => cmul (rc (w (rflx N k))) (dft N x k)) t.
Proof.
  intros HN. unfold icdft. transitivity (cdivr (cconj (csum N (fun k => cmul (cmul (rc (w k)) (dft N x k)) (root N (Z.of_nat k * Z.of_nat t))))) (INR N)).
  { unfold cdivr, cconj. apply c_ext; cbn [fst snd]; unfold Rdiv; ring. }
  f_equal. rewrite csum_conj, csum_reflect by auto. apply (sum_ext (HA := CRing_C)). intros k Hk. change ((N - k) mod N)%nat with (rflx N k).
  rewrite !cconj_mul. rewrite root_rflx by auto. assert (E : cconj (dft N x (rflx N k)) = dft N x k).
  { destruct (Nat.eq_dec k 0) as [->|Hk0]. - rewrite rflx_0. assert (R0 : dft N x 0 = cconj (dft N x 0)).
      { unfold dft. rewrite csum_conj. apply (sum_ext (HA := CRing_C)). intros j Hj. change (Z.of_nat 0) with 0%Z. rewrite Z.mul_0_r. change (-0)%Z with 0%Z. rewrite root_0. apply c_ext; simpl; ring. }
      now symmetry.
    - rewrite rflx_pos by lia. rewrite dft_conj by lia. apply cconj_conj. }
  rewrite E. f_equal. { f_equal. apply c_ext; simpl; ring. } apply cconj_conj.
Qed.
Lemma analytic_re x t : (t < length x)%nat -> fst (nth t (analytic x) (rc 0)) = get x t.
Proof.
  intros Ht. unfold analytic. set (N := length x) in *. rewrite nth_mk' by auto.
  pose proof (icdft_weight_conj N (analytic_weight N) x t ltac:(lia)) as E.
  assert (Sm : cadd (icdft N (fun k => cmul (rc (analytic_weight N k)) (dft N x k)) t) (icdft N (fun k => cmul (rc (analytic_weight N (rflx N k))) (dft N x k)) t) = rc (2 * get x t)).
  { transitivity (cmul (rc 2) (icdft N (cdft N (fun t => rc (get x t))) t)).
    2:{ rewrite icdft_cdft by auto. apply c_ext; simpl; ring. }
    unfold icdft. rewrite !cdivr_mul. transitivity (cmul (rc (/ INR N)) (cadd (csum N (fun k => cmul (cmul (rc (analytic_weight N k)) (dft N x k)) (root N (Z.of_nat k * Z.of_nat t)))) (csum N (fun k => cmul (cmul (rc (analytic_weight N (rflx N k))) (dft N x k)) (root N (Z.of_nat k * Z.of_nat t)))))).
    { apply c_ext; simpl; ring. }
    rewrite cmul_assoc, (cmul_comm (rc 2)), <- cmul_assoc. f_equal.
    change cadd with (@radd C CRing_C) at 1. rewrite <- (sum_add (HA := CRing_C)). change (@cmul (rc 2)) with (@rmul C CRing_C (rc 2)). rewrite <- (sum_scal_l (HA := CRing_C)).
    apply (sum_ext (HA := CRing_C)). intros k Hk. rewrite dft_cdft. pose proof (weight_pair N k Hk) as P.
    set (X := cdft N (fun t => rc (get x t)) k). set (W := root N _). replace (analytic_weight N (rflx N k)) with (2 - analytic_weight N k) by lra. apply c_ext; simpl; ring. }
  rewrite <- E in Sm. apply (f_equal fst) in Sm. cbn [fst cadd cconj rc] in Sm. lra.
Qed.
Lemma analytic_spectrum x k : (k < length x)%nat -> cdft (length x) (fun t => nth t (analytic x) (rc 0)) k = cmul (rc (analytic_weight (length x) k)) (dft (length x) x k).
Proof.
  intros Hk. unfold analytic. rewrite (cdft_ext _ _ (icdft (length x) (fun k => cmul (rc (analytic_weight (length x) k)) (dft (length x) x k)))) by (intros; now apply nth_mk').
  now rewrite cdft_icdft.
Qed.
(** The analytic signal: its real part is the signal, all its negative-frequency bins vanish, the bins at 0 and fs/2 are those of the signal and
    the bins in between are doubled. *)
Theorem C76_hilbert x : let N := length x in let z := fun t => nth t (analytic x) (rc 0) in
  length (analytic x) = N /\ (forall t, (t < N)%nat -> fst (z t) = get x t) /\
  (forall k, (k < N)%nat -> (N < 2 * k)%nat -> cdft N z k = rc 0) /\
  (forall k, (k < N)%nat -> k = 0%nat \/ (2 * k = N)%nat -> cdft N z k = dft N x k) /\
  (forall k, (0 < k)%nat -> (2 * k < N)%nat -> cdft N z k = cmul (rc 2) (dft N x k)).
Proof.
  intros N z. split; [apply mk_length|]. split; [intros; now apply analytic_re|].
  split; [|split].
  - intros k Hk H. unfold z, N. rewrite analytic_spectrum, weight_cases by auto. fold N. destruct (Nat.eqb_spec k 0); [lia|]. destruct (Nat.ltb_spec (2 * k) N); [lia|]. destruct (Nat.eqb_spec (2 * k) N); [lia|]. apply cmul_rc0.
  - intros k Hk H. unfold z, N. rewrite analytic_spectrum, weight_cases by auto. fold N. destruct (Nat.eqb_spec k 0). apply cmul_rc1. destruct (Nat.ltb_spec (2 * k) N); [lia|]. destruct (Nat.eqb_spec (2 * k) N); [|lia]. apply cmul_rc1.
  - intros k Hk H. unfold z, N. rewrite analytic_spectrum, weight_cases by (fold N; lia). fold N. destruct (Nat.eqb_spec k 0); [lia|]. destruct (Nat.ltb_spec (2 * k) N); [|lia]. reflexivity.
Qed.
Print Assumptions C76_hilbert.

Lemma cdft_im N (v : nat -> R) k : cdft N (fun t => (0, v t)) k = cmul (0, 1) (cdft N (fun t => rc (v t)) k).
Proof. unfold cdft. change (cmul (0, 1)) with (@rmul C CRing_C (0, 1)). rewrite <- (sum_scal_l (HA := CRing_C)). apply (sum_ext (HA := CRing_C)). intros. apply c_ext; simpl; ring. Qed.
(** These facts determine it: any sequence with this real part, without negative frequencies and with real bins at 0 and fs/2, is the analytic signal. *)
Theorem C76_hilbert_unique x (y : nat -> C) : let N := length x in
  (forall t, (t < N)%nat -> fst (y t) = get x t) -> (forall k, (k < N)%nat -> (N < 2 * k)%nat -> cdft N y k = rc 0) ->
  (forall k, (k < N)%nat -> k = 0%nat \/ (2 * k = N)%nat -> snd (cdft N y k) = 0) ->
  forall t, (t < N)%nat -> y t = nth t (analytic x) (rc 0).
Proof.
  intros N Hre Hneg Hreal t Ht. destruct (C76_hilbert x) as (_ & RE & Ng & Md & _). fold N in RE, Ng, Md.
  set (z := fun t => nth t (analytic x) (rc 0)) in *. set (v := fun t => snd (y t) - snd (z t)).
  assert (D : forall k, cdft N y k = cadd (cdft N z k) (cmul (0, 1) (cdft N (fun t => rc (v t)) k))).
  { intros k. rewrite <- cdft_im. unfold cdft. change cadd with (@radd C CRing_C). rewrite <- (sum_add (HA := CRing_C)). apply (sum_ext (HA := CRing_C)). intros j Hj. cbv beta.
    pose proof (Hre j Hj) as A1. assert (A2 : fst (z j) = get x j) by (now apply RE). unfold v. apply c_ext; simpl; rewrite A1, A2; ring. }
  assert (V : forall k, (k < N)%nat -> (N < 2 * k)%nat -> cdft N (fun t => rc (v t)) k = rc 0).
  { intros k Hk H. pose proof (D k) as E. rewrite Hneg, Ng in E by auto. set (q := cdft N (fun t => rc (v t)) k) in *. pose proof (f_equal fst E) as E1. pose proof (f_equal snd E) as E2. simpl in E1, E2. apply c_ext; simpl; lra. }
  assert (M0 : forall k, (k < N)%nat -> k = 0%nat \/ (2 * k = N)%nat -> cdft N (fun t => rc (v t)) k = rc 0).
  { intros k Hk H. pose proof (D k) as E. pose proof (Hreal k Hk H) as E0. rewrite (Md k Hk H) in E.
    assert (IM : forall w : nat -> R, snd (cdft N (fun t => rc (w t)) k) = 0).
    { intros w. destruct H as [->|H]. - rewrite cdft_rc_snd. rewrite (sum_zero' (HA := CRing_R)). change (@r0 R CRing_R) with 0. ring. intros j Hj. rewrite root_zero_r. change (@r0 R CRing_R) with 0. simpl. ring.
      - pose proof (cdft_real_refl N w k ltac:(lia)) as Q. replace (N - k)%nat with k in Q by lia. apply (f_equal snd) in Q. cbn [snd cconj] in Q. lra. }
    pose proof (IM v) as I1. pose proof (IM (get x)) as I2. rewrite <- dft_cdft in I2. set (q := cdft N (fun t => rc (v t)) k) in *. rewrite E in E0. simpl in E0. apply c_ext; simpl; lra. }
  assert (Z : forall k, (k < N)%nat -> cdft N (fun t => rc (v t)) k = cdft N (fun _ => rc 0) k).
  { intros k Hk. transitivity (rc 0). 2:{ symmetry. unfold cdft. apply (sum_zero' (HA := CRing_C)). intros. apply cmul_rc0. }
    destruct (Nat.eq_dec k 0); [apply M0; auto|]. destruct (Nat.eq_dec (2 * k) N); [apply M0; auto|]. destruct (Nat.lt_ge_cases N (2 * k)); [now apply V|].
    assert (Q : cdft N (fun t => rc (v t)) (N - k) = rc 0) by (apply V; lia). rewrite cdft_real_refl in Q by lia. rewrite <- (cconj_conj (cdft N (fun t => rc (v t)) k)), Q. apply c_ext; simpl; ring. }
  pose proof (cdft_inj N _ _ Z t Ht) as E. injection E as E. unfold v in E. apply c_ext. rewrite Hre by auto. symmetry. now apply RE. change (nth t (analytic x) (rc 0)) with (z t). lra.
Qed.
Print Assumptions C76_hilbert_unique.

(** Quadrature: a cosine at a bin strictly between 0 and fs/2, of any amplitude and phase, gets the sine as imaginary part. *)
Theorem C76_hilbert_quadrature N k A phi : (0 < k)%nat -> (2 * k < N)%nat ->
  let arg := fun t => 2 * PI * INR k * INR t / INR N + phi in
  forall t, (t < N)%nat -> nth t (analytic (mk N (fun t => A * cos (arg t)))) (rc 0) = (A * cos (arg t), A * sin (arg t)).
Proof.
  intros Hk H2 arg t Ht. symmetry. set (x := mk N (fun t => A * cos (arg t))). assert (L : length x = N) by apply mk_length. pose proof (INR_pos N ltac:(lia)) as NP.
  pose proof (C76_hilbert_unique x (fun t => (A * cos (arg t), A * sin (arg t)))) as U. cbv zeta in U. rewrite L in U.
  assert (D : forall j, (j < N)%nat -> j <> k -> cdft N (fun t => (A * cos (arg t), A * sin (arg t))) j = rc 0).
  { intros j Hj Hjk. unfold cdft. rewrite (sum_ext (HA := CRing_C) N _ (fun s => cmul (cmul (rc A) (cis phi)) (root N (Z.of_nat s * (Z.of_nat k - Z.of_nat j))))).
    - change cmul with (@rmul C CRing_C). rewrite (sum_scal_l (HA := CRing_C)). rewrite root_sum by lia.
      destruct (Z.eqb_spec ((Z.of_nat k - Z.of_nat j) mod Z.of_nat N) 0) as [E|E].
      + exfalso. apply Z.mod_divide in E; [|lia]. destruct E as [q E]. assert (q = 0)%Z by nia. nia.
      + apply c_ext; simpl; ring.
    - intros s Hs. transitivity (cmul (cmul (rc A) (cis (arg s))) (root N (- (Z.of_nat s * Z.of_nat j)))). { apply c_ext; simpl; ring. }
      unfold arg. rewrite (Rplus_comm _ phi), cis_add. replace (cis (2 * PI * INR k * INR s / INR N)) with (root N (Z.of_nat s * Z.of_nat k)).
      2:{ unfold root. f_equal. rewrite mult_IZR, <- !INR_IZR_INZ. unfold Rdiv. ring. }
      rewrite cmul_assoc, <- cmul_assoc, <- root_add. f_equal. f_equal. ring. }
  apply U; auto.
  - intros s Hs. unfold x. now rewrite (get_mk (HA := CRing_R)).
  - intros j Hj H. apply D; lia.
  - intros j Hj H. rewrite D by lia. reflexivity.
Qed.
Print Assumptions C76_hilbert_quadrature.

(** hilbert of a Signal: every channel is replaced with its analytic signal, real part in time_data and imaginary part in time_data_imaginary,
    both times the same reported scale factor, which is 1 unless the signal is amplitude-constrained and one of the two parts exceeds 1. *)
Theorem C76_hilbert_signal s n k : shape (s_re s) n k -> (1 <= k <= n)%nat -> (n * k <> 1)%nat ->
  exists s' im p, hilbert_signal s = Ok s' /\ s_im s' = Some im /\ shape (s_re s') n k /\ shape im n k /\ s_fs s' = s_fs s /\ s_constr s' = s_constr s /\
    (forall i c, (i < n)%nat -> (c < k)%nat -> entry (s_re s') i c = s_scale s' * entry (s_re s) i c /\
       entry im i c = s_scale s' * snd (nth i (analytic (nth c (s_re s) [])) (rc 0))) /\
    s_scale s' = (if s_constr s then if Rlt_dec 1 p then 1 / p else 1 else 1) /\
    (forall i c, (i < n)%nat -> (c < k)%nat -> Rabs (entry (s_re s) i c) <= p /\ Rabs (snd (nth i (analytic (nth c (s_re s) [])) (rc 0))) <= p) /\
    (exists i c, (i < n)%nat /\ (c < k)%nat /\ (p = Rabs (entry (s_re s) i c) \/ p = Rabs (snd (nth i (analytic (nth c (s_re s) [])) (rc 0))))).
Proof.
  intros Hs Hk H1. pose proof (proj1 Hs) as Lk.
  assert (LA : forall x, In x (s_re s) -> length x = n) by (intros x Hx; destruct Hs as [_ F]; rewrite Forall_forall in F; auto).
  assert (Sh : forall f : C -> R, shape (map (fun x => map f (analytic x)) (s_re s)) n k).
  { intros f. rewrite <- Lk. apply shape_mk_map. intros x Hx. rewrite map_length. unfold analytic. rewrite mk_length. auto. }
  assert (En : forall (f : C -> R) i c, (i < n)%nat -> (c < k)%nat -> entry (map (fun x => map f (analytic x)) (s_re s)) i c = f (nth i (analytic (nth c (s_re s) [])) (rc 0))).
  { intros f i c Hi Hc. rewrite (entry_map _ _ []) by lia. rewrite (nth_indep _ 0 (f (rc 0))) by (rewrite map_length; unfold analytic; rewrite mk_length, (shape_len _ n k) by auto; auto). apply map_nth. }
  assert (Re : forall i c, (i < n)%nat -> (c < k)%nat -> fst (nth i (analytic (nth c (s_re s) [])) (rc 0)) = entry (s_re s) i c).
  { intros i c Hi Hc. rewrite analytic_re by (now rewrite (shape_len _ n k)). reflexivity. }
  unfold hilbert_signal, set_data.
  destruct (stored (s_constr s) (s_fs s) (mkIn (map (fun x => map fst (analytic x)) (s_re s)) (Some (map (fun x => map snd (analytic x)) (s_re s))) false) n k)
    as (p & s' & P & Es & A & B & D & F & G & I); auto.
  { split. apply Sh. intros im E. injection E as <-. apply Sh. }
  cbn [i_re i_im] in *. destruct I as (im & I1 & I2 & I3). destruct P as (P1 & P2). exists s', im, p. repeat (split; [assumption|]). split.
  { intros i c Hi Hc. rewrite G, I3, !En by auto. rewrite Re by auto. auto. }
  split; [assumption|]. split.
  - intros i c Hi Hc. destruct (P1 i c Hi Hc) as (Q1 & Q2). cbn [i_re] in Q1. rewrite En, Re in Q1 by auto. specialize (Q2 _ eq_refl). rewrite En in Q2 by auto. auto.
  - destruct P2 as (i & c & Hi & Hc & Q). exists i, c. split; auto. split; auto. destruct Q as [Q|(im' & E & Q)].
    + left. cbn [i_re] in Q. rewrite En, Re in Q by auto. exact Q.
    + right. injection E as <-. rewrite En in Q by auto. exact Q.
Qed.
Print Assumptions C76_hilbert_signal.

Lemma root3 : root 3 1 = (- (1 / 2), sqrt 3 / 2) /\ root 3 (-1) = (- (1 / 2), - (sqrt 3 / 2)) .
Proof.
  assert (E : root 3 1 = (- (1 / 2), sqrt 3 / 2)). { unfold root, cis. replace (2 * PI * 1 / INR 3) with (2 * (PI / 3)) by (simpl; field). rewrite cos_2PI3, sin_2PI3. f_equal. field. }
  split; auto. change (-1)%Z with (Z.opp 1). rewrite root_opp, E. reflexivity.
Qed.
(** The documented construction (time_data is the real signal) fails for amplitude-constrained signals: with the samples 0, 1, -1 the imaginary
    part reaches -2 / sqrt 3, and both parts are scaled with sqrt 3 / 2. *)
Theorem C76_hilbert_constrained_refuted : exists s s', s_re s = [[0; 1; -1]] /\ s_constr s = true /\ hilbert_signal s = Ok s' /\
  s_scale s' < 1 /\ forall m, s_re s' = [m] -> m <> [0; 1; -1].
Proof.
  set (s := mkSig [[0; 1; -1]] None 1 true 48000). destruct (C76_hilbert_signal s 3 1) as (s' & im & p & E & _ & Sh & _ & _ & _ & V & Sc & P & _).
  { split; [reflexivity|]. repeat constructor. } lia. lia.
  exists s, s'. split; [reflexivity|]. split; [reflexivity|]. split; [assumption|].
  assert (Q : sqrt 3 * sqrt 3 = 3) by (apply sqrt_sqrt; lra). assert (Q0 : 0 < sqrt 3) by (apply sqrt_lt_R0; lra).
  assert (I : snd (nth 0 (analytic [0; 1; -1]) (rc 0)) = - (2 / 3 * sqrt 3)).
  { destruct root3 as (R1 & R2). assert (R3 : root 3 (-2) = root 3 1). { change (-2)%Z with (1 + Z.of_nat 3 * (-1))%Z. rewrite root_add, root_period by lia. apply c_ext; simpl; ring. }
    assert (R4 : root 3 (-4) = root 3 (-1)). { change (-4)%Z with (-1 + Z.of_nat 3 * (-1))%Z. rewrite root_add, root_period by lia. apply c_ext; simpl; ring. }
    assert (D1 : dft 3 [0; 1; -1] 1 = (0, - sqrt 3)). { unfold dft. cbn [sum Z.of_nat Z.mul Z.opp Pos.of_succ_nat Pos.succ Pos.mul]. unfold get. cbn [nth]. change (-0)%Z with 0%Z. rewrite R3, R1, R2, root_0. apply c_ext; simpl; field. }
    unfold analytic. rewrite nth_mk' by (cbn; lia). unfold icdft. cbn [length]. unfold cdivr. cbn [snd sum]. change (Z.of_nat 0) with 0%Z. rewrite !Z.mul_0_r, !root_0, D1.
    replace (analytic_weight 3 1) with 2 by reflexivity. replace (analytic_weight 3 2) with 0 by reflexivity. replace (analytic_weight 3 0) with 1 by reflexivity.
    assert (D0 : snd (dft 3 [0; 1; -1] 0) = 0). { pose proof (dft_conj 3 [0; 1; -1] 0 ltac:(lia) ltac:(lia)) as Q1. unfold dft. cbn [sum Z.of_nat Z.mul]. rewrite ?Z.mul_0_r. change (-0)%Z with 0%Z. rewrite root_0. simpl. ring. }
    revert D0. generalize (dft 3 [0; 1; -1] 0) (dft 3 [0; 1; -1] 2). intros d0 d2 D0. simpl. rewrite D0. field. }
  destruct (P 0%nat 0%nat ltac:(lia) ltac:(lia)) as (_ & P0). cbn [s_re s nth] in P0. rewrite I in P0. rewrite Rabs_Ropp, Rabs_pos_eq in P0 by lra.
  assert (1 < p) by nra. cbn [s_constr s] in Sc. destruct (Rlt_dec 1 p); [|lra].
  assert (S1 : s_scale s' < 1). { rewrite Sc. apply (Rmult_lt_reg_l p); [lra|]. replace (p * (1 / p)) with 1 by (field; lra). lra. }
  split; auto. intros m Em Q'. destruct (V 1%nat 0%nat ltac:(lia) ltac:(lia)) as (V1 & _). rewrite Em, Q' in V1. unfold entry, s in V1. cbn [nth s_re] in V1. lra.
Qed.
Print Assumptions C76_hilbert_constrained_refuted.

(** hilbert of a MultiBandSignal is done band by band; it fails exactly when one band fails. *)
Theorem C76_hilbert_bands bands out : hilbert_bands bands = Ok out <->
  length out = length bands /\ forall b d, (b < length bands)%nat -> hilbert_signal (nth b bands d) = Ok (nth b out d).
Proof.
  unfold hilbert_bands. revert out. induction bands as [|s bands IH]; intros out; cbn [map all_ok].
  - split. + intros E. injection E as <-. split; auto. cbn. intros; lia. + intros (E & _). destruct out; [reflexivity|discriminate].
  - destruct (hilbert_signal s) as [s'|e] eqn:E.
    + destruct (all_ok (map hilbert_signal bands)) as [r|e] eqn:Er; cbn [bind].
      * split. { intros Q. injection Q as <-. destruct (proj1 (IH r) eq_refl) as (L & F). split. cbn. now rewrite L. intros [|b] d Hb; cbn [nth]. auto. apply F. cbn in Hb. lia. }
        { intros (L & F). destruct out as [|o out]; [discriminate|]. pose proof (F 0%nat s ltac:(cbn; lia)) as F0. cbn [nth] in F0. rewrite E in F0. injection F0 as <-. f_equal. f_equal.
          assert (Q : Ok r = Ok out). { rewrite <- (proj2 (IH out)). reflexivity. split. cbn in L. lia. intros b d Hb. apply (F (S b) d). cbn. lia. } now injection Q. }
      * split; [discriminate|]. intros (L & F). destruct out as [|o out]; [discriminate|].
        assert (Q : Err e = Ok out). { rewrite <- (proj2 (IH out)). reflexivity. split. cbn in L. lia. intros b d Hb. apply (F (S b) d). cbn. lia. } discriminate.
    + split; [discriminate|]. intros (L & F). pose proof (F 0%nat s ltac:(cbn; lia)) as F0. cbn [nth] in F0. rewrite E in F0. discriminate.
Qed.
Print Assumptions C76_hilbert_bands.
Example C76_hilbert_bands_example : exists o1 o2, hilbert_bands [mkSig [[1; 0]] None 1 true 10; mkSig [[0; 1]; [1; 0]] None 1 false 10] = Ok [o1; o2].
Proof.
  destruct (C76_hilbert_signal (mkSig [[1; 0]] None 1 true 10) 2 1) as (a & _ & _ & Ea & _). { split; [reflexivity|]. repeat constructor. } lia. lia.
  destruct (C76_hilbert_signal (mkSig [[0; 1]; [1; 0]] None 1 false 10) 2 2) as (b & _ & _ & Eb & _). { split; [reflexivity|]. repeat constructor. } lia. lia.
  exists a, b. unfold hilbert_bands. cbn [map all_ok]. now rewrite Ea, Eb.
Qed.

(** ** Mid/side *)
(** Exactly two channels are accepted. *)
Theorem C76_mid_side_channels f s n k : shape (s_re s) n k -> (1 <= k <= n)%nat -> (n * k <> 1)%nat -> ((exists s', stereo_mid_side f s = Ok s') <-> k = 2%nat) /\ (k <> 2%nat -> stereo_mid_side f s = Err AssertionError).
Proof.
  intros (L & F) Hk H1. unfold stereo_mid_side. destruct (s_re s) as [|l [|r [|q t]]] eqn:E; cbn [length] in L; try lia.
  - split; [split|]; intros; [destruct H; discriminate|lia|auto].
  - subst k. split; [|lia]. split; auto. intros _. inversion F as [|? ? Hl F' ]; subst. inversion F' as [|? ? Hr _]; subst.
    unfold set_data. match goal with |- exists s', set_time_data ?c ?fs ?x = _ => destruct (stored c fs x (length l) 2) as (p & s' & _ & Es & _) end; auto.
    { split. cbn [i_re]. split; [reflexivity|]. repeat constructor; apply mk_length. discriminate. } eauto.
  - split; [split|]; intros; [destruct H; discriminate|lia|auto].
Qed.
Print Assumptions C76_mid_side_channels.

(** The conversion of (l, r): mid = (l + r) / 2, side = (l - r) / 2 forwards, l = m + s, r = m - s backwards, times the scale factor. The forward
    conversion never rescales a signal within [-1, 1]. *)
Theorem C76_mid_side f s l r : s_re s = [l; r] -> length r = length l -> (2 <= length l)%nat ->
  exists s', stereo_mid_side f s = Ok s' /\ shape (s_re s') (length l) 2 /\ s_im s' = None /\ s_fs s' = s_fs s /\ s_constr s' = s_constr s /\
    (forall i, (i < length l)%nat -> entry (s_re s') i 0 = s_scale s' * ((get l i + get r i) / (if f then 2 else 1)) /\
       entry (s_re s') i 1 = s_scale s' * ((get l i - get r i) / (if f then 2 else 1))) /\
    (s_constr s = false -> s_scale s' = 1) /\
    (f = true -> (forall i, (i < length l)%nat -> Rabs (get l i) <= 1 /\ Rabs (get r i) <= 1) -> s_scale s' = 1) /\
    (f = false -> (forall i, (i < length l)%nat -> Rabs (get l i + get r i) <= 1 /\ Rabs (get l i - get r i) <= 1) -> s_scale s' = 1) /\ 0 < s_scale s' <= 1.
Proof.
  intros E Lr L2. unfold stereo_mid_side. rewrite E. unfold set_data.
  set (h := fun v : R => if f then v / 2 else v).
  match goal with |- exists s', set_time_data ?c ?fs ?x = _ /\ _ => destruct (stored c fs x (length l) 2) as (p & s' & P & Es & A & B & D & F & G & I) end; auto; try lia.
  { split. cbn [i_re]. split; [reflexivity|]. repeat constructor; apply mk_length. discriminate. }
  cbn [i_re i_im] in *.
  assert (EE : forall i, (i < length l)%nat -> entry [mk (length l) (fun t => h (get l t + get r t)); mk (length l) (fun t => h (get l t - get r t))] i 0 = h (get l i + get r i) /\
     entry [mk (length l) (fun t => h (get l t + get r t)); mk (length l) (fun t => h (get l t - get r t))] i 1 = h (get l i - get r i)).
  { intros i Hi. unfold entry. cbn [nth]. change (nth i ?x 0) with (get (A := R) x i). rewrite !(get_mk (HA := CRing_R)) by auto. auto. }
  assert (hE : forall v, h v = v / (if f then 2 else 1)). { intros v. unfold h. destruct f; field. }
  assert (PS : (forall i, (i < length l)%nat -> Rabs (h (get l i + get r i)) <= 1 /\ Rabs (h (get l i - get r i)) <= 1) -> s_scale s' = 1).
  { intros H. rewrite D. destruct (s_constr s); auto. destruct (Rlt_dec 1 p) as [Hp|]; auto. exfalso. destruct P as (_ & i & c & Hi & Hc & [Q|(im & Q & _)]); [|discriminate]. cbn [i_re] in Q.
    destruct (EE i Hi) as (E0 & E1). destruct (H i Hi). destruct c as [|[|c]]; [| |lia].
    - assert (Q' : p = Rabs (h (get l i + get r i))) by (rewrite <- E0; exact Q). lra.
    - assert (Q' : p = Rabs (h (get l i - get r i))) by (rewrite <- E1; exact Q). lra. }
  exists s'. repeat (split; [assumption|]). split.
  { intros i Hi. destruct (EE i Hi) as (E0 & E1). rewrite <- !hE, <- E0, <- E1. split; apply G; auto. }
  split. { intros Hc. rewrite D, Hc. reflexivity. }
  split. { intros -> H. apply PS. intros i Hi. destruct (H i Hi) as (H1 & H2). unfold h. split; apply Rabs_le; apply rabs_inv in H1; apply rabs_inv in H2; lra. }
  split. { intros -> H. apply PS. intros i Hi. exact (H i Hi). }
  rewrite D. destruct (s_constr s); [|lra]. destruct (Rlt_dec 1 p) as [Hp|]; [|lra]. split. apply Rdiv_lt_0_compat; lra. apply (Rmult_le_reg_l p); [lra|]. replace (p * (1 / p)) with 1 by (field; lra). lra.
Qed.
Print Assumptions C76_mid_side.

(** Converting a stereo signal to mid/side and back gives the signal itself: always without amplitude constraint, and with it for samples in [-1, 1]. *)
Theorem C76_mid_side_round_trip s l r : s_re s = [l; r] -> length r = length l -> (2 <= length l)%nat ->
  (s_constr s = true -> forall i, (i < length l)%nat -> Rabs (get l i) <= 1 /\ Rabs (get r i) <= 1) ->
  exists s1 s2, stereo_mid_side true s = Ok s1 /\ stereo_mid_side false s1 = Ok s2 /\ s_re s2 = [l; r] /\ s_scale s2 = 1.
Proof.
  intros E Lr L2 H. destruct (C76_mid_side true s l r E Lr L2) as (s1 & E1 & Sh1 & _ & _ & C1 & V1 & K1 & K1' & _ & _).
  assert (S1 : s_scale s1 = 1). { destruct (s_constr s) eqn:Ec; [apply K1'; auto|apply K1; auto]. }
  destruct Sh1 as (L1 & F1). destruct (s_re s1) as [|m [|d [|? ?]]] eqn:R1; cbn [length] in L1; try lia. inversion F1 as [|? ? Lm F']; subst. inversion F' as [|? ? Ld _]; subst.
  assert (VM : forall i, (i < length l)%nat -> get m i = (get l i + get r i) / 2 /\ get d i = (get l i - get r i) / 2).
  { intros i Hi. destruct (V1 i Hi) as (A & B). rewrite S1 in A, B. unfold entry in A, B. cbn [nth] in A, B. change (nth i ?x 0) with (get (A := R) x i) in A, B. lra. }
  destruct (C76_mid_side false s1 m d R1 ltac:(lia) ltac:(lia)) as (s2 & E2 & Sh2 & _ & _ & C2 & V2 & K2 & _ & K2' & _).
  assert (S2 : s_scale s2 = 1). { destruct (s_constr s) eqn:Ec; [|apply K2; congruence]. apply K2'; auto. intros i Hi. rewrite Lm in Hi. destruct (VM i Hi) as (-> & ->). destruct (H eq_refl i Hi) as (H1 & H2).
    replace ((get l i + get r i) / 2 + (get l i - get r i) / 2) with (get (A := R) l i) by field. replace ((get l i + get r i) / 2 - (get l i - get r i) / 2) with (get (A := R) r i) by field. auto. }
  exists s1, s2. split; auto. split; auto. split; auto. destruct Sh2 as (L3 & F2). destruct (s_re s2) as [|a [|b [|? ?]]] eqn:R2; cbn [length] in L3; try lia. inversion F2 as [|? ? La F'']; subst. inversion F'' as [|? ? Lb _]; subst.
  f_equal; [|f_equal].
  - apply list_ext_R with (N := length l); auto. congruence. intros i Hi. destruct (V2 i ltac:(lia)) as (A & _). destruct (VM i Hi) as (M1 & M2). rewrite S2, M1, M2 in A. unfold entry in A. cbn [nth] in A. change (nth i ?x 0) with (get (A := R) x i) in A. lra.
  - apply list_ext_R with (N := length l); auto. congruence. intros i Hi. destruct (V2 i ltac:(lia)) as (_ & A). destruct (VM i Hi) as (M1 & M2). rewrite S2, M1, M2 in A. unfold entry in A. cbn [nth] in A. change (nth i ?x 0) with (get (A := R) x i) in A. lra.
Qed.
Print Assumptions C76_mid_side_round_trip.
Example C76_mid_side_example : exists s1 s2, stereo_mid_side true (mkSig [[1; 0]; [-1; 1 / 2]] None 1 true 10) = Ok s1 /\ stereo_mid_side false s1 = Ok s2 /\ s_re s2 = [[1; 0]; [-1; 1 / 2]].
Proof.
  destruct (C76_mid_side_round_trip (mkSig [[1; 0]; [-1; 1 / 2]] None 1 true 10) [1; 0] [-1; 1 / 2]) as (s1 & s2 & A & B & D & _); auto.
  { intros _ i Hi. cbn in Hi. destruct i as [|[|i]]; [| |lia]; unfold get; cbn [nth]; split; apply Rabs_le; lra. } eauto.
Qed.
(** In the other order the round trip loses the level of an amplitude-constrained signal: mid = side = 1 comes back as 1/2, with scale factor 1. *)
Theorem C76_side_mid_round_trip_refuted : exists s s1 s2, s_re s = [[1; 0]; [1; 0]] /\ s_constr s = true /\ stereo_mid_side false s = Ok s1 /\ stereo_mid_side true s1 = Ok s2 /\
  s_re s2 = [[1 / 2; 0]; [1 / 2; 0]] /\ s_scale s2 = 1.
Proof.
  exists (mkSig [[1; 0]; [1; 0]] None 1 true 10). unfold stereo_mid_side at 1. cbn [s_re]. unfold set_data, set_time_data. cbn [i_re i_im s_constr s_fs nrows ncols length hd]. 
  unfold mk, get. cbn [seq map nth length Nat.eqb Nat.ltb Nat.leb andb option_map]. unfold peak, vpeak. cbn [fold_right].
  assert (V : forall a, 0 <= a -> Rmax a 0 = a) by (intros; apply Rmax_left; auto).
  replace (1 + 1) with 2 by ring. replace (0 + 0) with 0 by ring. replace (1 - 1) with 0 by ring. replace (0 - 0) with 0 by ring. rewrite !Rabs_R0, (Rabs_pos_eq 2) by lra. repeat first [rewrite (V 0) by lra | rewrite (V 2) by lra].
  destruct (Rlt_dec 1 2) as [_|N]; [|lra]. eexists. eexists. split; [reflexivity|]. split; [reflexivity|]. split; [reflexivity|].
  unfold stereo_mid_side. cbn [s_re mdiv map]. unfold set_data, set_time_data. cbn [i_re i_im s_constr s_fs nrows ncols length hd].
  unfold mk, get. cbn [seq map nth length Nat.eqb Nat.ltb Nat.leb andb option_map]. unfold peak, vpeak. cbn [fold_right].
  replace ((2 / 2 + 0 / 2) / 2) with (1 / 2) by field. replace ((2 / 2 - 0 / 2) / 2) with (1 / 2) by field. replace ((0 / 2 + 0 / 2) / 2) with 0 by field. replace ((0 / 2 - 0 / 2) / 2) with 0 by field.
  rewrite !Rabs_R0, (Rabs_pos_eq (1 / 2)) by lra. repeat first [rewrite (V 0) by lra | rewrite (V (1 / 2)) by lra]. rewrite ?(Rmax_left (1 / 2) (1 / 2)) by lra.
  destruct (Rlt_dec 1 (1 / 2)) as [Q|_]; [lra|]. split; [reflexivity|]. split; reflexivity.
Qed.
Print Assumptions C76_side_mid_round_trip_refuted.

(** ** DFT at arbitrary frequencies *)
(** The value at every frequency f is the defining sum; at multiples of fs / N it is the FFT bin, it is periodic in fs and conjugate symmetric. *)
Theorem C76_dft fs x f : 0 < fs -> x <> [] ->
  dft_at fs x f = csum (length x) (fun n => cmul (rc (get x n)) (cis (- (2 * PI * f * (INR n / fs))))) /\
  (forall k, dft_at fs x (INR k * fs / INR (length x)) = dft (length x) x k) /\
  (forall m, dft_at fs x (f + IZR m * fs) = dft_at fs x f) /\ dft_at fs x (- f) = cconj (dft_at fs x f).
Proof.
  intros Hfs Hx. assert (Np : 0 < INR (length x)) by (apply INR_pos; destruct x; [congruence|cbn; lia]).
  assert (A : forall f, dft_at fs x f = csum (length x) (fun n => cmul (rc (get x n)) (cis (- (2 * PI * f * (INR n / fs)))))).
  { intros g. unfold dft_at. apply (sum_ext (HA := CRing_C)). intros n Hn. rewrite cmul_comm. f_equal. unfold cexp, cis. cbn [fst snd]. rewrite exp_0, !Rmult_1_l.
    replace (- 2 * PI * (INR n / INR (length x)) * (g * (INR (length x) / fs))) with (- (2 * PI * g * (INR n / fs))) by (field; lra). reflexivity. }
  split; [apply A|]. split; [|split].
  - intros k. rewrite A. unfold dft. apply (sum_ext (HA := CRing_C)). intros n Hn. change (@rmul C CRing_C) with cmul. f_equal. unfold root. f_equal. rewrite opp_IZR, mult_IZR, <- !INR_IZR_INZ. field. lra.
  - intros m. rewrite !A. apply (sum_ext (HA := CRing_C)). intros n Hn. f_equal.
    replace (- (2 * PI * (f + IZR m * fs) * (INR n / fs))) with (- (2 * PI * f * (INR n / fs)) + 2 * PI * IZR (- (m * Z.of_nat n))).
    rewrite cis_add, cis_2pi, cmul_comm. apply cmul_rc1. rewrite opp_IZR, mult_IZR, <- INR_IZR_INZ. field. lra.
  - rewrite !A. rewrite csum_conj. apply (sum_ext (HA := CRing_C)). intros n Hn. rewrite cconj_mul. f_equal. apply c_ext; simpl; ring.
    rewrite <- cis_opp. f_equal. field. lra.
Qed.
Print Assumptions C76_dft.
Example C76_dft_example : 0 < 48000 /\ [1; 2; 3] <> [] /\ dft_at 2 [1; 2; 3] 1 = rc 2.
Proof.
  split; [lra|]. split; [discriminate|]. destruct (C76_dft 2 [1; 2; 3] 1 ltac:(lra) ltac:(discriminate)) as (E & _). rewrite E. cbn [length sum]. unfold get. cbn [nth INR].
  replace (- (2 * PI * 1 * (0 / 2))) with 0 by field. replace (- (2 * PI * 1 * (1 / 2))) with (- PI) by field. replace (- (2 * PI * 1 * ((1 + 1) / 2))) with (2 * PI * IZR (-1)) by (simpl; field).
  rewrite cis_0, cis_2pi, cis_opp. unfold cis. rewrite cos_PI, sin_PI. apply c_ext; simpl; ring.
Qed.
(** Every channel and frequency of the result is computed by itself, in the given order. *)
Theorem C76_dft_channels fs td fv c j : (c < length td)%nat -> (j < length fv)%nat ->
  length (dft_any fs td fv) = length td /\ length (nth c (dft_any fs td fv) []) = length fv /\ nth j (nth c (dft_any fs td fv) []) (rc 0) = dft_at fs (nth c td []) (nth j fv 0).
Proof.
  intros Hc Hj. unfold dft_any. rewrite map_length. split; auto. rewrite (nth_indep _ [] (map (dft_at fs []) fv)) by (now rewrite map_length).
  rewrite (map_nth (fun x => map (dft_at fs x) fv)). rewrite map_length. split; auto. rewrite (nth_indep _ (rc 0) (dft_at fs (nth c td []) 0)) by (now rewrite map_length). apply map_nth.
Qed.
Print Assumptions C76_dft_channels.
Example C76_convolution_example : (forall t, (t < 2)%nat -> get [9 / 8; 3 / 4] t = circ 2 [1; 1 / 2] [1; 1 / 4] t) /\ real_cepstrum [1; 1 / 2] <> None /\ real_cepstrum [1; 1 / 4] <> None.
Proof.
  assert (A : forall a b, a + b <> 0 -> a - b <> 0 -> nonzero_bins [a; b]).
  { intros a b H1 H2 k Hk. destruct (dft_2 a b) as (E0 & E1). cbn [length] in *. destruct k as [|[|k]]; [rewrite E0|rewrite E1|lia]; intros E; injection E; lra. }
  split. { intros t Ht. unfold circ, get. destruct t as [|[|t]]; [| |lia]; cbn; field. }
  split; apply (proj2 (C76_cepstrum_defined _)); apply A; lra.
Qed.
Example C76_quadrature_example : nth 1 (analytic (mk 4 (fun t => 2 * cos (2 * PI * INR 1 * INR t / INR 4 + 0)))) (rc 0) = (0, 2).
Proof.
  pose proof (C76_hilbert_quadrature 4 1 2 0 ltac:(lia) ltac:(lia) 1%nat ltac:(lia)) as E. cbv zeta in E. rewrite E. replace (2 * PI * INR 1 * INR 1 / INR 4 + 0) with (PI / 2) by (simpl; field).
  rewrite cos_PI2, sin_PI2. f_equal; ring.
Qed.
