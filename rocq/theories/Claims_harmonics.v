(** Property C85: separation of the harmonics of an exponential sweep. *)
From Coq Require Import List Arith Lia ZArith Bool Reals Lra Psatz.
From Verif Require Import Alg Spec Dft M_arrays M_signal P_arrays P_signal M_latency M_ir M_generators M_irwindow M_harmonics Claims_fade Claims_signal Claims_room Claims_generators Claims_chirp Claims_irwindow.
Import ListNotations.
Local Open Scope R_scope.

(** ** Specification *)
(** the sample at which the harmonic of order m is found, when the fundamental is found at sample N + 1: a sweep from f0 to f1 in T seconds is
    m times as high after T ln m / ln (f1 / f0) seconds *)
Definition place (N : nat) (fs f0 f1 T : R) (m : nat) : R := INR N + 1 - fs * (T * ln (INR m) / ln (f1 / f0)).
(** the response turned so that its sample P becomes sample 1 *)
Definition turned (x : list R) (P : nat) (z : Z) : R := nth (Z.to_nat ((z + Z.of_nat P - 1) mod Z.of_nat (length x))) x 0.

(** ** Auxiliary facts *)
Lemma Int_part_at r z : r - 1 < IZR z <= r -> z = Int_part r.
Proof. intros (A & B). destruct (base_Int_part r) as (D & E). assert (IZR z < IZR (Int_part r) + 1) by lra. assert (IZR (Int_part r) < IZR z + 1) by lra.
  rewrite <- plus_IZR in *. apply lt_IZR in H. apply lt_IZR in H0. lia. Qed.
Lemma trunc_pos r z : IZR z <= r < IZR z + 1 -> (0 <= z)%Z -> trunc r = z.
Proof.
  intros (A & B) H. unfold trunc. assert (0 <= IZR z) by (apply (IZR_le 0); auto). destruct (Rle_dec 0 r); [|lra].
  symmetry. apply Int_part_at. lra.
Qed.
Lemma trunc_neg r z : IZR z - 1 < r <= IZR z -> (z <= 0)%Z -> trunc r = z.
Proof.
  intros (A & B) H. unfold trunc. assert (IZR z <= 0) by (apply (IZR_le _ 0); auto). destruct (Rle_dec 0 r).
  - assert (r = 0) by lra. assert (z = 0)%Z. { apply eq_IZR. lra. } subst. symmetry. apply Int_part_at. simpl. lra.
  - cut (Int_part (- r) = (- z)%Z); [lia|]. symmetry. apply Int_part_at. rewrite opp_IZR. lra.
Qed.
Lemma trunc_neg_ex r : r <= 0 -> (trunc r <= 0)%Z /\ IZR (trunc r) - 1 < r <= IZR (trunc r).
Proof.
  intros H. destruct (base_Int_part (- r)) as (A & B). set (z := (- Int_part (- r))%Z).
  assert (Z1 : IZR z - 1 < r <= IZR z) by (unfold z; rewrite opp_IZR; lra).
  assert (Z2 : (z <= 0)%Z). { assert (IZR z < 1) by lra. apply lt_IZR in H0. lia. }
  rewrite (trunc_neg r z) by auto. auto.
Qed.
Lemma trunc_pos_ex r : 0 <= r -> (0 <= trunc r)%Z /\ IZR (trunc r) <= r < IZR (trunc r) + 1.
Proof.
  intros H. destruct (base_Int_part r) as (A & B). assert (Z2 : (0 <= Int_part r)%Z). { assert (-1 < IZR (Int_part r)) by lra. apply lt_IZR in H0. lia. }
  assert (Z1 : IZR (Int_part r) <= r < IZR (Int_part r) + 1) by lra. rewrite (trunc_pos r (Int_part r)) by auto. auto.
Qed.
Lemma ln2_pos : 0 < ln 2.
Proof. rewrite <- ln_1. apply ln_increasing; lra. Qed.
Lemma ratio_gt1 f0 f1 : 0 < f0 < f1 -> 1 < f1 / f0.
Proof. intros H. apply (Rmult_lt_reg_r f0); [lra|]. unfold Rdiv. rewrite Rmult_assoc, Rinv_l; lra. Qed.
Lemma ln_ratio_pos f0 f1 : 0 < f0 < f1 -> 0 < ln (f1 / f0).
Proof. intros H. pose proof (ratio_gt1 _ _ H). rewrite <- ln_1. apply ln_increasing; lra. Qed.
Lemma ln_nat_pos m : (2 <= m)%nat -> 0 < ln (INR m).
Proof. intros H. rewrite <- ln_1. apply ln_increasing; [lra|]. apply (lt_INR 1). lia. Qed.
Lemma minmax a b : a <> b -> 0 < a -> 0 < b -> 0 < Rmin a b < Rmax a b.
Proof. intros. unfold Rmin, Rmax. destruct (Rle_dec a b); lra. Qed.
Lemma times_eq a b T n : a <> b -> 0 < a -> 0 < b -> 0 < T ->
  harmonic_times [a; b] T n 0 = Ok (mk n (fun m => - (T * ln (INR (m + 2)) / ln (Rmax a b / Rmin a b)))).
Proof.
  intros N A B HT. unfold harmonic_times, chirp_rate. cbn [bind]. f_equal. unfold mk. apply map_ext. intros m. unfold log2.
  pose proof (ln_ratio_pos _ _ (minmax a b N A B)). pose proof ln2_pos. field. lra.
Qed.
(** the phases of one sweep are equal up to nothing: a function without slope is constant *)
Lemma flat_constant (h : R -> R) : (forall t, derivable_pt_lim h t 0) -> forall t, h t = h 0.
Proof.
  intros H t. assert (pr : derivable h). { intros u. exists 0. apply H. }
  apply (null_derivative_1 h pr). intros u. apply derive_pt_eq_0. apply H.
Qed.
Lemma dlim_shift f d x l : derivable_pt_lim f (x + d) l -> derivable_pt_lim (fun t => f (t + d)) x l.
Proof.
  intros H eps He. destruct (H eps He) as (del & Hd). exists del. intros h H1 H2. replace (x + h + d) with (x + d + h) by ring. now apply Hd.
Qed.
Lemma sweep_up f0 f1 T m t : 0 < f0 < f1 -> 0 < T -> (1 <= m)%nat ->
  sweep_freq CLogarithmic f0 f1 T (t + T * ln (INR m) / ln (f1 / f0)) = INR m * sweep_freq CLogarithmic f0 f1 T t.
Proof.
  intros H HT Hm. unfold sweep_freq. pose proof (ln_ratio_pos _ _ H). pose proof (ratio_gt1 _ _ H).
  replace ((t + T * ln (INR m) / ln (f1 / f0)) / T) with (t / T + ln (INR m) / ln (f1 / f0)) by (field; lra).
  rewrite Rpower_plus. replace (Rpower (f1 / f0) (ln (INR m) / ln (f1 / f0))) with (INR m). ring.
  unfold Rpower. replace (ln (INR m) / ln (f1 / f0) * ln (f1 / f0)) with (ln (INR m)) by (field; lra). rewrite exp_ln; auto. apply (lt_INR 0). lia.
Qed.

(** ** C85 *)
(** The times: there is one per harmonic, all are before the fundamental, later orders come earlier, and a harmonic of order m of an exponential
    sweep of the given range and length is the sweep itself moved by that time: its frequency there is m times the frequency, and m times its phase
    is its moved phase plus a constant. *)
Theorem C85_times : forall (a b T : R) (n : nat), a <> b -> 0 < a -> 0 < b -> 0 < T ->
  exists ts, harmonic_times [a; b] T n 0 = Ok ts /\ length ts = n /\
  (forall i, (i < n)%nat -> nth i ts 0 < 0) /\ (forall i j, (i < j < n)%nat -> nth j ts 0 < nth i ts 0) /\
  forall i, (i < n)%nat -> let m := INR (i + 2) in let freq := sweep_freq CLogarithmic (Rmin a b) (Rmax a b) T in
    (forall t, freq (t - nth i ts 0) = m * freq t) /\
    (forall phi, sweep freq phi -> forall t, m * phi t = phi (t - nth i ts 0) - phi (- nth i ts 0)).
Proof.
  intros a b T n Hab Ha Hb HT. exists (mk n (fun m => - (T * ln (INR (m + 2)) / ln (Rmax a b / Rmin a b)))). split; [now apply times_eq|].
  pose proof (minmax a b Hab Ha Hb) as MM. pose proof (ln_ratio_pos _ _ MM) as LP. set (Q := ln (Rmax a b / Rmin a b)) in *. set (f0 := Rmin a b) in *. set (f1 := Rmax a b) in *.
  split; [apply mk_length|].
  assert (V : forall i, (i < n)%nat -> nth i (mk n (fun m => - (T * ln (INR (m + 2)) / Q))) 0 = - (T * ln (INR (i + 2)) / Q)).
  { intros i Hi. apply (nth_mk n (fun m => - (T * ln (INR (m + 2)) / Q)) i 0 Hi). }
  split; [|split].
  - intros i Hi. rewrite V by auto. assert (0 < T * ln (INR (i + 2)) / Q). { apply Rdiv_lt_0_compat; auto. apply Rmult_lt_0_compat; auto. apply ln_nat_pos. lia. } lra.
  - intros i j Hij. rewrite !V by lia. apply Ropp_lt_contravar. unfold Rdiv. apply Rmult_lt_compat_r; [now apply Rinv_0_lt_compat|].
    apply Rmult_lt_compat_l; auto. apply ln_increasing. apply (lt_INR 0); lia. apply lt_INR; lia.
  - intros i Hi m freq. rewrite V by auto. set (d := T * ln (INR (i + 2)) / Q).
    assert (U : forall t, freq (t + d) = m * freq t) by (intros t; apply sweep_up; auto; lia).
    split. { intros t. unfold Rminus. rewrite Ropp_involutive. apply U. }
    intros phi (P0 & PD) t. unfold Rminus. rewrite !Ropp_involutive.
    assert (F := flat_constant (fun t => m * phi t + - phi (t + d))). cbv beta in F.
    assert (E : m * phi t + - phi (t + d) = m * phi 0 + - phi (0 + d)).
    { apply F. intros u. replace 0 with (m * (2 * PI * freq u) + - (2 * PI * freq (u + d))) by (rewrite U; ring).
      apply (derivable_pt_lim_plus (fun t => m * phi t) (fun t => - phi (t + d))). apply dlim_scale. apply PD.
      apply (derivable_pt_lim_opp (fun t => phi (t + d))). apply dlim_shift. apply PD. }
    rewrite P0, Rplus_0_l in E. lra.
Qed.
Print Assumptions C85_times.
Example C85_times_case : 100 <> 6400 /\ 0 < 100 /\ 0 < 6400 /\ 0 < 3.
Proof. lra. Qed.

(** *** pieces *)
Lemma roll_nth x P i : (i < length x)%nat -> nth i (roll (- Z.of_nat P + 1) x) 0 = turned x P (Z.of_nat i).
Proof.
  intros H. unfold roll, turned. rewrite (nth_mk (length x) (fun i => get x (Z.to_nat ((Z.of_nat i - (- Z.of_nat P + 1)) mod Z.of_nat (length x)))) i 0 H).
  replace (Z.of_nat i - (- Z.of_nat P + 1))%Z with (Z.of_nat i + Z.of_nat P - 1)%Z by lia. reflexivity.
Qed.
Lemma roll_length z x : length (roll z x) = length x.
Proof. apply mk_length. Qed.
Lemma slice_pieces (x : list R) (a b : Z) : (0 <= a)%Z -> (a <= b)%Z -> (b <= Z.of_nat (length x))%Z ->
  py_slice x a b = mk (Z.to_nat (b - a)) (fun i => nth (Z.to_nat a + i) x 0).
Proof.
  intros A B D. unfold py_slice, py_bound. destruct (Z.ltb_spec a 0); [lia|]. destruct (Z.ltb_spec b 0); [lia|].
  rewrite !Nat.min_l by lia. replace (Z.to_nat b - Z.to_nat a)%nat with (Z.to_nat (b - a)) by lia.
  apply (nth_ext _ _ 0 0). { rewrite mk_length, firstn_length, skipn_length. lia. }
  intros i Hi. rewrite firstn_length, skipn_length in Hi. rewrite nth_firstn by lia. rewrite nth_skip.
  rewrite (nth_mk _ (fun i => nth (Z.to_nat a + i) x 0) i 0) by lia. reflexivity.
Qed.
Lemma new_data_id s (v : list R) : (2 <= length v)%nat -> (s_constr s = true -> forall i, Rabs (nth i v 0) <= 1) ->
  new_data s v = Ok (mkSig [v] None 1 (s_constr s) (s_fs s)).
Proof.
  intros L B. unfold new_data. destruct v as [|r v']; [simpl in L; lia|]. set (v := r :: v') in *. unfold set_data.
  apply (set_identity (s_constr s) (s_fs s) (mkIn [v] None false) (length v) 1); try lia.
  - split. { split; [reflexivity|]. repeat constructor. } discriminate.
  - intros C. split; [|discriminate]. intros i c Hi Hc. assert (c = 0)%nat by lia. subst c. unfold entry. simpl i_re. cbn [nth]. now apply B.
Qed.
Lemma harmonic_sample_near (N : nat) (fs : Z) (a b T : R) (m : nat) : a <> b -> 0 < a -> 0 < b -> 0 < T -> (0 < fs)%Z ->
  1 / 2 <= IZR fs * (T * ln (INR m) / ln (Rmax a b / Rmin a b)) ->
  let p := (Z.of_nat N + trunc (- (T * ln (INR m) / ln (Rmax a b / Rmin a b)) * IZR fs + 1 / 2))%Z in
  place N (IZR fs) (Rmin a b) (Rmax a b) T m - 1 / 2 <= IZR p < place N (IZR fs) (Rmin a b) (Rmax a b) T m + 1 / 2.
Proof.
  intros Hab Ha Hb HT Hfs H p. unfold place. set (d := T * ln (INR m) / ln (Rmax a b / Rmin a b)) in *.
  destruct (trunc_neg_ex (- d * IZR fs + 1 / 2)) as (A & B); [lra|]. unfold p. rewrite plus_IZR, <- INR_IZR_INZ. lra.
Qed.

(** The harmonics: with the harmonic of order m found at [place m], each of them within half a sample of an integer position p m, the piece of order m
    runs from c m to c (m - 1), where c m lies before p m by the given part of the distance to the next order. The pieces follow each other without
    gap or overlap and each contains the position of its own harmonic only. *)
Theorem C85_pieces : forall (s : signal) (x : list R) (P N n : nat) (a b T off : R),
  sig_ok s N 1 -> s_re s = [x] -> s_im s = None -> first_peak x P -> a <> b -> 0 < a -> 0 < b -> 0 < T -> (0 < s_fs s)%Z -> 0 <= off < 1 ->
  let at_ := place N (IZR (s_fs s)) (Rmin a b) (Rmax a b) T in
  1 / 2 <= at_ (n + 2)%nat -> (forall m, (1 <= m <= n + 1)%nat -> 4 <= (1 - off) * (at_ m - at_ (S m))) ->
  exists (p c : nat -> Z) (hs : list signal), harmonics_from_chirp_ir s [a; b] T n off = Ok hs /\ length hs = n /\
    turned x P 1 = nth P x 0 /\ p 1%nat = Z.of_nat N /\ (forall m, (2 <= m <= n + 2)%nat -> Rabs (IZR (p m) - at_ m) <= 1 / 2) /\
    (forall m, (1 <= m <= n + 1)%nat -> IZR (c m) <= IZR (p m) - off * (IZR (p m) - IZR (p (S m))) < IZR (c m) + 1) /\
    (0 <= c (n + 1)%nat)%Z /\ (c 1%nat <= Z.of_nat N)%Z /\
    forall m, (2 <= m <= n + 1)%nat -> (c m <= p m < c (m - 1)%nat)%Z /\
      exists y, nth (m - 2) hs s = mkSig [y] None 1 (s_constr s) (s_fs s) /\ length y = Z.to_nat (c (m - 1)%nat - c m) /\
        forall i, (i < length y)%nat -> nth i y 0 = turned x P (c m + Z.of_nat i).
Proof.
  intros s x P N n a b T off OK Ex Im FP Hab Ha Hb HT Hfs Hoff at_ Hlast Hgap.
  pose proof (minmax a b Hab Ha Hb) as MM. pose proof (ln_ratio_pos _ _ MM) as LP.
  assert (Fp : 0 < IZR (s_fs s)) by (now apply IZR_lt).
  assert (LN : length x = N). { pose proof (ok_re _ _ _ OK) as (_ & F). rewrite Ex in F. now inversion F. }
  pose proof (ok_n _ _ _ OK) as N2.
  set (ts := mk (n + 1) (fun m => - (T * ln (INR (m + 2)) / ln (Rmax a b / Rmin a b)))).
  set (td := roll (- Z.of_nat (peak_index x) + 1) x).
  assert (Ltd : length td = N) by (unfold td; rewrite roll_length; auto).
  set (ps := harmonic_samples (length td) (s_fs s) ts).
  set (p := fun m => nth (m - 1) ps 0%Z). set (c := fun m => boundary ps off (m - 1)).
  assert (p1 : p 1%nat = Z.of_nat N) by (unfold p, ps; rewrite Ltd; reflexivity).
  assert (A1 : at_ 1%nat = INR N + 1). { unfold at_, place. simpl INR. rewrite ln_1. unfold Rdiv. rewrite Rmult_0_r, Rmult_0_l, Rmult_0_r. ring. }
  assert (mono : forall m k, (1 <= m <= k)%nat -> at_ k <= at_ m).
  { intros m k H. unfold at_, place. assert (IZR (s_fs s) * (T * ln (INR m) / ln (Rmax a b / Rmin a b)) <= IZR (s_fs s) * (T * ln (INR k) / ln (Rmax a b / Rmin a b))); [|lra].
    apply Rmult_le_compat_l; [lra|]. unfold Rdiv. apply Rmult_le_compat_r; [left; now apply Rinv_0_lt_compat|]. apply Rmult_le_compat_l; [lra|].
    destruct (Nat.eq_dec m k) as [->|]; [lra|]. left. apply ln_increasing; [apply (lt_INR 0); lia|apply lt_INR; lia]. }
  assert (gap4 : forall m, (1 <= m <= n + 1)%nat -> 4 <= at_ m - at_ (S m)).
  { intros m Hm. specialize (Hgap m Hm). specialize (mono m (S m) ltac:(lia)). nra. }
  assert (near : forall m, (2 <= m <= n + 2)%nat -> at_ m - 1 / 2 <= IZR (p m) < at_ m + 1 / 2).
  { intros m Hm. unfold p, ps. rewrite Ltd. destruct m as [|[|k]]; try lia. replace (S (S k) - 1)%nat with (S k) by lia. cbn [harmonic_samples nth].
    rewrite (nth_map' _ ts k 0) by (unfold ts; rewrite mk_length; lia). unfold ts. rewrite (nth_mk (n + 1) (fun m => - (T * ln (INR (m + 2)) / ln (Rmax a b / Rmin a b))) k 0) by lia.
    replace (k + 2)%nat with (S (S k)) by lia. apply (harmonic_sample_near N (s_fs s) a b T (S (S k))); auto.
    specialize (gap4 1%nat ltac:(lia)). specialize (mono 2%nat (S (S k)) ltac:(lia)). unfold at_, place in gap4, mono, A1. rewrite A1 in gap4. unfold at_, place in *. lra. }
  assert (gp : forall m, (1 <= m <= n + 1)%nat -> 5 / 2 <= (1 - off) * (IZR (p m) - IZR (p (S m)))).
  { intros m Hm. specialize (Hgap m Hm). assert (at_ m - at_ (S m) - 3 / 2 <= IZR (p m) - IZR (p (S m))).
    { pose proof (near (S m) ltac:(lia)). destruct (Nat.eq_dec m 1) as [->|].
      - rewrite p1, A1. rewrite <- INR_IZR_INZ. lra.
      - pose proof (near m ltac:(lia)). lra. }
    nra. }
  assert (p0 : forall m, (1 <= m <= n + 2)%nat -> 0 <= IZR (p m)).
  { intros m Hm. destruct (Nat.eq_dec m 1) as [->|]. { rewrite p1, <- INR_IZR_INZ. apply pos_INR. }
    pose proof (near m ltac:(lia)). specialize (mono m (n + 2)%nat ltac:(lia)). assert (Q : -1 < IZR (p m)) by lra. apply lt_IZR in Q. apply (IZR_le 0). lia. }
  assert (cs : forall m, (1 <= m <= n + 1)%nat -> (0 <= c m)%Z /\ IZR (c m) <= IZR (p m) - off * (IZR (p m) - IZR (p (S m))) < IZR (c m) + 1).
  { intros m Hm. unfold c, boundary. replace (S (m - 1)) with (S m - 1)%nat by lia. fold (p m). fold (p (S m)). rewrite minus_IZR.
    pose proof (p0 m ltac:(lia)). pose proof (p0 (S m) ltac:(lia)). specialize (gp m Hm).
    destruct (trunc_pos_ex (IZR (p m) - (IZR (p m) - IZR (p (S m))) * off)) as (X1 & X2); [nra|]. split; auto. lra. }
  assert (inside : forall m, (2 <= m <= n + 1)%nat -> (c m <= p m)%Z /\ (p m + 1 < c (m - 1)%nat)%Z).
  { intros m Hm. destruct (cs m ltac:(lia)) as (_ & U). destruct (cs (m - 1)%nat ltac:(lia)) as (_ & V). replace (S (m - 1)) with m in V by lia.
    pose proof (gp m ltac:(lia)) as G1. pose proof (gp (m - 1)%nat ltac:(lia)) as G2. replace (S (m - 1)) with m in G2 by lia.
    split. { apply le_IZR. nra. } apply lt_IZR. rewrite plus_IZR. nra. }
  assert (c1N : (c 1%nat <= Z.of_nat N)%Z).
  { destruct (cs 1%nat ltac:(lia)) as (_ & U). pose proof (gp 1%nat ltac:(lia)). rewrite <- p1. apply le_IZR. nra. }
  assert (cN : forall m, (1 <= m <= n + 1)%nat -> (c m <= Z.of_nat N)%Z).
  { intros m. induction m as [|m IH]; [lia|]. intros Hm. destruct (Nat.eq_dec m 0) as [->|]; auto.
    specialize (IH ltac:(lia)). destruct (inside (S m) ltac:(lia)) as (U & V). replace (S m - 1)%nat with m in V by lia. lia. }
  assert (PI_ : peak_index x = P) by now apply peak_index_spec.
  assert (Bx : s_constr s = true -> forall i, Rabs (nth i x 0) <= 1).
  { intros Hc i. pose proof (ok_bre _ _ _ OK Hc) as B. destruct (Nat.lt_ge_cases i N).
    - specialize (B i 0%nat ltac:(lia) ltac:(lia)). unfold entry in B. rewrite Ex in B. exact B.
    - rewrite nth_overflow by lia. rewrite Rabs_R0. lra. }
  set (piece := fun m => mk (Z.to_nat (c (m - 1)%nat - c m)) (fun i => nth (Z.to_nat (c m) + i) td 0)).
  exists p, c, (map (fun nh => mkSig [piece (nh + 2)%nat] None 1 (s_constr s) (s_fs s)) (seq 0 n)).
  split.
  - unfold harmonics_from_chirp_ir. destruct (Rlt_dec off 1); [|lra]. destruct (Rle_dec 0 off); [|lra]. rewrite Ex. rewrite times_eq by auto. cbn [bind]. cbv zeta. fold ts td ps.
    rewrite new_data_id.
    2:{ rewrite firstn_length. lia. }
    2:{ intros Hc i. destruct (Nat.lt_ge_cases i 10). rewrite nth_firstn by auto. now apply Bx. rewrite nth_overflow. rewrite Rabs_R0; lra. rewrite firstn_length. lia. }
    cbn [bind]. apply seq_result_ok. rewrite map_map. apply map_ext_in. intros nh Hin. apply in_seq in Hin.
    change (boundary ps off (S nh)) with (boundary ps off (S nh)). replace (boundary ps off (S nh)) with (c (nh + 2)%nat) by (unfold c; f_equal; lia).
    replace (boundary ps off nh) with (c (nh + 2 - 1)%nat) by (unfold c; f_equal; lia).
    destruct (inside (nh + 2)%nat ltac:(lia)) as (U & V). destruct (cs (nh + 2)%nat ltac:(lia)) as (W & _). pose proof (cN (nh + 2 - 1)%nat ltac:(lia)).
    rewrite slice_pieces by lia. fold (piece (nh + 2)%nat). rewrite new_data_id; [reflexivity|unfold piece; rewrite mk_length; lia|].
    cbn [s_constr]. intros Hc i. unfold piece. destruct (Nat.lt_ge_cases i (Z.to_nat (c (nh + 2 - 1)%nat - c (nh + 2)%nat))).
    + rewrite (nth_mk _ (fun i => nth (Z.to_nat (c (nh + 2)%nat) + i) td 0) i 0) by auto.
      unfold td. rewrite roll_nth by lia. unfold turned. now apply Bx.
    + rewrite nth_overflow by (rewrite mk_length; lia). rewrite Rabs_R0. lra.
  - split; [now rewrite map_length, seq_length|]. split.
    { unfold turned. destruct FP as (FP & _). replace (1 + Z.of_nat P - 1)%Z with (Z.of_nat P) by lia. rewrite Z.mod_small by lia. now rewrite Nat2Z.id. }
    split; [exact p1|]. split. { intros m Hm. specialize (near m Hm). apply Rabs_le. lra. }
    split; [intros m Hm; now apply cs|]. split; [apply cs; lia|]. split; [exact c1N|].
    intros m Hm. destruct (inside m Hm) as (U & V). split; [lia|]. exists (piece m). split; [|split].
    + rewrite (nth_map' _ (seq 0 n) (m - 2) 0%nat) by (rewrite seq_length; lia). rewrite seq_nth by lia. cbn [Nat.add]. now replace (m - 2 + 2)%nat with m by lia.
    + apply mk_length.
    + intros i Hi. unfold piece in *. rewrite mk_length in Hi. rewrite (nth_mk _ (fun i => nth (Z.to_nat (c m) + i) td 0) i 0) by auto.
      destruct (cs m ltac:(lia)) as (W & _). pose proof (cN (m - 1)%nat ltac:(lia)). unfold td. rewrite roll_nth by lia. rewrite PI_. f_equal. lia.
Qed.
Print Assumptions C85_pieces.
Definition x100 : list R := 1 :: repeat 0 99.
Lemma x100_length : length x100 = 100%nat. Proof. reflexivity. Qed.
Lemma nth_zeros i n : nth i (repeat 0 n) 0 = 0.
Proof. revert i. induction n; intros [|i]; simpl; auto. Qed.
Lemma x100_ok constr fs : sig_ok (mkSig [x100] None 1 constr fs) 100 1.
Proof.
  constructor; simpl s_re; simpl s_im; try lia; try discriminate.
  - split; [reflexivity|]. repeat constructor.
  - intros _ i c Hi Hc. assert (c = 0)%nat by lia. subst. unfold entry, x100. cbn [nth]. destruct i as [|i]; cbn [nth].
    rewrite Rabs_R1; lra. rewrite nth_zeros, Rabs_R0. lra.
Qed.
Lemma x100_peak : first_peak x100 0.
Proof.
  split; [rewrite x100_length; lia|]. split; [|intros; lia]. intros j _. unfold x100. cbn [nth]. destruct j; cbn [nth]; [lra|]. rewrite nth_zeros, Rabs_R0, Rabs_R1. lra.
Qed.
Lemma log2_3 : 3 / 2 * ln 2 < ln 3 < 8 / 5 * ln 2.
Proof.
  assert (A : ln (2 ^ 3) < ln (3 ^ 2)) by (apply ln_increasing; lra). assert (B : ln (3 ^ 5) < ln (2 ^ 8)) by (apply ln_increasing; lra).
  rewrite !ln_pow in * by lra. cbn [INR] in *. lra.
Qed.
Lemma place_12 N fs T m : place N fs (Rmin 1 2) (Rmax 1 2) T m = INR N + 1 - fs * (T * ln (INR m) / ln 2).
Proof. unfold place. rewrite Rmin_left, Rmax_right by lra. now replace (2 / 1) with 2 by field. Qed.
Lemma ln_4 : ln (INR 4) = 2 * ln 2.
Proof. replace (INR 4) with (2 ^ 2) by (simpl; ring). rewrite ln_pow by lra. simpl. ring. Qed.
Example C85_pieces_case : sig_ok (mkSig [x100] None 1 true 20) 100 1 /\ first_peak x100 0 /\
  let at_ := place 100 20 (Rmin 1 2) (Rmax 1 2) 1 in
  1 / 2 <= at_ (2 + 2)%nat /\ (forall m, (1 <= m <= 2 + 1)%nat -> 4 <= (1 - 1 / 20) * (at_ m - at_ (S m))).
Proof.
  split; [apply x100_ok|]. split; [apply x100_peak|]. cbv zeta. pose proof ln2_pos as L. pose proof log2_3 as L3.
  assert (E3 : 3 / 2 < ln 3 / ln 2 < 8 / 5). { split; apply (Rmult_lt_reg_r (ln 2)); auto; unfold Rdiv; rewrite ?Rmult_assoc, ?Rinv_l; lra. }
  assert (V : INR 3 = 3) by (simpl; ring). assert (V2 : INR 2 = 2) by reflexivity.
  assert (W : INR 100 = 100) by (rewrite INR_IZR_INZ; reflexivity).
  assert (F4 : place 100 20 (Rmin 1 2) (Rmax 1 2) 1 4 = 61) by (rewrite place_12, ln_4, W; field; lra).
  assert (F3 : place 100 20 (Rmin 1 2) (Rmax 1 2) 1 3 = 101 - 20 * (ln 3 / ln 2)) by (rewrite place_12, V, W; field; lra).
  assert (F2 : place 100 20 (Rmin 1 2) (Rmax 1 2) 1 2 = 81) by (rewrite place_12, V2, W; field; lra).
  assert (F1 : place 100 20 (Rmin 1 2) (Rmax 1 2) 1 1 = 101) by (rewrite place_12, W; simpl INR; rewrite ln_1; field; lra).
  split. { cbn [Nat.add]. rewrite F4. lra. }
  intros m Hm. assert (m = 1 \/ m = 2 \/ m = 3)%nat as [->|[->| ->]] by lia; rewrite ?F1, ?F2, ?F3, ?F4; lra.
Qed.

(** A harmonic which falls before the first sample: when the second order lies inside the response and the third before it, the bounds of the
    third piece are turned around and no harmonic at all is returned. *)
Theorem C85_early_refuted : forall (s : signal) (x : list R) (N n : nat) (a b T : R),
  sig_ok s N 1 -> s_re s = [x] -> s_constr s = true -> a <> b -> 0 < a -> 0 < b -> 0 < T -> (0 < s_fs s)%Z -> (2 <= n)%nat ->
  let at_ := place N (IZR (s_fs s)) (Rmin a b) (Rmax a b) T in
  1 / 2 <= at_ 2%nat <= INR N - 5 / 2 -> at_ 3%nat < - 1 / 2 -> at_ 2%nat - at_ 3%nat <= INR N - 1 ->
  harmonics_from_chirp_ir s [a; b] T n 0 = Err ValueError.
Proof.
  intros s x N n a b T OK Ex Hc Hab Ha Hb HT Hfs Hn at_ H2 H3 H23.
  assert (LN : length x = N). { pose proof (ok_re _ _ _ OK) as (_ & F). rewrite Ex in F. now inversion F. }
  pose proof (ok_n _ _ _ OK) as N2.
  assert (Bx : forall i, Rabs (nth i x 0) <= 1).
  { intros i. pose proof (ok_bre _ _ _ OK Hc) as B. destruct (Nat.lt_ge_cases i N).
    - specialize (B i 0%nat ltac:(lia) ltac:(lia)). unfold entry in B. rewrite Ex in B. exact B.
    - rewrite nth_overflow by lia. rewrite Rabs_R0. lra. }
  unfold harmonics_from_chirp_ir. destruct (Rlt_dec 0 1); [|lra]. destruct (Rle_dec 0 0); [|lra]. rewrite Ex, times_eq by auto. cbn [bind]. cbv zeta.
  set (ts := mk (n + 1) _). set (td := roll _ x). assert (Ltd : length td = N) by (unfold td; rewrite roll_length; auto). rewrite Ltd.
  set (ps := harmonic_samples N (s_fs s) ts).
  assert (near : forall k, (k < 2)%nat -> at_ (S (S k)) - 1 / 2 <= IZR (nth (S k) ps 0%Z) < at_ (S (S k)) + 1 / 2).
  { intros k Hk. unfold ps. cbn [harmonic_samples nth]. rewrite (nth_map' _ ts k 0) by (unfold ts; rewrite mk_length; lia).
    unfold ts. rewrite (nth_mk (n + 1) (fun m => - (T * ln (INR (m + 2)) / ln (Rmax a b / Rmin a b))) k 0) by lia.
    replace (k + 2)%nat with (S (S k)) by lia. apply (harmonic_sample_near N (s_fs s) a b T (S (S k))); auto.
    assert (at_ (S (S k)) <= INR N - 5 / 2). { destruct k as [|[|k]]; try lia. tauto. assert (0 <= INR N) by apply pos_INR. assert (2 <= INR N) by (apply (le_INR 2); lia). lra. }
    unfold at_, place in H. lra. }
  pose proof (near 0%nat ltac:(lia)) as A. pose proof (near 1%nat ltac:(lia)) as B.
  assert (P0 : nth 0 ps 0%Z = Z.of_nat N) by reflexivity. set (p2 := nth 1 ps 0%Z) in *. set (p3 := nth 2 ps 0%Z) in *. rewrite INR_IZR_INZ in *.
  assert (Q1 : (0 <= p2)%Z). { assert (-1 < IZR p2) by lra. apply lt_IZR in H. lia. }
  assert (Q2 : (p2 + 2 <= Z.of_nat N)%Z). { assert (IZR (p2 + 1) < IZR (Z.of_nat N)) by (rewrite plus_IZR; lra). apply lt_IZR in H. lia. }
  assert (Q3 : (p3 < 0)%Z). { apply lt_IZR. lra. }
  assert (Q4 : (p2 <= Z.of_nat N + p3)%Z). { assert (IZR p2 < IZR (Z.of_nat N + p3 + 1)) by (rewrite !plus_IZR; lra). apply lt_IZR in H. lia. }
  assert (Bd : forall k, boundary ps 0 k = nth k ps 0%Z).
  { intros k. unfold boundary. set (z := nth k ps 0%Z). set (w := nth (S k) ps 0%Z). replace (IZR z - IZR (z - w) * 0) with (IZR z) by ring.
    destruct (Z.le_ge_cases 0 z). apply trunc_pos; auto. lra. apply trunc_neg; auto. lra. }
  rewrite new_data_id.
  2:{ rewrite firstn_length. lia. }
  2:{ intros _ i. destruct (Nat.lt_ge_cases i 10). rewrite nth_firstn by auto. now apply Bx. rewrite nth_overflow. rewrite Rabs_R0; lra. rewrite firstn_length. lia. }
  cbn [bind]. destruct n as [|[|n]]; try lia. cbn [seq map seq_result]. rewrite !Bd, P0. fold p2 p3. rewrite slice_pieces by lia.
  rewrite new_data_id.
  2:{ rewrite mk_length. lia. }
  2:{ intros _ i. destruct (Nat.lt_ge_cases i (Z.to_nat (Z.of_nat N - p2))).
      - rewrite (nth_mk _ (fun i => nth (Z.to_nat p2 + i) td 0) i 0) by auto. unfold td. rewrite roll_nth by lia. unfold turned. apply Bx.
      - rewrite nth_overflow by (rewrite mk_length; lia). rewrite Rabs_R0. lra. }
  rewrite py_slice_empty. { cbn [new_data s_constr]. rewrite Hc. reflexivity. }
  rewrite Ltd. unfold py_bound. destruct (Z.ltb_spec p3 0); [|lia]. destruct (Z.ltb_spec p2 0); [lia|]. lia.
Qed.
Print Assumptions C85_early_refuted.
Example C85_early_refuted_case : sig_ok (mkSig [x100] None 1 true 90) 100 1 /\
  let at_ := place 100 90 (Rmin 1 2) (Rmax 1 2) 1 in 1 / 2 <= at_ 2%nat <= INR 100 - 5 / 2 /\ at_ 3%nat < - 1 / 2 /\ at_ 2%nat - at_ 3%nat <= INR 100 - 1.
Proof.
  split; [apply x100_ok|]. cbv zeta. pose proof ln2_pos as L. pose proof log2_3 as L3.
  assert (E3 : 3 / 2 < ln 3 / ln 2 < 8 / 5). { split; apply (Rmult_lt_reg_r (ln 2)); auto; unfold Rdiv; rewrite ?Rmult_assoc, ?Rinv_l; lra. }
  assert (V : INR 3 = 3) by (simpl; ring). assert (V2 : INR 2 = 2) by reflexivity.
  assert (W : INR 100 = 100) by (rewrite INR_IZR_INZ; reflexivity).
  assert (F3 : place 100 90 (Rmin 1 2) (Rmax 1 2) 1 3 = 101 - 90 * (ln 3 / ln 2)) by (rewrite place_12, V, W; field; lra).
  assert (F2 : place 100 90 (Rmin 1 2) (Rmax 1 2) 1 2 = 11) by (rewrite place_12, V2, W; field; lra).
  rewrite F2, F3, W. lra.
Qed.

(** What is refused *)
Theorem C85_refusals : forall (s : signal) (range : list R) (T off : R) (n : nat),
  (off < 0 \/ 1 <= off \/ length (s_re s) <> 1%nat \/ length range <> 2%nat) ->
  harmonics_from_chirp_ir s range T n off = Err AssertionError.
Proof.
  intros s range T off n H. unfold harmonics_from_chirp_ir. destruct (Rlt_dec off 1) as [A|A]; [|reflexivity]. destruct (Rle_dec 0 off) as [B|B]; [|reflexivity].
  destruct (s_re s) as [|x [|y r]]; try reflexivity. cbv zeta. unfold harmonic_times, chirp_rate. destruct range as [|u [|v [|w q]]]; try reflexivity.
  exfalso. destruct H as [H|[H|[H|H]]]; try lra; simpl in H; lia.
Qed.
Print Assumptions C85_refusals.
Example C85_refusals_case : (1 <= 1) /\ harmonics_from_chirp_ir (mkSig [x100] None 1 true 90) [1; 2] 1 3 1 = Err AssertionError.
Proof. split; [lra|]. apply C85_refusals. right. left. lra. Qed.
