(** Lemmas on Welch's method. *)
From Coq Require Import List Arith Lia ZArith Bool Reals Lra Psatz.
From Verif Require Import Alg Spec M_arrays M_frames P_arrays P_frames Claims_arrays Dft P_parseval M_scaling Claims_scaling M_welch.
Import ListNotations.
Local Open Scope R_scope.
Add Ring crw : (@rth C CRing_C).

Lemma fold_rsum (l : list R) : fold_right Rplus 0 l = rsum (length l) (get l).
Proof. induction l as [|a l IH]. reflexivity. cbn [fold_right length]. rewrite IH. now rewrite (sum_S_front (HA := CRing_R)). Qed.
Lemma mean_mk n f : mean (mk n f) = rsum n f / INR n.
Proof. unfold mean. rewrite fold_rsum, mk_length. f_equal. apply sum_ext. intros i Hi. now rewrite get_mk. Qed.
Lemma map_mk {T U} (g : T -> U) n f : map g (mk n f) = mk n (fun i => g (f i)).
Proof. unfold mk. now rewrite map_map. Qed.
Lemma mk_eq {T} n (f g : nat -> T) : (forall i, (i < n)%nat -> f i = g i) -> mk n f = mk n g.
Proof. intros H. unfold mk. apply map_ext_in. intros a Ha. apply in_seq in Ha. apply H. lia. Qed.
Lemma sequence_mk {T} n (f : nat -> result T) g : (forall i, (i < n)%nat -> f i = Ok (g i)) -> sequence (mk n f) = Ok (mk n g).
Proof.
  unfold mk. intros H. assert (G : forall i, In i (seq 0 n) -> f i = Ok (g i)) by (intros i Hi; apply in_seq in Hi; apply H; lia). clear H.
  induction (seq 0 n) as [|a l IH]; auto. simpl. rewrite G by (now left). simpl. rewrite IH by (intros; apply G; now right). reflexivity.
Qed.
Lemma sequence_map {T U} (h : U -> result T) g l : (forall x, In x l -> h x = Ok (g x)) -> sequence (map h l) = Ok (map g l).
Proof. induction l as [|a l IH]; auto. intros H. simpl. rewrite H by (now left). simpl. rewrite IH by (intros; apply H; now right). reflexivity. Qed.

Lemma valid_even w : valid_size w = true -> (2 * (w / 2) = w)%nat /\ (8 <= w)%nat.
Proof.
  unfold valid_size. intros H. apply existsb_exists in H as (e & He & H). apply in_seq in He. apply Z.eqb_eq in H.
  assert (E : w = (8 * 2 ^ (e - 3))%nat). { apply Nat2Z.inj. rewrite H, Nat2Z.inj_mul, Nat2Z.inj_pow. change (Z.of_nat 8) with (2 ^ 3)%Z. change (Z.of_nat 2) with 2%Z. rewrite <- Z.pow_add_r by lia. f_equal. lia. }
  assert (0 < 2 ^ (e - 3))%nat by (apply Nat.neq_0_lt_0, Nat.pow_nonzero; lia). split; [|lia].
  rewrite E. replace (8 * 2 ^ (e - 3))%nat with (4 * 2 ^ (e - 3) * 2)%nat by lia. rewrite Nat.div_mul by lia. lia.
Qed.
(** The windowed (and detrended) frames. *)
Definition nframes (s len : nat) : nat := ((len + (s - 1)) / s)%nat.
Definition wsample (s : nat) (window x : list R) (i t : nat) : R := get window t * get x (i * s + t)%nat.
Definition wvalue (w s : nat) (window : list R) (detrend : bool) (x : list R) (i t : nat) : R :=
  if detrend then wsample s window x i t - rsum w (wsample s window x i) / INR w else wsample s window x i t.
Definition wframes (w s : nat) (window : list R) (detrend : bool) (x : list R) : list (list R) :=
  mk (nframes s (length x)) (fun i => mk w (wvalue w s window detrend x i)).
Lemma welch_frames_eq w overlap window detrend x : (overlap < w)%nat -> welch_frames w overlap window detrend x = Ok (wframes w (w - overlap) window detrend x).
Proof.
  intros Ho. unfold welch_frames. destruct (C29_padded_frames R CRing_R w (w - overlap) x ltac:(lia)) as (fr & -> & L & F & _). cbn [bind]. f_equal. set (s := (w - overlap)%nat) in *.
  assert (E : map (vmul window) fr = mk (nframes s (length x)) (fun i => mk w (wsample s window x i))).
  { apply nth_ext with (d := vmul window []) (d' := []). now rewrite map_length, mk_length. intros i Hi. rewrite map_length in Hi. rewrite map_nth. rewrite nth_mk by (unfold nframes; lia).
    destruct (F i Hi) as [L1 F1]. unfold vmul. rewrite L1. apply mk_eq. intros t Ht. unfold wsample. now rewrite F1. }
  rewrite E. unfold wframes. destruct detrend.
  - rewrite map_mk. apply mk_eq. intros i Hi. rewrite map_mk. apply mk_eq. intros t Ht. now rewrite mean_mk.
  - reflexivity.
Qed.
Lemma wframes_length w s window detrend x : length (wframes w s window detrend x) = nframes s (length x).
Proof. apply mk_length. Qed.
(** Result of the method. *)
Definition welch_val (x : list R) (y : option (list R)) (fs : R) (window : list R) (w s : nat) (detrend use_median : bool) (sc : scaling) : list C :=
  welch_scale sc w fs window (average_bins use_median (w / 2 + 1) (cross_spectra sc w (wframes w s window detrend x) (option_map (wframes w s window detrend) y))).
Lemma welch_eq one_d x y fs window w overlap detrend use_median sc :
  valid_size w = true -> (overlap < w)%nat -> (forall y0, y = Some y0 -> length y0 = length x) ->
  welch one_d x y fs window w overlap detrend use_median sc =
    if one_d && (nframes (w - overlap) (length x) =? 1)%nat then Err IndexError else Ok (welch_val x y fs window w (w - overlap) detrend use_median sc).
Proof.
  intros Hv Ho Hy. unfold welch. rewrite Hv. replace (overlap <? w)%nat with true by (symmetry; apply Nat.ltb_lt; lia). cbn [negb].
  replace (match y with Some y => negb (length x =? length y)%nat | None => false end) with false.
  2:{ destruct y as [y|]; auto. rewrite (Hy y eq_refl), Nat.eqb_refl. reflexivity. }
  rewrite welch_frames_eq by auto. cbn [bind]. unfold welch_val. rewrite wframes_length. destruct y as [y|]; cbn [option_map].
  - rewrite welch_frames_eq by auto. cbn [bind]. reflexivity.
  - reflexivity.
Qed.
Lemma welch_scale_entry sc w fs window csd k : (2 * (w / 2) = w)%nat -> (8 <= w)%nat -> length csd = (w / 2 + 1)%nat -> (k <= w / 2)%nat ->
  nth k (welch_scale sc w fs window csd) (rc 0) =
  (let z := if has_units sc then cmulr (nth k csd (rc 0)) (scaling_factor sc w fs (Some window) * onesided w k / 2) else nth k csd (rc 0) in if is_amplitude sc then csqrt z else z).
Proof.
  intros Hw H8 L Hk. unfold welch_scale. set (g := scaling_factor sc w fs (Some window)). set (c1 := if has_units sc then _ else csd).
  assert (L1 : length c1 = (w / 2 + 1)%nat) by (unfold c1; destruct (has_units sc); rewrite ?upd_length, ?map_length; auto).
  assert (V : nth k c1 (rc 0) = if has_units sc then cmulr (nth k csd (rc 0)) (g * onesided w k / 2) else nth k csd (rc 0)).
  { unfold c1. destruct (has_units sc); auto. set (m := map _ csd). assert (LM : length m = (w / 2 + 1)%nat) by (unfold m; now rewrite map_length).
    assert (VM : nth k m (rc 0) = cmulr (nth k csd (rc 0)) g). { unfold m. rewrite (nth_indep _ (rc 0) (cmulr (rc 0) g)) by (rewrite map_length; lia). now rewrite (map_nth (fun z => cmulr z g)). }
    rewrite upd_length, LM. replace (w / 2 + 1 - 1)%nat with (w / 2)%nat by lia.
    rewrite nth_upd_c by (rewrite upd_length; lia). unfold onesided. destruct (Nat.eqb_spec k (w / 2)) as [E|E].
    - rewrite nth_upd_c by lia. destruct (Nat.eqb_spec (w / 2) 0); [lia|]. destruct (Nat.eqb_spec k 0); [lia|]. destruct (Nat.eqb_spec (2 * k) w); [|lia]. rewrite <- E, VM. apply c_ext; cbn; field.
    - rewrite nth_upd_c by lia. destruct (Nat.eqb_spec k 0) as [E0|].
      + rewrite <- E0, VM. apply c_ext; cbn; field.
      + destruct (Nat.eqb_spec (2 * k) w); [lia|]. rewrite VM. apply c_ext; cbn; field. }
  cbv zeta. rewrite <- V. destruct (is_amplitude sc); auto. rewrite (nth_indep _ (rc 0) (csqrt (rc 0))) by (rewrite map_length; lia). apply map_nth.
Qed.
Lemma welch_scale_length sc w fs window csd : length (welch_scale sc w fs window csd) = length csd.
Proof. unfold welch_scale. destruct (has_units sc), (is_amplitude sc); rewrite ?map_length, ?upd_length, ?map_length; auto. Qed.
Lemma welch_val_length x y fs window w s detrend md sc : length (welch_val x y fs window w s detrend md sc) = (w / 2 + 1)%nat.
Proof. unfold welch_val. rewrite welch_scale_length. apply mk_length. Qed.
Lemma csqrt_rc r : 0 <= r -> csqrt (rc r) = rc (sqrt r).
Proof.
  intros H. unfold csqrt, cabs2, rc. cbn [fst snd]. replace (r * r + 0 * 0) with (r * r) by ring. rewrite sqrt_square by auto. replace ((r + r) / 2) with r by field. replace ((r - r) / 2) with 0 by field.
  rewrite sqrt_0. destruct (Rlt_dec 0 0); [lra|]. reflexivity.
Qed.
(** Bin k of frame i. *)
Definition fbin (w s : nat) (window : list R) (detrend : bool) (x : list R) (i k : nat) : C := dft w (mk w (wvalue w s window detrend x i)) k.
Lemma rfft_units sc w f k : has_units sc = true -> (k <= w / 2)%nat -> nth k (rfft_scaled sc w f) (rc 0) = dft w f k.
Proof. intros Hu Hk. replace (rfft_scaled sc w f) with (rfft w f) by (destruct sc; auto; discriminate). unfold rfft. rewrite nth_mk by lia. auto. Qed.
(** The mean of the frames. *)
Lemma auto_mean sc w s window detrend x k : has_units sc = true -> (k <= w / 2)%nat ->
  nth k (average_bins false (w / 2 + 1) (cross_spectra sc w (wframes w s window detrend x) None)) (rc 0) =
  rc (rsum (nframes s (length x)) (fun i => cabs2 (fbin w s window detrend x i k)) / INR (nframes s (length x))).
Proof.
  intros Hu Hk. unfold average_bins, cross_spectra, wframes. rewrite nth_mk by lia. rewrite !map_mk. rewrite !mean_mk.
  assert (V : forall f, nth k (map (fun z => rc (cabs2 z)) (rfft_scaled sc w f)) (rc 0) = rc (cabs2 (dft w f k))).
  { intros f. rewrite (nth_indep _ (rc 0) (rc (cabs2 (rc 0)))). rewrite (map_nth (fun z => rc (cabs2 z))). now rewrite rfft_units. rewrite map_length. destruct sc; cbn [rfft_scaled]; rewrite ?map_length, rfft_length; lia. }
  apply c_ext; cbn [fst snd rc].
  - unfold rc at 2. cbn [fst]. f_equal. apply sum_ext. intros i Hi. now rewrite V.
  - rewrite (sum_zero' (HA := CRing_R)). change (@r0 R CRing_R) with 0. unfold Rdiv. ring. intros i Hi. now rewrite V.
Qed.
Lemma combine_mk {T U} n (f : nat -> T) (g : nat -> U) : combine (mk n f) (mk n g) = mk n (fun i => (f i, g i)).
Proof. unfold mk. induction (seq 0 n) as [|a l IH]; auto. simpl. now rewrite IH. Qed.
Lemma cross_mean sc w s window detrend x y k : has_units sc = true -> (k <= w / 2)%nat -> length y = length x ->
  nth k (average_bins false (w / 2 + 1) (cross_spectra sc w (wframes w s window detrend x) (Some (wframes w s window detrend y)))) (rc 0) =
  cdivr (csum (nframes s (length x)) (fun i => cmul (cconj (fbin w s window detrend x i k)) (fbin w s window detrend y i k))) (INR (nframes s (length x))).
Proof.
  intros Hu Hk HL. unfold average_bins, cross_spectra, wframes. rewrite HL. rewrite nth_mk by lia. rewrite combine_mk. rewrite !map_mk. rewrite !mean_mk. cbn [fst snd].
  unfold cdivr. rewrite csum_fst, csum_snd. f_equal; f_equal; apply sum_ext; intros i Hi; rewrite nth_mk by lia; rewrite !rfft_units by auto; reflexivity.
Qed.
(** Median of equal values. *)
Lemma insert_repeat v n : insert v (repeat v n) = repeat v (S n).
Proof. destruct n; auto. cbn [repeat insert]. destruct (Rle_dec v v); auto. lra. Qed.
Lemma isort_repeat v n : isort (repeat v n) = repeat v n.
Proof. unfold isort. induction n; auto. cbn [repeat fold_right]. rewrite IHn. apply insert_repeat. Qed.
Lemma nth_rep (v : R) n i : (i < n)%nat -> nth i (repeat v n) 0 = v.
Proof. intros. rewrite (nth_indep _ 0 v) by now rewrite repeat_length. apply nth_repeat. Qed.
Lemma median_repeat v n : (0 < n)%nat -> median (repeat v n) = v.
Proof.
  intros Hn. unfold median. rewrite isort_repeat, repeat_length. pose proof (Nat.div_mod n 2 ltac:(lia)). pose proof (Nat.mod_upper_bound n 2 ltac:(lia)).
  destruct (Nat.eqb_spec (n mod 2) 1). rewrite nth_rep by lia. auto. rewrite !nth_rep by lia. lra.
Qed.
Lemma mk_const {T} n (v : T) : mk n (fun _ => v) = repeat v n.
Proof. unfold mk. rewrite <- (seq_length n 0) at 2. induction (seq 0 n); auto. simpl. now rewrite IHl. Qed.
