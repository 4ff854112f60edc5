(** Property C109: the reconstructing fractional octave filter bank. *)
From Coq Require Import List Arith Lia ZArith Bool Reals Lra Psatz.
From Verif Require Import Alg Spec Dft P_dft2 M_delay M_minphase M_fvec M_smoothing Claims_fdw Claims_fvec M_octbank.
Import ListNotations.
Local Open Scope R_scope.

(** ** Specification *)
(** bin of the lower cutoff of the band around f, and half the width of its transition to the band below *)
Definition edge_bin (N : nat) (fs : Z) (n : nat) (f : R) : Z := np_round (INR N * lower_cutoff n f / IZR fs).
Definition half_width (N : nat) (fs : Z) (n : nat) (overlap f : R) : Z :=
  np_round (overlap / 2 * IZR (np_round (INR N * upper_cutoff n f / IZR fs) - np_round (INR N * f / IZR fs))).
(** the transitions (bin, half width) of a list lie within the nb bins and end before the next one begins *)
Fixpoint apart (nb : nat) (from : Z) (tr : list (Z * Z)) : Prop :=
  match tr with
  | [] => True
  | (k1, P) :: t => (0 <= P)%Z /\ (from <= k1 - P)%Z /\ (P = 0 \/ k1 + P + 1 <= Z.of_nat nb)%Z /\ apart nb (k1 + P) t
  end.
(** the gain of the delayed input in the sum of all bands: the window at its middle *)
Definition mid_gain (N : nat) : R := (1 + cos (PI / INR (N - 1))) / 2.
(** x delayed by d samples *)
Definition behind (d : nat) (x : list R) (t : nat) : R := if (t <? d)%nat then 0 else nth (t - d) x 0.

(** ** Gains *)
Lemma course_1 slope P : (0 < P)%Z -> course slope P P = 1.
Proof.
  intros H. unfold course. replace (IZR P / IZR P) with 1 by (field; apply IZR_lt in H; lra).
  replace (Nat.iter slope (fun v => sin (PI / 2 * v)) 1) with 1. lra.
  induction slope; simpl; auto. rewrite <- IHslope, Rmult_1_r. now rewrite sin_PI2.
Qed.
Lemma cs2 v : cos v * cos v + sin v * sin v = 1.
Proof. pose proof (sin2_cos2 v). unfold Rsqr in *. lra. Qed.
(** after bands 0 .. m have been cut *)
Definition good (m : nat) (from : Z) (g : nat -> nat -> R) : Prop :=
  (forall r k, (m < r)%nat -> g r k = 1) /\ (forall k, rsum (S m) (fun r => g r k * g r k) = 1) /\
  (forall k, (from <= Z.of_nat k)%Z -> g m k = 1).
Lemma cut_good nb slope m from k1 P g : good m from g -> (0 <= P)%Z -> (from <= k1 - P)%Z -> (0 <= from)%Z -> (P = 0 \/ k1 + P + 1 <= Z.of_nat nb)%Z ->
  exists g', cut_band nb slope (S m) k1 P g = Ok g' /\ good (S m) (k1 + P) g'.
Proof.
  intros (G1 & G2 & G3) HP F F0 Hb. unfold cut_band.
  assert (E : (0 <? P)%Z && negb ((0 <=? k1 - P)%Z && (k1 + P + 1 <=? Z.of_nat nb)%Z) = false).
  { destruct (Z.ltb_spec 0 P); auto. destruct Hb as [|Hb]; [lia|]. replace (0 <=? k1 - P)%Z with true by (symmetry; apply Z.leb_le; lia).
    replace (k1 + P + 1 <=? Z.of_nat nb)%Z with true by (symmetry; apply Z.leb_le; lia). reflexivity. }
  rewrite E. clear E. eexists. split; [reflexivity|]. replace (S m - 1)%nat with m by lia.
  assert (Low : forall r k, (r < m)%nat -> (if (r =? m)%nat && (k1 + P <=? Z.of_nat k)%Z then 0 else if (r =? S m)%nat && (Z.of_nat k <? k1 - P)%Z then 0 else
    if (0 <? P)%Z && (k1 - P <=? Z.of_nat k)%Z && (Z.of_nat k <? k1 + P + 1)%Z then
      if (r =? m)%nat then cos (PI / 2 * course slope P (Z.of_nat k - k1)) else if (r =? S m)%nat then sin (PI / 2 * course slope P (Z.of_nat k - k1)) else g r k
    else g r k) = g r k).
  { intros r k H. replace (r =? m)%nat with false by (symmetry; apply Nat.eqb_neq; lia). replace (r =? S m)%nat with false by (symmetry; apply Nat.eqb_neq; lia).
    cbn [andb]. destruct (_ && _); auto. }
  split; [|split].
  - intros r k H. replace (r =? m)%nat with false by (symmetry; apply Nat.eqb_neq; lia). replace (r =? S m)%nat with false by (symmetry; apply Nat.eqb_neq; lia).
    cbn [andb]. destruct (_ && _); apply G1; lia.
  - intros k. specialize (G2 k). cbn [sum] in G2 |- *. rewrite (sum_ext m _ (fun r => g r k * g r k)) by (intros r H; now rewrite Low).
    rewrite !Nat.eqb_refl. replace (m =? S m)%nat with false by (symmetry; apply Nat.eqb_neq; lia). replace (S m =? m)%nat with false by (symmetry; apply Nat.eqb_neq; lia).
    cbn [andb]. specialize (G3 k). assert (G4 := G1 (S m) k ltac:(lia)). cbn [radd CRing_R] in *.
    destruct (Z.ltb_spec (Z.of_nat k) (k1 - P)).
    + replace (k1 + P <=? Z.of_nat k)%Z with false by (symmetry; apply Z.leb_gt; lia). replace (k1 - P <=? Z.of_nat k)%Z with false by (symmetry; apply Z.leb_gt; lia).
      rewrite andb_false_r. cbn [andb]. lra.
    + rewrite G3 in G2 by lia. replace (k1 - P <=? Z.of_nat k)%Z with true by (symmetry; apply Z.leb_le; lia). rewrite andb_true_r.
      destruct (Z.leb_spec (k1 + P) (Z.of_nat k)).
      * destruct (Z.ltb_spec 0 P); cbn [andb]; [|rewrite G4; lra]. destruct (Z.ltb_spec (Z.of_nat k) (k1 + P + 1)); [|rewrite G4; lra].
        replace (Z.of_nat k - k1)%Z with P by lia. rewrite course_1, Rmult_1_r, sin_PI2 by auto. lra.
      * replace (0 <? P)%Z with true by (symmetry; apply Z.ltb_lt; lia). replace (Z.of_nat k <? k1 + P + 1)%Z with true by (symmetry; apply Z.ltb_lt; lia).
        cbn [andb]. pose proof (cs2 (PI / 2 * course slope P (Z.of_nat k - k1))). lra.
  - intros k H. replace (S m =? m)%nat with false by (symmetry; apply Nat.eqb_neq; lia). rewrite Nat.eqb_refl. cbn [andb].
    replace (Z.of_nat k <? k1 - P)%Z with false by (symmetry; apply Z.ltb_ge; lia). assert (G4 := G1 (S m) k ltac:(lia)).
    destruct (Z.ltb_spec 0 P); cbn [andb]; auto. destruct (k1 - P <=? Z.of_nat k)%Z; cbn [andb]; auto. destruct (Z.ltb_spec (Z.of_nat k) (k1 + P + 1)); auto.
    replace (Z.of_nat k - k1)%Z with P by lia. now rewrite course_1, Rmult_1_r, sin_PI2 by auto.
Qed.
Lemma cuts_good nb slope tr : forall m from g, good m from g -> (0 <= from)%Z -> apart nb from tr ->
  exists g', cut_bands nb slope (S m) tr g = Ok g' /\ forall k, rsum (S m + length tr) (fun r => g' r k * g' r k) = 1.
Proof.
  induction tr as [|[k1 P] tr IH]; intros m from g G F A.
  - exists g. split; auto. intros k. rewrite Nat.add_0_r. apply G.
  - destruct A as (A1 & A2 & A3 & A4). destruct (cut_good nb slope m from k1 P g G A1 A2 F A3) as (g1 & E1 & G1).
    destruct (IH (S m) (k1 + P)%Z g1 G1 ltac:(lia) A4) as (g2 & E2 & G2). exists g2. cbn [cut_bands]. rewrite E1. cbn [bind]. split; auto.
    intros k. rewrite <- (G2 k). f_equal. simpl. lia.
Qed.
Lemma good_start : good 0 0 (fun _ _ => 1).
Proof. split; [auto|split; auto]. intros k. cbn. ring. Qed.

(** ** Taps *)
Lemma sin_npi k : sin (PI * INR k) = 0.
Proof. apply sin_eq_0_1. exists (Z.of_nat k). rewrite <- INR_IZR_INZ. ring. Qed.
Definition fold_bin (N k : nat) : nat := if (k <=? N / 2)%nat then k else (N - k)%nat.
Lemma half_turn h k t : (0 < h)%nat -> fst (root (2 * h) (Z.of_nat k * Z.of_nat (h + t))) = cos (PI * INR k) * fst (root (2 * h) (Z.of_nat k * Z.of_nat t)).
Proof.
  intros H. assert (0 < INR h) by (now apply lt_0_INR). rewrite Nat2Z.inj_add, Z.mul_add_distr_l, root_add. cbn [cmul fst].
  assert (E : root (2 * h) (Z.of_nat k * Z.of_nat h) = cis (PI * INR k)).
  { unfold root. f_equal. rewrite mult_IZR, <- !INR_IZR_INZ, mult_INR. cbn [INR]. field. lra. }
  rewrite E. unfold cis. cbn [fst snd]. rewrite sin_npi. ring.
Qed.
Lemma turn_pos h k fs : (0 < h)%nat -> fs <> 0 -> cexp (0, - (2 * PI) * (INR k * fs / INR (2 * h)) * (INR (2 * h) / 2 / fs)) = rc (cos (PI * INR k)).
Proof.
  intros H F. assert (0 < INR (2 * h)) by (apply lt_0_INR; lia). unfold cexp, rc. cbn [fst snd]. rewrite exp_0.
  replace (- (2 * PI) * (INR k * fs / INR (2 * h)) * (INR (2 * h) / 2 / fs)) with (- (PI * INR k)) by (field; lra).
  rewrite cos_neg, sin_neg, sin_npi. f_equal; ring.
Qed.
Lemma cos_back h k : (k <= 2 * h)%nat -> cos (PI * INR (2 * h - k)) = cos (PI * INR k).
Proof.
  intros H. rewrite minus_INR, mult_INR by lia. cbn [INR]. replace (PI * ((1 + 1) * INR h - INR k)) with (- (PI * INR k) + 2 * INR h * PI) by ring.
  rewrite cos_period. apply cos_neg.
Qed.
Lemma taps_length h fs g : length (band_taps (2 * h) fs g) = (2 * h)%nat.
Proof.
  unfold band_taps. rewrite mk_length. unfold irfft, irfft_n. rewrite !mk_length. replace (2 * h / 2)%nat with h by (rewrite Nat.mul_comm, Nat.div_mul; lia). lia.
Qed.
(** the response before the window *)
Definition plain_tap (h : nat) (a : nat -> R) (t : nat) : R :=
  rsum (2 * h) (fun k => a (fold_bin (2 * h) k) * fst (root (2 * h) (Z.of_nat k * Z.of_nat (h + t)))) / INR (2 * h).
Lemma taps_value h fs g t : (0 < h)%nat -> fs <> 0 -> (t < 2 * h)%nat ->
  nth t (band_taps (2 * h) fs g) 0 = nth t (hann (2 * h)) 0 * plain_tap h (fun k => g k * g k) t.
Proof.
  intros H F T. unfold band_taps. assert (D : (2 * h / 2 = h)%nat) by (rewrite Nat.mul_comm, Nat.div_mul; lia).
  assert (L : length (irfft (mk (2 * h / 2 + 1) (fun k => cmul (rc (g k * g k)) (cexp (0, - (2 * PI) * (INR k * fs / INR (2 * h)) * (INR (2 * h) / 2 / fs)))))) = (2 * h)%nat).
  { unfold irfft, irfft_n. rewrite !mk_length, D. lia. }
  rewrite L, nth_mk by auto. rewrite Rmult_comm. f_equal. unfold irfft. rewrite mk_length, D. replace (2 * (h + 1 - 1))%nat with (2 * h)%nat by lia.
  unfold irfft_n, get. rewrite nth_mk by auto. unfold plain_tap. f_equal. rewrite csum_fst. apply sum_ext. intros k K. rewrite half_turn by auto.
  unfold herm, fold_bin. rewrite D. destruct (Nat.leb_spec k h).
  - rewrite nth_mk by lia. rewrite turn_pos by auto. cbn. ring.
  - rewrite nth_mk by lia. rewrite turn_pos by auto. rewrite cos_back by lia. cbn. ring.
Qed.
Lemma one_root h t : (0 < h)%nat -> (t < 2 * h)%nat -> plain_tap h (fun _ => 1) t = if (t =? h)%nat then 1 else 0.
Proof.
  intros H T. unfold plain_tap. assert (0 < INR (2 * h)) by (apply lt_0_INR; lia).
  rewrite (sum_ext (2 * h) _ (fun k => fst (root (2 * h) (Z.of_nat k * Z.of_nat (h + t))))) by (intros; ring).
  rewrite <- csum_fst, root_sum by lia. destruct (Nat.eqb_spec t h) as [->|NE].
  - replace (Z.of_nat (h + h) mod Z.of_nat (2 * h))%Z with 0%Z by (replace (h + h)%nat with (2 * h)%nat by lia; rewrite Z.mod_same; lia). cbn [Z.eqb rc fst]. field. lra.
  - destruct (Z.eqb_spec (Z.of_nat (h + t) mod Z.of_nat (2 * h)) 0) as [E|E]; [|cbn; lra]. exfalso.
    apply Z.mod_divide in E; [|lia]. destruct E as [q E]. assert (q = 0 \/ q = 1 \/ q < 0 \/ 2 <= q)%Z by lia. nia.
Qed.
Lemma plain_sum h B (a : nat -> nat -> R) t : rsum B (fun b => plain_tap h (a b) t) = plain_tap h (fun k => rsum B (fun b => a b k)) t.
Proof.
  unfold plain_tap, Rdiv. rewrite (sum_scal_r (HA := CRing_R)). cbn [rmul CRing_R]. f_equal. rewrite (sum_exchange (HA := CRing_R)). apply sum_ext. intros k K.
  now rewrite (sum_scal_r (HA := CRing_R)).
Qed.
Lemma plain_ext h a a' t : (forall k, a k = a' k) -> plain_tap h a t = plain_tap h a' t.
Proof. intros E. unfold plain_tap. f_equal. apply sum_ext. intros. now rewrite E. Qed.
Lemma hann_mid h : (0 < h)%nat -> (1 < h)%nat -> nth h (hann (2 * h)) 0 = mid_gain (2 * h).
Proof.
  intros H H1. unfold hann. rewrite nth_mk by lia. replace (2 * h =? 1)%nat with false by (symmetry; apply Nat.eqb_neq; lia).
  unfold mid_gain. assert (D : 0 < INR (2 * h - 1)) by (apply lt_0_INR; lia).
  assert (E : INR h * 2 = INR (2 * h - 1) + 1) by (rewrite minus_INR, mult_INR by lia; cbn [INR]; lra).
  replace (2 * PI * INR h / INR (2 * h - 1)) with (PI / INR (2 * h - 1) + PI).
  2: { replace (2 * PI * INR h) with (PI * (INR h * 2)) by ring. rewrite E. field. lra. }
  rewrite neg_cos. lra.
Qed.

(** ** Theorems *)
Lemma valid_length j : (5 <= j <= 17)%nat -> existsb (Nat.eqb (2 ^ j)) (map (fun j => 2 ^ j)%nat (seq 5 13)) = true.
Proof. intros H. apply existsb_exists. exists (2 ^ j)%nat. split; [|apply Nat.eqb_refl]. apply in_map_iff. exists j. split; auto. apply in_seq. lia. Qed.
Lemma even_power j : (5 <= j)%nat -> exists h, (2 ^ j = 2 * h)%nat /\ (16 <= h)%nat /\ (2 ^ j / 2 = h)%nat.
Proof.
  intros H. exists (2 ^ (j - 1))%nat. assert (E : (2 ^ j = 2 * 2 ^ (j - 1))%nat) by (replace j with (S (j - 1)) at 1 by lia; reflexivity).
  split; auto. split. change 16%nat with (2 ^ 4)%nat. apply Nat.pow_le_mono_r; lia. rewrite E, Nat.mul_comm, Nat.div_mul; lia.
Qed.
Definition below (fs : Z) (ex : list R) : list R := filter (fun f => if Rlt_dec f (IZR fs / 2) then true else false) ex.
Lemma tl_map {T U} (f : T -> U) l : tl (map f l) = map f (tl l).
Proof. destruct l; reflexivity. Qed.
Lemma mid_gain_lt N : (3 <= N)%nat -> 0 < mid_gain N < 1.
Proof.
  intros H. unfold mid_gain. assert (D : 2 <= INR (N - 1)) by (change 2 with (INR 2); apply le_INR; lia). pose proof PI_RGT_0.
  assert (A : 0 < PI / INR (N - 1)) by (apply Rdiv_lt_0_compat; lra).
  assert (B : PI / INR (N - 1) <= PI / 2) by (unfold Rdiv; apply Rmult_le_compat_l; [lra|]; apply Rinv_le_contravar; lra).
  assert (cos (PI / INR (N - 1)) < 1). { rewrite <- cos_0. apply cos_decreasing_1; lra. }
  assert (0 <= cos (PI / INR (N - 1))) by (apply cos_ge_0; lra). lra.
Qed.
(** If the transitions between neighbouring bands lie apart, the outputs of all bands add up to the input, delayed by half the filter length and
    multiplied by one gain, which is the middle of the window and therefore below 1. *)
Theorem C109_reconstruction f0 f1 n overlap slope j fs nom ex : let N := (2 ^ j)%nat in
  (5 <= j <= 17)%nat -> 0 <= overlap <= 1 -> (0 < fs)%Z -> fractional_octave_frequencies n f0 f1 = Ok (nom, ex) -> below fs ex <> [] ->
  apart (N / 2 + 1) 0 (map (fun f => (edge_bin N fs n f, half_width N fs n overlap f)) (tl (below fs ex))) ->
  exists taps, reconstructing_bands f0 f1 n overlap slope N fs = Ok taps /\ length taps = length (below fs ex) /\
    Forall (fun h => length h = N) taps /\ 0 < mid_gain N < 1 /\
    forall x t, rsum (length taps) (fun b => conv (HA := CRing_R) (nth b taps []) x t) = mid_gain N * behind (N / 2) x t.
Proof.
  intros N J O F Ef NE A. destruct (even_power j ltac:(lia)) as (h & EN & H16 & Eh). fold N in EN, Eh. unfold reconstructing_bands.
  unfold N at 1. rewrite valid_length by auto. cbn [negb]. destruct (Rlt_dec overlap 0); [lra|]. destruct (Rlt_dec 1 overlap); [lra|].
  rewrite Ef. cbn [bind]. fold (below fs ex). rewrite tl_map.
  destruct (cuts_good (N / 2 + 1) slope (map (transition N (IZR fs) n overlap) (tl (below fs ex))) 0 0 _ good_start ltac:(lia) A) as (g & Eg & G).
  rewrite Eg. cbn [bind]. eexists. split; [reflexivity|]. rewrite mk_length. split; auto. split; [|split].
  - apply Forall_forall. intros y Y. apply (In_nth _ _ []) in Y. destruct Y as [b [B <-]]. rewrite mk_length in B. rewrite nth_mk by auto. rewrite EN. apply taps_length.
  - apply mid_gain_lt. lia.
  - intros x t. assert (FS : IZR fs <> 0) by (apply IZR_lt in F; lra).
    assert (Len : (1 + length (map (transition N (IZR fs) n overlap) (tl (below fs ex))) = length (below fs ex))%nat).
    { rewrite map_length. destruct (below fs ex); [easy|]. reflexivity. }
    rewrite Len in G.
    assert (K : forall k, rsum (length (below fs ex)) (fun b => nth k (band_taps N (IZR fs) (g b)) 0) = if (k =? h)%nat then mid_gain N else 0).
    { intros k. destruct (Nat.lt_ge_cases k N) as [L|L].
      - rewrite EN in *. rewrite (sum_ext _ _ (fun b => nth k (hann (2 * h)) 0 * plain_tap h (fun i => g b i * g b i) k)) by (intros b B; apply taps_value; auto; lia).
        rewrite (sum_scal_l (HA := CRing_R)). cbn [rmul CRing_R]. rewrite plain_sum, (plain_ext _ _ (fun _ => 1)) by auto. rewrite one_root by lia.
        destruct (Nat.eqb_spec k h) as [->|]; [rewrite hann_mid by lia; ring|ring].
      - rewrite (sum_ext _ _ (fun _ => r0)). rewrite sum_zero. destruct (Nat.eqb_spec k h); [lia|reflexivity].
        intros b B. rewrite EN in *. apply nth_overflow. rewrite taps_length. auto. }
    unfold conv. rewrite (sum_ext _ _ (fun b => rsum (S t) (fun k => nth k (band_taps N (IZR fs) (g b)) 0 * get (HA := CRing_R) x (t - k)))).
    2: { intros b B. rewrite nth_mk by auto. reflexivity. }
    rewrite (sum_exchange (HA := CRing_R)). rewrite (sum_ext (S t) _ (fun k => (if (k =? h)%nat then mid_gain N else 0) * get (HA := CRing_R) x (t - k))).
    2: { intros k _. rewrite (sum_scal_r (HA := CRing_R)). cbn [rmul CRing_R]. now rewrite K. }
    unfold behind. rewrite Eh. destruct (Nat.ltb_spec t h).
    + rewrite (sum_zero' (HA := CRing_R)). cbn. ring. intros k Hk. destruct (Nat.eqb_spec k h); [lia|]. cbn. ring.
    + rewrite (sum_single (HA := CRing_R) (S t) h); [|lia|intros k Hk NEk; destruct (Nat.eqb_spec k h); [lia|]; cbn; ring].
      rewrite Nat.eqb_refl. reflexivity.
Qed.
Print Assumptions C109_reconstruction.

(** Every filter is a response symmetric about the middle of the filter times a window that is symmetric about another point, half a sample
    before. *)
Theorem C109_symmetry f0 f1 n overlap slope j fs taps : let N := (2 ^ j)%nat in
  (5 <= j)%nat -> (0 < fs)%Z -> reconstructing_bands f0 f1 n overlap slope N fs = Ok taps ->
  forall b, (b < length taps)%nat -> exists p,
    (forall m, (m < N / 2)%nat -> p (N / 2 + m)%nat = p (N / 2 - m)%nat) /\
    forall t, (t < N)%nat -> nth t (nth b taps []) 0 = (1 / 2 - 1 / 2 * cos (2 * PI * INR t / INR (N - 1))) * p t.
Proof.
  intros N J F E b B. destruct (even_power j ltac:(lia)) as (h & EN & H16 & Eh). fold N in EN, Eh. unfold reconstructing_bands in E.
  destruct (negb _); [discriminate|]. destruct (Rlt_dec overlap 0); [discriminate|]. destruct (Rlt_dec 1 overlap); [discriminate|].
  destruct (fractional_octave_frequencies n f0 f1) as [[nom ex]|]; [|discriminate]. cbn [bind] in E.
  destruct (cut_bands _ _ _ _ _) as [g|]; [|discriminate]. cbn [bind] in E. assert (FS : IZR fs <> 0) by (apply IZR_lt in F; lra).
  injection E as <-. rewrite mk_length in B. rewrite nth_mk by auto. exists (plain_tap h (fun k => g b k * g b k)). rewrite Eh. split.
  - intros m M. unfold plain_tap. f_equal. apply sum_ext. intros k K. f_equal.
    replace (Z.of_nat k * Z.of_nat (h + (h + m)))%Z with (Z.of_nat (2 * h) * Z.of_nat k + Z.of_nat k * Z.of_nat m)%Z by lia.
    replace (Z.of_nat k * Z.of_nat (h + (h - m)))%Z with (Z.of_nat (2 * h) * Z.of_nat k + - (Z.of_nat k * Z.of_nat m))%Z by nia.
    rewrite !root_add, root_opp. rewrite !root_period by lia. cbn. ring.
  - intros t T. rewrite EN in *. rewrite taps_value by (auto; lia). f_equal. unfold hann. rewrite nth_mk by auto.
    replace (2 * h =? 1)%nat with false by (symmetry; apply Nat.eqb_neq; lia). reflexivity.
Qed.
Print Assumptions C109_symmetry.

(** ** Overlapping transitions *)
(** recovering the gains from the response *)
Lemma turn_sum h a : (0 < h)%nat -> rsum (2 * h) (fun t => fst (root (2 * h) (a * Z.of_nat (h + t)))) =
  if (a mod Z.of_nat (2 * h) =? 0)%Z then INR (2 * h) else 0.
Proof.
  intros H. rewrite <- csum_fst. rewrite (sum_ext (HA := CRing_C) _ _ (fun t => root (2 * h) (a * Z.of_nat h) *! root (2 * h) (Z.of_nat t * a))).
  2: { intros t _. rewrite Nat2Z.inj_add, Z.mul_add_distr_l, root_add, (Z.mul_comm a (Z.of_nat t)). reflexivity. }
  rewrite (sum_scal_l (HA := CRing_C)), root_sum by lia. destruct (Z.eqb_spec (a mod Z.of_nat (2 * h)) 0) as [E|E]; [|cbn; ring].
  apply Z.mod_divide in E; [|lia]. destruct E as [q ->]. replace (q * Z.of_nat (2 * h) * Z.of_nat h)%Z with (Z.of_nat (2 * h) * (q * Z.of_nat h))%Z by ring.
  rewrite root_period by lia. cbn. ring.
Qed.
Lemma fst_root_prod N a b : fst (root N a) * fst (root N b) = (fst (root N (a + b)) + fst (root N (a - b))) / 2.
Proof. unfold Z.sub. rewrite !root_add, root_opp. cbn. field. Qed.
Lemma recover h S j : (0 < h)%nat -> (0 < j < h)%nat -> rsum (2 * h) (fun t => plain_tap h S t * fst (root (2 * h) (Z.of_nat j * Z.of_nat (h + t)))) = S j.
Proof.
  intros H J. assert (P : 0 < INR (2 * h)) by (apply lt_0_INR; lia). unfold plain_tap.
  rewrite (sum_ext _ _ (fun t => rsum (2 * h) (fun k => S (fold_bin (2 * h) k) * ((fst (root (2 * h) ((Z.of_nat k + Z.of_nat j) * Z.of_nat (h + t))) +
     fst (root (2 * h) ((Z.of_nat k - Z.of_nat j) * Z.of_nat (h + t)))) / (2 * INR (2 * h)))))).
  2: { intros t _. unfold Rdiv. rewrite Rmult_assoc, <- (sum_scal_r (HA := CRing_R)). apply sum_ext. intros k _. cbn [rmul CRing_R].
       rewrite Z.mul_add_distr_r, Z.mul_sub_distr_r. rewrite Rmult_assoc. f_equal.
       replace (fst (root (2 * h) (Z.of_nat k * Z.of_nat (h + t))) * (/ INR (2 * h) * fst (root (2 * h) (Z.of_nat j * Z.of_nat (h + t)))))
         with (fst (root (2 * h) (Z.of_nat k * Z.of_nat (h + t))) * fst (root (2 * h) (Z.of_nat j * Z.of_nat (h + t))) * / INR (2 * h)) by ring.
       rewrite fst_root_prod. field. lra. }
  rewrite (sum_exchange (HA := CRing_R)).
  rewrite (sum_ext _ _ (fun k => (if (k =? j)%nat then S j / 2 else 0) + (if (k =? 2 * h - j)%nat then S j / 2 else 0))).
  2: { intros k K. rewrite (sum_scal_l (HA := CRing_R)). cbn [rmul CRing_R]. unfold Rdiv at 1.
       rewrite (sum_scal_r (HA := CRing_R)), (sum_add (HA := CRing_R)). cbn [rmul radd CRing_R]. rewrite !turn_sum by auto.
       destruct (Nat.eqb_spec k j) as [->|N1].
       - replace ((Z.of_nat j - Z.of_nat j) mod Z.of_nat (2 * h))%Z with 0%Z by (rewrite Z.sub_diag; now rewrite Z.mod_0_l by lia).
         replace ((Z.of_nat j + Z.of_nat j) mod Z.of_nat (2 * h) =? 0)%Z with false by (symmetry; apply Z.eqb_neq; rewrite Z.mod_small by lia; lia).
         replace (j =? 2 * h - j)%nat with false by (symmetry; apply Nat.eqb_neq; lia). cbn [Z.eqb].
         assert (FB : fold_bin (2 * h) j = j) by (unfold fold_bin; rewrite Nat.mul_comm, Nat.div_mul by lia; destruct (Nat.leb_spec j h); lia). rewrite FB. field. lra.
       - destruct (Nat.eqb_spec k (2 * h - j)) as [->|N2].
         + replace (Z.of_nat (2 * h - j) + Z.of_nat j)%Z with (Z.of_nat (2 * h)) by lia. rewrite Z.mod_same by lia.
           replace ((Z.of_nat (2 * h - j) - Z.of_nat j) mod Z.of_nat (2 * h) =? 0)%Z with false by (symmetry; apply Z.eqb_neq; rewrite Z.mod_small by lia; lia). cbn [Z.eqb].
           assert (FB : fold_bin (2 * h) (2 * h - j) = j) by (unfold fold_bin; rewrite (Nat.mul_comm 2 h), Nat.div_mul by lia; destruct (Nat.leb_spec (h * 2 - j) h); lia). rewrite FB. field. lra.
         + replace ((Z.of_nat k + Z.of_nat j) mod Z.of_nat (2 * h) =? 0)%Z with false.
           2: { symmetry. apply Z.eqb_neq. intros E. apply Z.mod_divide in E; [|lia]. destruct E as [q E]. assert (q <= 0 \/ q = 1 \/ 2 <= q)%Z by lia. nia. }
           replace ((Z.of_nat k - Z.of_nat j) mod Z.of_nat (2 * h) =? 0)%Z with false.
           2: { symmetry. apply Z.eqb_neq. intros E. apply Z.mod_divide in E; [|lia]. destruct E as [q E]. assert (q <= -1 \/ q = 0 \/ 1 <= q)%Z by lia. nia. }
           field. lra. }
  rewrite (sum_add (HA := CRing_R)). cbn [radd CRing_R].
  rewrite (sum_single (HA := CRing_R) (2 * h) j), (sum_single (HA := CRing_R) (2 * h) (2 * h - j)); try lia.
  - rewrite !Nat.eqb_refl. lra.
  - intros i _ NE. apply Nat.eqb_neq in NE. now rewrite NE.
  - intros i _ NE. apply Nat.eqb_neq in NE. now rewrite NE.
Qed.
Lemma plain_mirror h S m : (m <= h)%nat -> plain_tap h S (h + m) = plain_tap h S (h - m).
Proof.
  intros M. unfold plain_tap. f_equal. apply sum_ext. intros k K. f_equal.
  replace (Z.of_nat k * Z.of_nat (h + (h + m)))%Z with (Z.of_nat (2 * h) * Z.of_nat k + Z.of_nat k * Z.of_nat m)%Z by lia.
  replace (Z.of_nat k * Z.of_nat (h + (h - m)))%Z with (Z.of_nat (2 * h) * Z.of_nat k + - (Z.of_nat k * Z.of_nat m))%Z by nia.
  destruct (Nat.eq_dec h 0) as [->|]. { simpl in K. lia. }
  rewrite !root_add, root_opp. rewrite !root_period by lia. cbn. ring.
Qed.
Lemma hann_pos N t : (3 <= N)%nat -> (0 < t < N - 1)%nat -> 0 < nth t (hann N) 0.
Proof.
  intros H T. unfold hann. rewrite nth_mk by lia. replace (N =? 1)%nat with false by (symmetry; apply Nat.eqb_neq; lia).
  assert (D : 0 < INR (N - 1)) by (apply lt_0_INR; lia). assert (T1 : 0 < INR t) by (apply lt_0_INR; lia). assert (T2 : INR t < INR (N - 1)) by (apply lt_INR; lia).
  pose proof PI_RGT_0. assert (C : cos (2 * PI * INR t / INR (N - 1)) <> 1).
  { apply cos_lt_1. split. apply Rdiv_lt_0_compat; nra. apply (Rmult_lt_reg_r (INR (N - 1))); auto. unfold Rdiv. rewrite Rmult_assoc, Rinv_l by lra. nra. }
  pose proof (COS_bound (2 * PI * INR t / INR (N - 1))). lra.
Qed.
(** two odd bins with different sums of gains: the sum of the filters is not an impulse *)
Lemma uneven h S i j : (2 <= h)%nat -> (0 < 2 * i + 1 < h)%nat -> (0 < 2 * j + 1 < h)%nat -> S (2 * i + 1)%nat <> S (2 * j + 1)%nat ->
  exists t, (t < 2 * h)%nat /\ t <> h /\ nth t (hann (2 * h)) 0 * plain_tap h S t <> 0.
Proof.
  intros H I J NE.
  assert (D : (forall t, (t < 2 * h)%nat -> t <> h -> nth t (hann (2 * h)) 0 * plain_tap h S t = 0) -> False).
  { intros Z. apply NE. rewrite <- (recover h S (2 * i + 1)), <- (recover h S (2 * j + 1)) by lia. apply sum_ext. intros t T.
    assert (Z1 : t <> 0%nat -> t <> h -> plain_tap h S t = 0).
    { intros T0 Th. destruct (Nat.eq_dec t (2 * h - 1)) as [->|Tl].
      - replace (2 * h - 1)%nat with (h + (h - 1))%nat by lia. rewrite plain_mirror by lia. replace (h - (h - 1))%nat with 1%nat by lia.
        specialize (Z 1%nat ltac:(lia) ltac:(lia)). apply Rmult_integral in Z. destruct Z as [Z|]; auto. pose proof (hann_pos (2 * h) 1 ltac:(lia) ltac:(lia)). lra.
      - specialize (Z t T Th). apply Rmult_integral in Z. destruct Z as [Z|]; auto. pose proof (hann_pos (2 * h) t ltac:(lia) ltac:(lia)). lra. }
    assert (Odd : forall k, fst (root (2 * h) (Z.of_nat (2 * k + 1) * Z.of_nat (h + 0))) = -1).
    { intros k. rewrite half_turn by lia. replace (Z.of_nat (2 * k + 1) * Z.of_nat 0)%Z with 0%Z by lia. rewrite root_0. cbn [rc fst].
      rewrite plus_INR, mult_INR. cbn [INR]. replace (PI * ((1 + 1) * INR k + 1)) with (PI + 2 * INR k * PI) by ring. rewrite cos_period, cos_PI. ring. }
    assert (Mid : forall k, fst (root (2 * h) (Z.of_nat k * Z.of_nat (h + h))) = 1).
    { intros k. replace (Z.of_nat k * Z.of_nat (h + h))%Z with (Z.of_nat (2 * h) * Z.of_nat k)%Z by lia. rewrite root_period by lia. reflexivity. }
    destruct (Nat.eq_dec t 0) as [->|T0]; [now rewrite !Odd|]. destruct (Nat.eq_dec t h) as [->|Th]; [now rewrite !Mid|]. rewrite Z1 by auto. ring. }
  destruct (existsb (fun t => negb (t =? h)%nat && if Req_EM_T (nth t (hann (2 * h)) 0 * plain_tap h S t) 0 then false else true) (seq 0 (2 * h))) eqn:E.
  - apply existsb_exists in E. destruct E as (t & T & B). apply in_seq in T. apply andb_true_iff in B. destruct B as [B1 B2]. exists t.
    split; [lia|]. split. apply negb_true_iff in B1. now apply Nat.eqb_neq. destruct (Req_EM_T _ _); auto; discriminate.
  - exfalso. apply D. intros t T Th. destruct (Req_EM_T (nth t (hann (2 * h)) 0 * plain_tap h S t) 0) as [|NZ]; auto. exfalso.
    rewrite <- not_true_iff_false in E. apply E. apply existsb_exists. exists t. split; [apply in_seq; lia|]. apply andb_true_iff. split.
    apply negb_true_iff. now apply Nat.eqb_neq. destruct (Req_EM_T _ _); auto; contradiction.
Qed.
(** bins below a transition keep what was there, and are empty in the bands above *)
Lemma cuts_below nb slope k tr : forall b g g', cut_bands nb slope b tr g = Ok g' -> (1 <= b)%nat ->
  Forall (fun p => (0 <= snd p)%Z /\ (Z.of_nat k < fst p - snd p)%Z) tr ->
  (forall r, (r < b)%nat -> g' r k = g r k) /\ (forall r, (b <= r < b + length tr)%nat -> g' r k = 0).
Proof.
  induction tr as [|[k1 P] tr IH]; intros b g g' E B F.
  - injection E as <-. split; auto. simpl. lia.
  - inversion F as [|? ? [F1 F2] F3]. subst. cbn [fst snd] in *. cbn [cut_bands] in E. unfold cut_band in E. destruct (_ && negb _) in E; [discriminate|]. cbn [bind] in E.
    destruct (IH (S b) _ g' E ltac:(lia) F3) as [A D]. cbn [length]. split.
    + intros r R0. rewrite A by lia. replace (k1 + P <=? Z.of_nat k)%Z with false by (symmetry; apply Z.leb_gt; lia). rewrite andb_false_r.
      replace (r =? b)%nat with false by (symmetry; apply Nat.eqb_neq; lia). cbn [andb].
      replace (k1 - P <=? Z.of_nat k)%Z with false by (symmetry; apply Z.leb_gt; lia). now rewrite andb_false_r.
    + intros r R0. destruct (Nat.eq_dec r b) as [->|NE]; [|apply D; lia]. rewrite A by lia.
      replace (k1 + P <=? Z.of_nat k)%Z with false by (symmetry; apply Z.leb_gt; lia). rewrite andb_false_r, Nat.eqb_refl.
      replace (Z.of_nat k <? k1 - P)%Z with true by (symmetry; apply Z.ltb_lt; lia). reflexivity.
Qed.
(** the bins of the octave bands at 32 kHz with 2048 samples *)
Lemma bin_at e z : (0 < z)%Z -> (-40 <= e)%Z -> ((2 * z - 1) ^ 20 * 10 ^ 40 < 128 ^ 20 * 10 ^ (e + 40))%Z -> (128 ^ 20 * 10 ^ (e + 40) < (2 * z + 1) ^ 20 * 10 ^ 40)%Z ->
  np_round (64 * Rpower 10 (IZR e / 20)) = z.
Proof.
  intros Hz He. assert (Z1 : (0 < 2 * z - 1)%Z) by lia. assert (Z2 : (0 < 2 * z + 1)%Z) by lia. assert (E0 : (0 <= e + 40)%Z) by lia.
  assert (Z3 : 0 < IZR (2 * z - 1)) by (now apply IZR_lt). assert (Z4 : 0 < IZR (2 * z + 1)) by (now apply IZR_lt).
  set (v := 64 * Rpower 10 (IZR e / 20)).
  assert (V : 0 < v) by (unfold v, Rpower; pose proof (exp_pos (IZR e / 20 * ln 10)); lra).
  assert (L : 20 * ln (2 * v) = 20 * ln 128 + IZR e * ln 10).
  { unfold v. replace (2 * (64 * Rpower 10 (IZR e / 20))) with (128 * Rpower 10 (IZR e / 20)) by ring.
    rewrite ln_mult; [|lra|unfold Rpower; apply exp_pos]. unfold Rpower. rewrite ln_exp. field. }
  assert (PP : forall a k, (0 < a)%Z -> (0 <= k)%Z -> (0 < a ^ 20 * 10 ^ k)%Z).
  { intros a k A K. apply Z.mul_pos_pos; apply Z.pow_pos_nonneg; auto; discriminate || reflexivity. }
  assert (LN : forall a k, (0 < a)%Z -> (0 <= k)%Z -> ln (IZR (a ^ 20 * 10 ^ k)) = 20 * ln (IZR a) + IZR k * ln 10).
  { intros a k A K. rewrite mult_IZR, ln_mult; [|apply IZR_lt, Z.pow_pos_nonneg; auto; discriminate|apply IZR_lt, Z.pow_pos_nonneg; auto; reflexivity].
    rewrite (ln_Zpow a 20), (ln_Zpow 10 k); auto; reflexivity || discriminate. }
  assert (LT : forall a k b l, (0 < a)%Z -> (0 <= k)%Z -> (0 < b)%Z -> (0 <= l)%Z -> (a ^ 20 * 10 ^ k < b ^ 20 * 10 ^ l)%Z ->
    20 * ln (IZR a) + IZR k * ln 10 < 20 * ln (IZR b) + IZR l * ln 10).
  { intros a k b l A K B0 L0 Q. rewrite <- !LN by auto. apply ln_increasing; apply IZR_lt; auto. }
  intros Hl Hu. apply LT in Hl; auto; try discriminate; try reflexivity. apply LT in Hu; auto; try discriminate; try reflexivity. clear LT LN PP.
  rewrite plus_IZR in Hl, Hu.
  assert (A : IZR (2 * z - 1) < 2 * v). { apply ln_lt_inv; lra. }
  assert (B : 2 * v < IZR (2 * z + 1)). { apply ln_lt_inv; lra. }
  rewrite minus_IZR, mult_IZR in A. rewrite plus_IZR, mult_IZR in B.
  apply round_char; [unfold nearest; apply Rabs_le; lra|]. intro H1. exfalso. unfold Rabs in H1. destruct (Rcase_abs _); lra.
Qed.
Lemma bin_lower k : INR 2048 * lower_cutoff 1 (base10 1 k) / 32000 = 64 * Rpower 10 (IZR (6 * k - 3) / 20).
Proof.
  unfold lower_cutoff, base10, octave_ratio. rewrite Rpower_mult. rewrite Rmult_assoc, <- Rpower_plus. replace (INR 2048) with 2048 by (rewrite INR_IZR_INZ; reflexivity).
  replace (3 * IZR k / (10 * INR 1) + 3 / 10 * (-1 / 2 / INR 1)) with (IZR (6 * k - 3) / 20) by (rewrite minus_IZR, mult_IZR; cbn [INR]; field). field.
Qed.
Lemma bin_upper k : INR 2048 * upper_cutoff 1 (base10 1 k) / 32000 = 64 * Rpower 10 (IZR (6 * k + 3) / 20).
Proof.
  unfold upper_cutoff, base10, octave_ratio. rewrite Rpower_mult. rewrite Rmult_assoc, <- Rpower_plus. replace (INR 2048) with 2048 by (rewrite INR_IZR_INZ; reflexivity).
  replace (3 * IZR k / (10 * INR 1) + 3 / 10 * (1 / 2 / INR 1)) with (IZR (6 * k + 3) / 20) by (rewrite plus_IZR, mult_IZR; cbn [INR]; field). field.
Qed.
Lemma bin_centre k : INR 2048 * base10 1 k / 32000 = 64 * Rpower 10 (IZR (6 * k) / 20).
Proof.
  unfold base10. replace (INR 2048) with 2048 by (rewrite INR_IZR_INZ; reflexivity).
  replace (3 * IZR k / (10 * INR 1)) with (IZR (6 * k) / 20) by (rewrite mult_IZR; cbn [INR]; field). field.
Qed.
Lemma half_even_at z w : (2 * z - 1 < w < 2 * z + 1)%Z \/ (Z.even z = true /\ (w = 2 * z - 1 \/ w = 2 * z + 1)%Z) -> np_round (1 / 2 * IZR w) = z.
Proof.
  intros H. apply round_char.
  - unfold nearest. apply Rabs_le. destruct H as [[A B]|[_ [-> | ->]]].
    + apply IZR_lt in A, B. rewrite minus_IZR, mult_IZR in A. rewrite plus_IZR, mult_IZR in B. lra.
    + rewrite minus_IZR, mult_IZR. lra.
    + rewrite plus_IZR, mult_IZR. lra.
  - intros E. destruct H as [[A B]|[V _]]; auto. exfalso. apply IZR_lt in A, B. rewrite minus_IZR, mult_IZR in A. rewrite plus_IZR, mult_IZR in B.
    unfold Rabs in E. destruct (Rcase_abs _); lra.
Qed.
Lemma trans_at k k1 km k2 P : np_round (64 * Rpower 10 (IZR (6 * k - 3) / 20)) = k1 -> np_round (64 * Rpower 10 (IZR (6 * k) / 20)) = km ->
  np_round (64 * Rpower 10 (IZR (6 * k + 3) / 20)) = k2 -> np_round (1 / 2 * IZR (k2 - km)) = P -> transition 2048 32000 1 1 (base10 1 k) = (k1, P).
Proof. intros A B C D. unfold transition. rewrite bin_lower, bin_upper, bin_centre, A, B, C. now rewrite D. Qed.
Ltac bin := apply bin_at; [lia|lia|vm_compute; reflexivity|vm_compute; reflexivity].
Lemma octaves_32k : map (transition 2048 32000 1 1) (map (base10 1) [-3; -2; -1; 0; 1; 2; 3; 4]%Z) =
  [(6, 2); (11, 4); (23, 6); (45, 13); (90, 26); (180, 52); (360, 105); (718, 210)]%Z.
Proof.
  cbn [map].
  rewrite (trans_at (-3) 6 8 11 2) by (bin || (apply half_even_at; cbn; lia)).
  rewrite (trans_at (-2) 11 16 23 4) by (bin || (apply half_even_at; cbn; lia)).
  rewrite (trans_at (-1) 23 32 45 6) by (bin || (apply half_even_at; cbn; lia)).
  rewrite (trans_at 0 45 64 90 13) by (bin || (apply half_even_at; cbn; lia)).
  rewrite (trans_at 1 90 128 180 26) by (bin || (apply half_even_at; cbn; lia)).
  rewrite (trans_at 2 180 255 360 52) by (bin || (apply half_even_at; cbn; lia)).
  rewrite (trans_at 3 360 508 718 105) by (bin || (apply half_even_at; cbn; lia)).
  rewrite (trans_at 4 718 1014 1433 210) by (bin || (apply half_even_at; cbn; lia)).
  reflexivity.
Qed.
Lemma filter_tenths a b l : filter (inside_range (IZR a) (IZR b)) (map (fun z => IZR z / 10) l) = map (fun z => IZR z / 10) (filter (fun z => (10 * a <=? z)%Z && (z <=? 10 * b)%Z) l).
Proof.
  induction l as [|z l IH]; [reflexivity|]. cbn [map filter].
  assert (E : inside_range (IZR a) (IZR b) (IZR z / 10) = (10 * a <=? z)%Z && (z <=? 10 * b)%Z).
  { unfold inside_range. f_equal.
    - destruct (Z.leb_spec (10 * a) z) as [H|H]; [apply IZR_le in H|apply IZR_lt in H]; rewrite mult_IZR in H; destruct (Rle_dec (IZR a) (IZR z / 10)); auto; lra.
    - destruct (Z.leb_spec z (10 * b)) as [H|H]; [apply IZR_le in H|apply IZR_lt in H]; rewrite mult_IZR in H; destruct (Rle_dec (IZR z / 10) (IZR b)); auto; lra. }
  rewrite E. destruct (_ && _); cbn [map]; rewrite IH; reflexivity.
Qed.
Lemma exact_octaves : map (fun z => iec_exact 1 (IZR z / 10)) nominal_octaves = map (base10 1) [-5; -4; -3; -2; -1; 0; 1; 2; 3; 4]%Z.
Proof.
  transitivity (map (fun k => 1000 * Rpower octave_ratio (IZR k / INR 1)) (map (fun z => iec_index 1 (IZR z / 10)) nominal_octaves)).
  - rewrite map_map. apply map_ext. intros z. unfold iec_exact. reflexivity.
  - rewrite octave_indices. change (map (fun i => (-5 + Z.of_nat i)%Z) (seq 0 10)) with [-5; -4; -3; -2; -1; 0; 1; 2; 3; 4]%Z. apply map_ext. intros k. apply ratio_base10. lia.
Qed.
Lemma centres_from a l : (a <= 16000)%Z -> filter (fun z => (10 * a <=? z)%Z && (z <=? 10 * 16000)%Z) nominal_octaves = skipn l nominal_octaves ->
  exists nom, fractional_octave_frequencies 1 (IZR a) 16000 = Ok (nom, skipn l (map (base10 1) [-5; -4; -3; -2; -1; 0; 1; 2; 3; 4]%Z)).
Proof.
  intros H E. unfold fractional_octave_frequencies. apply IZR_le in H. destruct (Rlt_dec 16000 (IZR a)); [lra|]. eexists. f_equal. f_equal.
  rewrite (filter_tenths a 16000), E, map_map, <- exact_octaves. symmetry. apply skipn_map.
Qed.
Lemma default_centres : exists nom, fractional_octave_frequencies 1 63 16000 = Ok (nom, map (base10 1) [-4; -3; -2; -1; 0; 1; 2; 3; 4]%Z).
Proof. exact (centres_from 63 1 ltac:(lia) eq_refl). Qed.
Lemma upper_centres : exists nom, fractional_octave_frequencies 1 250 16000 = Ok (nom, map (base10 1) [-2; -1; 0; 1; 2; 3; 4]%Z).
Proof. exact (centres_from 250 3 ltac:(lia) eq_refl). Qed.
Lemma centre_lt k : (k <= 4)%Z -> base10 1 k < 16000.
Proof.
  intros K. unfold base10. replace (3 * IZR k / (10 * INR 1)) with (3 * IZR k / 10) by (cbn [INR]; field).
  assert (K4 : IZR k <= 4) by (apply IZR_le in K; lra). assert (L10 : 0 < ln 10) by (rewrite <- ln_1; apply ln_increasing; lra).
  assert (A : 5 * (6 * ln 10) < 25 * (ln 16)).
  { assert (Q : ln (IZR (10 ^ 6)) < ln (IZR (16 ^ 5))) by (apply ln_increasing; apply IZR_lt; reflexivity). rewrite !ln_Zpow in Q by lia. lra. }
  assert (B : Rpower 10 (3 * IZR k / 10) < 16). { rewrite <- (exp_ln 16) by lra. unfold Rpower. apply exp_increasing. nra. }
  lra.
Qed.
Lemma iter_inside slope v : -1 < v < 1 -> -1 < Nat.iter slope (fun v => sin (PI / 2 * v)) v < 1.
Proof.
  intros V. induction slope; simpl; auto. pose proof PI_RGT_0. set (w := Nat.iter _ _ _) in *.
  assert (SN : sin (- (PI / 2)) = -1) by (rewrite sin_neg, sin_PI2; reflexivity). pose proof sin_PI2 as SP.
  split; [rewrite <- SN|rewrite <- SP]; apply sin_increasing_1; nra.
Qed.
Lemma iter_low slope : Nat.iter slope (fun v => sin (PI / 2 * v)) (-1) = -1.
Proof. induction slope; simpl; auto. rewrite IHslope. replace (PI / 2 * -1) with (- (PI / 2)) by ring. now rewrite sin_neg, sin_PI2. Qed.
(** The default octave bands at 32 kHz overlap: two transitions share bin 7, where the gains add up to more than 1, and the sum of the filters is
    not an impulse. *)
Theorem C109_default_refuted slope : exists taps, reconstructing_bands 63 16000 1 1 slope 2048 32000 = Ok taps /\ length taps = 9%nat /\
  exists t, (t < 2048)%nat /\ t <> 1024%nat /\ rsum 9 (fun b => nth t (nth b taps []) 0) <> 0.
Proof.
  destruct default_centres as (nom & EC). unfold reconstructing_bands. change 2048%nat with (2 ^ 11)%nat at 1. rewrite valid_length by lia. cbn [negb].
  destruct (Rlt_dec 1 0); [lra|]. destruct (Rlt_dec 1 1); [lra|]. rewrite EC. cbn [bind].
  assert (EF : filter (fun f => if Rlt_dec f (32000 / 2) then true else false) (map (base10 1) [-4; -3; -2; -1; 0; 1; 2; 3; 4]%Z) = map (base10 1) [-4; -3; -2; -1; 0; 1; 2; 3; 4]%Z).
  { cbn [map filter]. repeat (match goal with |- context [Rlt_dec (base10 1 ?k) ?b] => destruct (Rlt_dec (base10 1 k) b) as [_|NL];
      [|exfalso; apply NL; pose proof (centre_lt k ltac:(lia)); lra] end). reflexivity. }
  rewrite EF, tl_map. change (tl (map (base10 1) [-4; -3; -2; -1; 0; 1; 2; 3; 4]%Z)) with (map (base10 1) [-3; -2; -1; 0; 1; 2; 3; 4]%Z). rewrite octaves_32k.
  replace (2048 / 2 + 1)%nat with 1025%nat by (vm_compute; reflexivity).
  set (c1 := cos (PI / 2 * course slope 2 1)).
  assert (C1 : c1 * c1 > 0).
  { assert (Q : c1 > 0); [|nra]. unfold c1. pose proof (iter_inside slope (1 / 2) ltac:(lra)) as I. pose proof PI_RGT_0.
    apply cos_gt_0; unfold course; set (w := Nat.iter _ _ _) in *; nra. }
  remember [(23, 6); (45, 13); (90, 26); (180, 52); (360, 105); (718, 210)]%Z as rest eqn:ER.
  assert (Step1 : exists g1, cut_band 1025 slope 1 6 2 (fun _ _ => 1) = Ok g1 /\ g1 0%nat 7%nat = c1 /\ g1 0%nat 1%nat = 1 /\ g1 1%nat 1%nat = 0 /\ (forall k, g1 2%nat k = 1) /\ forall r k, (2 <= r)%nat -> g1 r k = 1).
  { unfold cut_band. replace ((0 <? 2)%Z && negb ((0 <=? 6 - 2)%Z && (6 + 2 + 1 <=? Z.of_nat 1025)%Z)) with false by (vm_compute; reflexivity).
    eexists. split; [reflexivity|]. repeat split; auto. intros k. cbn [Nat.eqb Nat.sub andb]. destruct (_ && _ && _); auto.
    intros r k R0. replace (r =? 1 - 1)%nat with false by (symmetry; apply Nat.eqb_neq; lia). replace (r =? 1)%nat with false by (symmetry; apply Nat.eqb_neq; lia). cbn [andb]. destruct (_ && _ && _); auto. }
  destruct Step1 as (g1 & E1 & A1 & A2 & A3 & A4 & A5).
  assert (Step2 : exists g2, cut_band 1025 slope 2 11 4 g1 = Ok g2 /\ g2 0%nat 7%nat = c1 /\ g2 1%nat 7%nat = 1 /\ g2 2%nat 7%nat = 0 /\ g2 0%nat 1%nat = 1 /\ g2 1%nat 1%nat = 0 /\ g2 2%nat 1%nat = 0).
  { unfold cut_band. replace ((0 <? 4)%Z && negb ((0 <=? 11 - 4)%Z && (11 + 4 + 1 <=? Z.of_nat 1025)%Z)) with false by (vm_compute; reflexivity).
    eexists. split; [reflexivity|].
    assert (Co : course slope 4 (-4) = 0). { unfold course. replace (IZR (-4) / IZR 4) with (-1) by field. rewrite iter_low. ring. }
    cbv beta. cbn [Nat.sub].
    repeat match goal with |- context [(?a <=? ?b)%Z] => let v := eval vm_compute in (a <=? b)%Z in change (a <=? b)%Z with v end.
    repeat match goal with |- context [(?a <? ?b)%Z] => let v := eval vm_compute in (a <? b)%Z in change (a <? b)%Z with v end.
    cbn [Nat.eqb andb]. change (Z.of_nat 7 - 11)%Z with (-4)%Z. rewrite Co, Rmult_0_r, cos_0, sin_0. repeat split; auto. }
  destruct Step2 as (g2 & E2 & B1 & B2 & B3 & B4 & B5 & B6).
  assert (Rest : exists g3, cut_bands 1025 slope 3 rest g2 = Ok g3).
  { subst rest. cbn [cut_bands]. unfold cut_band.
    repeat (match goal with |- context [(0 <? ?P)%Z && negb ?c] => replace ((0 <? P)%Z && negb c) with false by (vm_compute; reflexivity) end; cbn [bind]).
    eexists. reflexivity. }
  destruct Rest as (g3 & E3).
  assert (Low : forall k, (k <= 16)%nat -> Forall (fun p => (0 <= snd p)%Z /\ (Z.of_nat k < fst p - snd p)%Z) rest).
  { intros k K. subst rest. repeat constructor; cbn [fst snd]; lia. }
  destruct (cuts_below _ _ 7 _ _ _ _ E3 ltac:(lia) (Low 7%nat ltac:(lia))) as [P7 Q7]. destruct (cuts_below _ _ 1 _ _ _ _ E3 ltac:(lia) (Low 1%nat ltac:(lia))) as [P1 Q1].
  assert (LR : length rest = 6%nat) by (now subst rest). rewrite LR in Q7, Q1.
  exists (mk 9 (fun b => band_taps 2048 32000 (g3 b))).
  assert (EB : cut_bands 1025 slope 1 ((6, 2)%Z :: (11, 4)%Z :: rest) (fun _ _ => 1) = Ok g3).
  { cbn [cut_bands]. rewrite E1. cbn [bind cut_bands]. rewrite E2. cbn [bind]. exact E3. }
  split; [|split].
  - rewrite EB. reflexivity.
  - apply mk_length.
  - set (S := fun k => rsum 9 (fun b => g3 b k * g3 b k)).
    destruct (uneven 1024 S 0 3 ltac:(lia) ltac:(lia) ltac:(lia)) as (t & T & TN & NZ).
    { unfold S. cbn [sum Nat.mul Nat.add]. rewrite !(P7 0%nat), !(P7 1%nat), !(P7 2%nat), !(P1 0%nat), !(P1 1%nat), !(P1 2%nat) by lia.
      rewrite B1, B2, B3, B4, B5, B6. rewrite !(Q7 3%nat), !(Q7 4%nat), !(Q7 5%nat), !(Q7 6%nat), !(Q7 7%nat), !(Q7 8%nat), !(Q1 3%nat), !(Q1 4%nat), !(Q1 5%nat), !(Q1 6%nat), !(Q1 7%nat), !(Q1 8%nat) by lia.
      cbn [radd r0 CRing_R]. lra. }
    exists t. split; [lia|]. split; [lia|]. rewrite (sum_ext 9 _ (fun b => nth t (hann (2 * 1024)) 0 * plain_tap 1024 (fun k => g3 b k * g3 b k) t)).
    2: { intros b B. rewrite nth_mk by auto. change 2048%nat with (2 * 1024)%nat. apply taps_value; [lia|lra|lia]. }
    rewrite (sum_scal_l (HA := CRing_R)). cbn [rmul CRing_R]. rewrite plain_sum. exact NZ.
Qed.
Print Assumptions C109_default_refuted.
(** From 250 Hz on the transitions of the same bank are apart: the hypotheses of C109_reconstruction hold for seven bands. *)
Example C109_upper slope : exists taps, reconstructing_bands 250 16000 1 1 slope 2048 32000 = Ok taps /\ length taps = 7%nat /\
  forall x t, rsum 7 (fun b => conv (HA := CRing_R) (nth b taps []) x t) = mid_gain 2048 * behind 1024 x t.
Proof.
  destruct upper_centres as (nom & EC).
  assert (EF : below 32000 (map (base10 1) [-2; -1; 0; 1; 2; 3; 4]%Z) = map (base10 1) [-2; -1; 0; 1; 2; 3; 4]%Z).
  { unfold below. cbn [map filter]. repeat (match goal with |- context [Rlt_dec (base10 1 ?k) ?b] => destruct (Rlt_dec (base10 1 k) b) as [_|NL];
      [|exfalso; apply NL; pose proof (centre_lt k ltac:(lia)); lra] end). reflexivity. }
  destruct (C109_reconstruction 250 16000 1 1 slope 11 32000 nom _ ltac:(lia) ltac:(lra) ltac:(lia) EC) as (taps & E & L & _ & _ & Sum).
  - rewrite EF. discriminate.
  - rewrite EF. change (tl (map (base10 1) [-2; -1; 0; 1; 2; 3; 4]%Z)) with (map (base10 1) [-1; 0; 1; 2; 3; 4]%Z).
    change (map (transition (2 ^ 11) (IZR 32000) 1 1) (map (base10 1) [-1; 0; 1; 2; 3; 4]%Z)) with (skipn 2 (map (transition 2048 32000 1 1) (map (base10 1) [-3; -2; -1; 0; 1; 2; 3; 4]%Z))).
    change (apart (2 ^ 11 / 2 + 1) 0 (skipn 2 (map (transition 2048 32000 1 1) (map (base10 1) [-3; -2; -1; 0; 1; 2; 3; 4]%Z)))).
    rewrite octaves_32k. cbn [skipn apart]. replace (2 ^ 11 / 2 + 1)%nat with 1025%nat by (vm_compute; reflexivity). repeat split; lia.
  - rewrite EF in L. cbn [map length] in L. exists taps. split; [exact E|]. split; [exact L|]. intros x t. specialize (Sum x t). rewrite L in Sum. exact Sum.
Qed.
Example C109_upper_symmetry slope : exists taps, reconstructing_bands 250 16000 1 1 slope 2048 32000 = Ok taps /\ (3 < length taps)%nat.
Proof. destruct (C109_upper slope) as (taps & E & L & _). exists taps. split; [exact E|]. rewrite L. lia. Qed.
