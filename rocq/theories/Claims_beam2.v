(** C69: minimum variance, functional and orthogonal beamforming. *)
From Coq Require Import List Arith Lia ZArith Bool Reals Lra Psatz.
From Verif Require Import Alg Spec Dft M_arrays M_scaling M_latency M_distances M_welch P_ar P_biquad P_parseval P_distances P_welch Claims_room Claims_tf Claims_welch M_beam Claims_grid Claims_steering Claims_das.
Import ListNotations.
Local Open Scope R_scope.
Add Ring crcb2 : (@rth C CRing_C).

(** ** Specification *)
Definition delta (i j : nat) : C := if (i =? j)%nat then rc 1 else rc 0.
Definition mprod (n : nat) (A B : nat -> nat -> C) (i j : nat) : C := csum n (fun k => cmul (A i k) (B k j)).
Definition apply (n : nat) (M : nat -> nat -> C) (v : nat -> C) (i : nat) : C := csum n (fun j => cmul (M i j) (v j)).
Definition hermitian (n : nat) (M : nat -> nat -> C) : Prop := forall i j, (i < n)%nat -> (j < n)%nat -> M i j = cconj (M j i).
Definition inverse_of (n : nat) (A B : nat -> nat -> C) : Prop := forall i j, (i < n)%nat -> (j < n)%nat -> mprod n A B i j = delta i j.

(** ** Lemmas *)
Notation bil n x M y := (csum n (fun i => cmul (cconj (x i)) (apply n M y i))).
Lemma form2_bil n v M : form2 n v M = bil n v M v.
Proof. unfold form2, apply. apply sum_ext. intros i Hi. change cmul with (@rmul C CRing_C) at 3. rewrite <- (sum_scal_l (HA := CRing_C)). apply sum_ext. intros. change (@rmul C CRing_C) with cmul. cring. Qed.
Lemma csum_scale n k (F : nat -> C) : csum n (fun i => cmul k (F i)) = cmul k (csum n F).
Proof. apply (sum_scal_l (HA := CRing_C)). Qed.
Lemma csum_add n (F G : nat -> C) : csum n (fun i => cadd (F i) (G i)) = cadd (csum n F) (csum n G).
Proof. apply (sum_add (HA := CRing_C)). Qed.
Lemma csum_sub n (F G : nat -> C) : csum n (fun i => csub (F i) (G i)) = csub (csum n F) (csum n G).
Proof. apply (sum_sub (HA := CRing_C)). Qed.
Lemma csum_delta n i (F : nat -> C) : (i < n)%nat -> csum n (fun j => cmul (delta i j) (F j)) = F i.
Proof.
  intros Hi. rewrite (sum_single (HA := CRing_C) n i _ Hi). unfold delta. rewrite Nat.eqb_refl. change (rc 1) with (@r1 C CRing_C). cring.
  intros j Hj Hn. unfold delta. destruct (Nat.eqb_spec i j); [lia|]. change (rc 0) with (@r0 C CRing_C). cring.
Qed.
Lemma csum_swap n m (F : nat -> nat -> C) : csum n (fun i => csum m (fun j => F i j)) = csum m (fun j => csum n (fun i => F i j)).
Proof. apply (sum_exchange (HA := CRing_C)). Qed.
Lemma apply_mprod n A B v i : (i < n)%nat -> apply n A (apply n B v) i = apply n (mprod n A B) v i.
Proof.
  intros Hi. unfold apply, mprod. transitivity (csum n (fun k => csum n (fun j => cmul (cmul (A i k) (B k j)) (v j)))).
  - apply sum_ext. intros k Hk. rewrite <- csum_scale. apply sum_ext. intros. cring.
  - rewrite csum_swap. apply sum_ext. intros j Hj. change cmul with (@rmul C CRing_C). now rewrite (sum_scal_r (HA := CRing_C)).
Qed.
Lemma apply_inverse n A B v i : inverse_of n A B -> (i < n)%nat -> apply n A (apply n B v) i = v i.
Proof. intros I Hi. rewrite apply_mprod by auto. unfold apply. rewrite (sum_ext (HA := CRing_C) n _ (fun j => cmul (delta i j) (v j))). now apply csum_delta. intros j Hj. now rewrite I. Qed.
Lemma bil_swap n x M y : hermitian n M -> bil n x M y = cconj (bil n y M x).
Proof.
  intros Hm. rewrite csum_conj. unfold apply. transitivity (csum n (fun i => csum n (fun j => cmul (cmul (cconj (x i)) (M i j)) (y j)))).
  - apply sum_ext. intros i Hi. rewrite <- csum_scale. apply sum_ext. intros. cring.
  - rewrite csum_swap. apply sum_ext. intros j Hj. rewrite cconj_mul, cconj_conj, csum_conj. rewrite <- csum_scale. apply sum_ext. intros i Hi. rewrite cconj_mul. rewrite (Hm i j) by auto. cring.
Qed.
Lemma power_apply h m n M : length h = n -> (forall i j, (i < n)%nat -> (j < n)%nat -> entry m i j = M i j) -> quad h m = bil n (cnth h) M (cnth h).
Proof. intros L A. rewrite quad_form2, L, <- form2_bil. now apply form2_ext. Qed.
Lemma bil_ext n x M y y' : (forall i, (i < n)%nat -> y i = y' i) -> bil n x M y = bil n x M y'.
Proof. intros E. apply sum_ext. intros i Hi. f_equal. unfold apply. apply sum_ext. intros j Hj. now rewrite E. Qed.

(** ** Minimum variance *)
(** For a Hermitian, positive definite matrix with the given inverse the value of the map is the least output power of all weights that
    pass the steering vector with gain one: no such weights have less power, and some have exactly this power. *)
Definition positive_definite (n : nat) (M : nat -> nat -> C) : Prop := forall v, (exists i, (i < n)%nat /\ v i <> rc 0) -> exists q, 0 < q /\ form2 n v M = rc q.
Lemma mvdr_facts n M h m : length h = n -> hermitian n M -> positive_definite n M -> inverse_of n M (entry m) -> (exists i, (i < n)%nat /\ cnth h i <> rc 0) ->
  let u := apply n (entry m) (cnth h) in exists q, 0 < q /\ mvdr_value h m = / q /\ form2 n u M = rc q /\ (forall w, Sxy n w (cnth h) = bil n w M u) /\ bil n (cnth h) (entry m) (cnth h) = rc q.
Proof.
  intros L Hm Pd Inv (i0 & Hi0 & Z) u. assert (U : forall i, (i < n)%nat -> apply n M u i = cnth h i) by (intros i Hi; now apply apply_inverse).
  assert (Uz : exists i, (i < n)%nat /\ u i <> rc 0).
  { destruct (Classical_Prop.classic (exists i, (i < n)%nat /\ u i <> rc 0)) as [X|X]; auto. exfalso. apply Z. rewrite <- (U i0 Hi0). unfold apply at 1. change (rc 0) with (@r0 C CRing_C). apply (sum_zero' (HA := CRing_C)). intros j Hj.
    assert (E : u j = rc 0) by (destruct (Classical_Prop.classic (u j = rc 0)) as [Y|Y]; auto; exfalso; apply X; exists j; auto). rewrite E. change (rc 0) with (@r0 C CRing_C). cring. }
  destruct (Pd u Uz) as (q & Q & E). exists q. assert (W : forall w, Sxy n w (cnth h) = bil n w M u). { intros w. unfold Sxy. apply sum_ext. intros i Hi. now rewrite U. }
  assert (B : bil n (cnth h) (entry m) (cnth h) = rc q).
  { fold u. transitivity (Sxy n (cnth h) u); [reflexivity|]. rewrite <- (cconj_conj (Sxy n (cnth h) u)). rewrite <- Sxy_swap. rewrite W, <- form2_bil, E. apply c_ext; cbn; ring. }
  repeat split; auto. unfold mvdr_value, power. rewrite (power_apply h m n (entry m)) by auto. rewrite B. cbn [fst rc]. field. lra.
Qed.
Theorem C69_minimum_variance :
  forall n M h m, length h = n -> hermitian n M -> positive_definite n M -> inverse_of n M (entry m) -> (exists i, (i < n)%nat /\ cnth h i <> rc 0) ->
  (forall w, Sxy n w (cnth h) = rc 1 -> mvdr_value h m <= fst (form2 n w M)) /\ (exists w, Sxy n w (cnth h) = rc 1 /\ form2 n w M = rc (mvdr_value h m)).
Proof.
  intros n M h m L Hm Pd Inv Z. destruct (mvdr_facts n M h m L Hm Pd Inv Z) as (q & Q & V & E & W & _). set (u := apply n (entry m) (cnth h)) in *. rewrite V. split.
  - intros w H1. set (y := fun i => csub (w i) (cmulr (u i) (/ q))). assert (Y : form2 n y M = rc (fst (form2 n w M) - / q)).
    { assert (B1 : bil n w M u = rc 1) by now rewrite <- W. assert (B2 : bil n u M w = rc 1) by (rewrite bil_swap, B1 by auto; apply c_ext; cbn; ring).
      rewrite form2_bil in E. assert (Ap : forall i, (i < n)%nat -> apply n M y i = csub (apply n M w i) (cmul (rc (/ q)) (apply n M u i))).
      { intros i Hi. unfold apply. rewrite <- csum_scale, <- csum_sub. apply sum_ext. intros j Hj. unfold y. replace (cmulr (u j) (/ q)) with (cmul (rc (/ q)) (u j)) by (apply c_ext; cbn; ring). cring. }
      assert (Ex : form2 n y M = cadd (csub (csub (bil n w M w) (cmul (rc (/ q)) (bil n w M u))) (cmul (rc (/ q)) (bil n u M w))) (cmul (cmul (rc (/ q)) (rc (/ q))) (bil n u M u))).
      { rewrite form2_bil. rewrite <- !csum_scale, <- !csum_sub, <- csum_add. apply sum_ext. intros i Hi. rewrite Ap by auto. unfold y.
        replace (cconj (csub (w i) (cmulr (u i) (/ q)))) with (csub (cconj (w i)) (cmul (rc (/ q)) (cconj (u i)))) by (apply c_ext; cbn; ring). cring. }
      rewrite Ex, B1, B2, E. rewrite <- form2_bil. assert (R1 : snd (form2 n w M) = 0).
      { pose proof (bil_swap n w M w Hm) as S. rewrite <- form2_bil in S. apply (f_equal snd) in S. cbn in S. lra. }
      apply c_ext; cbn; rewrite ?R1; field; lra. }
    destruct (Classical_Prop.classic (exists i, (i < n)%nat /\ y i <> rc 0)) as [X|X].
    + destruct (Pd y X) as (p & P & Ep). rewrite Y in Ep. apply (f_equal fst) in Ep. cbn in Ep. lra.
    + assert (Zy : form2 n y M = rc 0). { change (rc 0) with (@r0 C CRing_C). apply (sum_zero' (HA := CRing_C)). intros i Hi. apply (sum_zero' (HA := CRing_C)). intros j Hj.
        assert (Yj : y j = rc 0) by (destruct (Classical_Prop.classic (y j = rc 0)); auto; exfalso; apply X; exists j; auto). rewrite Yj. change (rc 0) with (@r0 C CRing_C). cring. }
      rewrite Y in Zy. apply (f_equal fst) in Zy. cbn in Zy. lra.
  - exists (fun i => cmulr (u i) (/ q)). split.
    + transitivity (cmul (rc (/ q)) (Sxy n u (cnth h))). { unfold Sxy. rewrite <- csum_scale. apply sum_ext. intros i Hi. apply c_ext; cbn; ring. } rewrite W, <- form2_bil, E. apply c_ext; cbn; field; lra.
    + transitivity (cmul (cmul (rc (/ q)) (rc (/ q))) (form2 n u M)). { unfold form2. rewrite <- csum_scale. apply sum_ext. intros i Hi. rewrite <- csum_scale. apply sum_ext. intros j Hj. apply c_ext; cbn; ring. } rewrite E. apply c_ext; cbn; field; lra.
Qed.
Print Assumptions C69_minimum_variance.
(** A source of power [P] in uncorrelated noise of power [s2], true power formulation: the value at the source is not the power of the source
    plus noise but that times the square of the energy [A] of the transfer vector, a number near the square of the number of microphones. *)
Theorem C69_source_in_noise :
  forall k mics t P s2 m, away mics t -> 0 <= P -> 0 < s2 ->
  (forall i j, (i < length mics)%nat -> (j < length mics)%nat -> mprod (length mics) (entry m) (fun i j => cadd (source_matrix P k mics t i j) (cmulr (delta i j) s2)) i j = delta i j) ->
  let A := rsum (length mics) (fun i => Rsqr (euclid t (mic mics (center mics)) / euclid t (mic mics i))) in
  mvdr_value (steering TruePower k mics t) m = A * A * (P + s2 / A).
Proof.
  intros k mics t P s2 m Aw P0 S0 Inv A. set (n := length mics) in *. set (a := transfer k mics t). set (M := fun i j => cadd (source_matrix P k mics t i j) (cmulr (delta i j) s2)).
  assert (EA : A = Sxx n a).
  { unfold a, n. rewrite transfer_energy by auto. unfold A, inv_squares. rewrite <- rsum_mul_l. apply sum_ext. intros i Hi. rewrite <- !dist_euclid, (dist_sym (mic mics i)). pose proof (away_pos _ _ _ Aw Hi). unfold Rsqr. field. lra. }
  assert (A0 : 0 < A). { rewrite EA. unfold a, n. rewrite transfer_energy by auto. apply Rmult_lt_0_compat. unfold Rsqr. pose proof (away_ref _ _ Aw). now apply Rmult_lt_0_compat. now apply inv_squares_pos. }
  set (h := steering TruePower k mics t). assert (Lh : length h = n) by apply steering_length. assert (Hh : forall i, (i < n)%nat -> cnth h i = cmulr (a i) (/ A)).
  { intros i Hi. unfold h, a. rewrite steering_eq, transfer_eq by auto. rewrite EA. unfold a, n. rewrite transfer_energy by auto. unfold amplitude. fold (inv_squares mics t). set (q := dist t (mic mics (center mics))). set (r := dist t (mic mics i)). set (e := cis _).
    pose proof (away_pos _ _ _ Aw Hi) as Hr. pose proof (away_ref _ _ Aw) as Hq. fold q in Hq. fold r in Hr. pose proof (inv_squares_pos _ _ Aw). apply c_ext; cbn; unfold Rsqr; field; repeat split; lra. }
  assert (HM : forall i j, source_matrix P k mics t i j = cmulr (cmul (a i) (cconj (a j))) P) by reflexivity. clearbody a A h.
  assert (Eig : forall i, (i < n)%nat -> apply n M (cnth h) i = cmul (rc (P * A + s2)) (cnth h i)).
  { intros i Hi. transitivity (cadd (csum n (fun j => cmul (source_matrix P k mics t i j) (cnth h j))) (cmul (rc s2) (cnth h i))).
    - unfold apply. rewrite <- (csum_delta n i (cnth h) Hi), <- csum_scale, <- csum_add. apply sum_ext. intros j Hj. unfold M. apply c_ext; cbn; ring.
    - assert (E : csum n (fun j => cmul (source_matrix P k mics t i j) (cnth h j)) = cmul (rc P) (a i)).
      { transitivity (cmul (cmul (rc P) (cmulr (a i) (/ A))) (Sxy n a a)).
        - unfold Sxy. rewrite <- csum_scale. apply sum_ext. intros j Hj. rewrite Hh by auto. rewrite HM. apply c_ext; cbn; ring.
        - assert (S : Sxy n a a = rc A). { rewrite EA. unfold Sxy, Sxx. rewrite <- csum_rc. apply sum_ext. intros. apply cabs2_conj. } rewrite S. apply c_ext; cbn; field; lra. }
      rewrite E, Hh by auto. apply c_ext; cbn; field; lra. }
  assert (L0 : 0 < P * A + s2) by nra.
  assert (B : forall i, (i < n)%nat -> apply n (entry m) (cnth h) i = cmul (rc (/ (P * A + s2))) (cnth h i)).
  { intros i Hi. rewrite <- (apply_inverse n (entry m) M (cnth h) i Inv Hi).
    transitivity (cmul (rc (/ (P * A + s2))) (apply n (entry m) (fun j => cmul (rc (P * A + s2)) (cnth h j)) i)).
    - unfold apply. rewrite <- csum_scale. apply sum_ext. intros j Hj. set (z := cnth h j). set (e := entry m i j). apply c_ext; cbn; field; lra.
    - f_equal. unfold apply at 1 2. apply sum_ext. intros j Hj. now rewrite Eig. }
  unfold mvdr_value, power. rewrite (power_apply h m n (entry m)) by auto.
  assert (V : bil n (cnth h) (entry m) (cnth h) = rc (/ ((P * A + s2) * A))).
  { transitivity (cmul (cmul (rc (/ (P * A + s2))) (rc (/ A * / A))) (Sxy n a a)).
    - unfold Sxy. rewrite <- csum_scale. apply sum_ext. intros i Hi. rewrite B, Hh by auto. apply c_ext; cbn; ring.
    - assert (S : Sxy n a a = rc A). { rewrite EA. unfold Sxy, Sxx. rewrite <- csum_rc. apply sum_ext. intros. apply cabs2_conj. } rewrite S. apply c_ext; cbn; field; repeat split; lra. }
  rewrite V. cbn [fst rc]. field. repeat split; try lra; nra.
Qed.
Print Assumptions C69_source_in_noise.
(** The cross-spectra of the FFT method (a single frame) have no inverse if there are two or more microphones. *)
Theorem C69_fft_no_inverse_refuted :
  forall X fs window k, (2 <= length X)%nat -> (forall i, (i < length X)%nat -> length (nth i X []) = length (hd [] X)) -> (k < length (hd [] X))%nat ->
  exists m, csm_fft X FFTBackward window fs = Ok m /\ ~ (exists B, inverse_of (length X) B (fun i j => entry3 m i j k)).
Proof.
  intros X fs window k H2 HL Hk. destruct (C49_fft_products X fs window HL) as (m & E & V). exists m. split; auto. intros (B & I). set (n := length X) in *. set (a := fun i => nth k (nth i X []) (rc 0)).
  assert (Or : csum n (fun j => cmul (cconj (a j)) (match j with 0%nat => cconj (a 1%nat) | 1%nat => copp (cconj (a 0%nat)) | _ => rc 0 end)) = rc 0).
  { destruct n as [|[|n']]; try lia. rewrite !(sum_S_front (HA := CRing_C)). rewrite (sum_zero' (HA := CRing_C)). change (rc 0) with (@r0 C CRing_C). cring. intros i Hi. change (rc 0) with (@r0 C CRing_C). cring. }
  assert (K : forall v, csum n (fun j => cmul (cconj (a j)) (v j)) = rc 0 -> forall i, (i < n)%nat -> v i = rc 0).
  { intros w Ow i Hi. rewrite <- (apply_inverse n B (fun i j => entry3 m i j k) w i I Hi). unfold apply at 1. change (rc 0) with (@r0 C CRing_C). apply (sum_zero' (HA := CRing_C)). intros p Hp.
    assert (Ap : apply n (fun i j => entry3 m i j k) w p = rc 0).
    { unfold apply. transitivity (cmul (a p) (csum n (fun j => cmul (cconj (a j)) (w j)))). rewrite <- csum_scale. apply sum_ext. intros j Hj. rewrite V by auto. fold (a p) (a j). cring. rewrite Ow. change (rc 0) with (@r0 C CRing_C). cring. }
    rewrite Ap. change (rc 0) with (@r0 C CRing_C). cring. }
  pose proof (K _ Or 0%nat ltac:(lia)) as K0. pose proof (K _ Or 1%nat ltac:(lia)) as K1. cbv beta iota in K0, K1.
  assert (A0 : a 0%nat = rc 0). { apply (f_equal fst) in K1 as F. apply (f_equal snd) in K1 as G. cbn in F, G. apply c_ext; cbn; lra. }
  assert (D : csum n (fun j => cmul (cconj (a j)) (delta 0 j)) = rc 0). { rewrite (sum_ext (HA := CRing_C) n _ (fun j => cmul (delta 0 j) (cconj (a j)))) by (intros; cring). rewrite csum_delta by lia. rewrite A0. apply c_ext; cbn; ring. }
  pose proof (K _ D 0%nat ltac:(lia)) as F. apply (f_equal fst) in F. cbn in F. lra.
Qed.
Print Assumptions C69_fft_no_inverse_refuted.

(** *** Cases *)
Definition two (a b : R) : matrix := mk 2 (fun i => mk 2 (fun j => if (i =? j)%nat then rc (match i with 0%nat => a | _ => b end) else rc 0)).
Lemma two_entry a b i j : (i < 2)%nat -> (j < 2)%nat -> entry (two a b) i j = if (i =? j)%nat then rc (match i with 0%nat => a | _ => b end) else rc 0.
Proof. intros Hi Hj. unfold entry, two. rewrite nth_mk by auto. unfold cnth. now rewrite nth_mk by auto. Qed.
Example C69_minimum_variance_case : mvdr_value [rc 1; rc 1] (two 1 (1 / 2)) = 2 / 3 /\ forall w, Sxy 2 w (cnth [rc 1; rc 1]) = rc 1 -> 2 / 3 <= fst (form2 2 w (entry (two 1 2))).
Proof.
  assert (V : mvdr_value [rc 1; rc 1] (two 1 (1 / 2)) = 2 / 3). { unfold mvdr_value, power, quad, two, entry, cnth, mk. cbn. field. }
  split; auto. rewrite <- V. apply C69_minimum_variance; auto.
  - intros i j Hi Hj. rewrite !two_entry, (Nat.eqb_sym j i) by auto. destruct (Nat.eqb_spec i j) as [->|]; apply c_ext; cbn; ring.
  - intros v (i & Hi & Z). exists (cabs2 (v 0%nat) + 2 * cabs2 (v 1%nat)). split.
    + pose proof (cabs2_pos (v 0%nat)). pose proof (cabs2_pos (v 1%nat)). destruct (Req_dec (cabs2 (v i)) 0) as [E|E]. exfalso. apply Z. now apply c_norm_zero. pose proof (cabs2_pos (v i)). destruct i as [|[|]]; try lia; lra.
    + unfold form2. cbn [sum]. rewrite !two_entry by lia. cbn [Nat.eqb]. apply c_ext; unfold cabs2; cbn; ring.
  - intros i j Hi Hj. unfold mprod. cbn [sum]. rewrite !two_entry by lia. destruct i as [|[|]], j as [|[|]]; try lia; unfold delta; cbn [Nat.eqb]; apply c_ext; cbn; field.
  - exists 0%nat. split; [lia|]. cbn. intros E. apply (f_equal fst) in E. cbn in E. lra.
Qed.
(** The inverse required by [C69_source_in_noise] exists. *)
Lemma noise_inverse n (a : nat -> C) P s2 : 0 <= P -> 0 < s2 -> let A := Sxx n a in
  let m := mk n (fun i => mk n (fun j => csub (cmulr (delta i j) (/ s2)) (cmulr (cmul (a i) (cconj (a j))) (P / (s2 * (s2 + P * A)))))) in
  forall i j, (i < n)%nat -> (j < n)%nat -> mprod n (entry m) (fun i j => cadd (cmulr (cmul (a i) (cconj (a j))) P) (cmulr (delta i j) s2)) i j = delta i j.
Proof.
  intros P0 S0 A m i j Hi Hj. assert (A0 : 0 <= A) by apply Sxx_nonneg. assert (L0 : 0 < s2 + P * A) by nra. unfold mprod. set (u := P / (s2 * (s2 + P * A))).
  transitivity (csum n (fun k => cadd (cadd (cmul (delta i k) (cmulr (cadd (cmulr (cmul (a k) (cconj (a j))) P) (cmulr (delta k j) s2)) (/ s2)))
     (cmul (cmul (cmul (rc (- u * P)) (a i)) (cconj (a j))) (cmul (cconj (a k)) (a k)))) (cmul (delta k j) (cmul (cmul (rc (- u * s2)) (a i)) (cconj (a k)))))).
  - apply sum_ext. intros k Hk. unfold entry, m. rewrite nth_mk by auto. unfold cnth. rewrite nth_mk by auto. fold u. apply c_ext; cbn; ring.
  - rewrite !csum_add. rewrite csum_delta by auto. rewrite csum_scale. assert (S : csum n (fun k => cmul (cconj (a k)) (a k)) = rc A). { unfold A, Sxx. rewrite <- csum_rc. apply sum_ext. intros. apply cabs2_conj. }
    rewrite S. rewrite (sum_ext (HA := CRing_C) n (fun k => cmul (delta k j) _) (fun k => cmul (delta j k) (cmul (cmul (rc (- u * s2)) (a i)) (cconj (a k))))) by (intros; unfold delta; now rewrite Nat.eqb_sym).
    rewrite csum_delta by auto. unfold u. apply c_ext; cbn; field; split; lra.
Qed.
Example C69_source_in_noise_case : exists m A, mvdr_value (steering TruePower 5 [(0, 0, 0); (2, 0, 0)] (0, 0, 1)) m = A * A * (3 + 2 / A).
Proof.
  pose proof (noise_inverse 2 (transfer 5 [(0, 0, 0); (2, 0, 0)] (0, 0, 1)) 3 2 ltac:(lra) ltac:(lra)) as I. cbv zeta in I. set (m := mk 2 _) in I. exists m. eexists.
  apply C69_source_in_noise; try lra. apply away_case. exact I.
Qed.

(** ** Functional beamforming *)
Definition unitary (n : nat) (U : nat -> nat -> C) : Prop :=
  inverse_of n (fun i j => cconj (U j i)) U /\ inverse_of n U (fun i j => cconj (U j i)).
(** What np.linalg.svd promises. *)
Definition svd_of (n : nat) (M : nat -> nat -> C) (d : svd_t) : Prop :=
  let '(u, s, vh) := d in length s = n /\ (forall k, (k < n)%nat -> 0 <= get s k) /\ unitary n (entry u) /\ unitary n (entry vh) /\
  forall i j, (i < n)%nat -> (j < n)%nat -> M i j = csum n (fun k => cmul (cmul (entry u i k) (rc (get s k))) (entry vh k j)).
(** For a positive semidefinite matrix both sets of vectors agree wherever the singular value is not zero. *)
Lemma svd_vectors n M u s vh : svd_of n M (u, s, vh) -> hermitian n M -> positive_matrix n M -> forall k, (k < n)%nat -> get s k <> 0 -> forall j, (j < n)%nat -> entry vh k j = cconj (entry u j k).
Proof.
  intros (Ls & S0 & [Uu _] & [_ Vv] & E) Hm P k Hk Sk. set (v := fun j => cconj (entry vh k j)). set (w := fun i => entry u i k).
  assert (Mv : forall i, (i < n)%nat -> apply n M v i = cmul (rc (get s k)) (w i)).
  { intros i Hi. unfold apply. transitivity (csum n (fun l => cmul (cmul (entry u i l) (rc (get s l))) (csum n (fun j => cmul (entry vh l j) (v j))))).
    - transitivity (csum n (fun j => csum n (fun l => cmul (cmul (entry u i l) (rc (get s l))) (cmul (entry vh l j) (v j))))).
      + apply sum_ext. intros j Hj. rewrite E by auto. change cmul with (@rmul C CRing_C) at 1. rewrite <- (sum_scal_r (HA := CRing_C)). apply sum_ext. intros. change (@rmul C CRing_C) with cmul. cring.
      + rewrite csum_swap. apply sum_ext. intros. apply csum_scale.
    - transitivity (csum n (fun l => cmul (delta k l) (cmul (entry u i l) (rc (get s l))))).
      + apply sum_ext. intros l Hl. rewrite (Vv l k Hl Hk : csum n (fun j => cmul (entry vh l j) (v j)) = _). unfold delta. rewrite Nat.eqb_sym. cring.
      + rewrite csum_delta by auto. unfold w. cring. }
  assert (Mw : forall i, (i < n)%nat -> apply n M w i = cmul (rc (get s k)) (v i)).
  { intros i Hi. unfold apply. transitivity (csum n (fun l => cmul (cmul (cconj (entry vh l i)) (rc (get s l))) (csum n (fun j => cmul (cconj (entry u j l)) (w j))))).
    - transitivity (csum n (fun j => csum n (fun l => cmul (cmul (cconj (entry vh l i)) (rc (get s l))) (cmul (cconj (entry u j l)) (w j))))).
      + apply sum_ext. intros j Hj. rewrite Hm, E, csum_conj by auto. change cmul with (@rmul C CRing_C) at 1. rewrite <- (sum_scal_r (HA := CRing_C)). apply sum_ext. intros l Hl. change (@rmul C CRing_C) with cmul. rewrite !cconj_mul.
        replace (cconj (rc (get s l))) with (rc (get s l)) by (apply c_ext; cbn; ring). cring.
      + rewrite csum_swap. apply sum_ext. intros. apply csum_scale.
    - transitivity (csum n (fun l => cmul (delta k l) (cmul (cconj (entry vh l i)) (rc (get s l))))).
      + apply sum_ext. intros l Hl. rewrite (Uu l k Hl Hk : csum n (fun j => cmul (cconj (entry u j l)) (w j)) = _). unfold delta. rewrite Nat.eqb_sym. cring.
      + rewrite csum_delta by auto. unfold v. cring. }
  set (y := fun i => csub (w i) (v i)). destruct (P y) as (q & Q & Eq). rewrite form2_bil in Eq.
  assert (Y : bil n y M y = rc (- get s k * Sxx n y)).
  { transitivity (cmul (rc (- get s k)) (Sxy n y y)).
    - unfold Sxy. rewrite <- csum_scale. apply sum_ext. intros i Hi. assert (Ap : apply n M y i = csub (apply n M w i) (apply n M v i)). { unfold apply. rewrite <- csum_sub. apply sum_ext. intros. unfold y. cring. }
      rewrite Ap, Mv, Mw by auto. unfold y. apply c_ext; cbn; ring.
    - assert (S : Sxy n y y = rc (Sxx n y)). { unfold Sxy, Sxx. rewrite <- csum_rc. apply sum_ext. intros. apply cabs2_conj. } rewrite S. apply c_ext; cbn; ring. }
  rewrite Y in Eq. apply (f_equal fst) in Eq. cbn in Eq. specialize (S0 k Hk). pose proof (Sxx_nonneg n y) as N. assert (Sxx n y = 0) by nra. intros j Hj. pose proof (Sxx_zero n y H j Hj) as Zj. unfold y, w, v in Zj.
  apply (f_equal fst) in Zj as F. apply (f_equal snd) in Zj as G. cbn in F, G. apply c_ext; cbn; lra.
Qed.
(** The energies of a vector along the singular vectors add up to its energy. *)
Definition along (n : nat) (u : matrix) (h : list C) (k : nat) : R := cabs2 (csum n (fun i => cmul (cconj (entry u i k)) (cnth h i))).
Lemma along_total n u h : unitary n (entry u) -> rsum n (along n u h) = Sxx n (cnth h).
Proof.
  intros [_ U]. assert (K : (rc (rsum n (along n u h)) : C) = rc (Sxx n (cnth h))); [|apply (f_equal fst) in K; exact K]. unfold Sxx. rewrite <- !csum_rc.
  transitivity (csum n (fun k => csum n (fun i => csum n (fun j => cmul (cmul (cconj (cnth h i)) (cnth h j)) (cmul (entry u i k) (cconj (entry u j k))))))).
  - apply sum_ext. intros k Hk. unfold along. set (z := csum n (fun i => cmul (cconj (entry u i k)) (cnth h i))). rewrite <- cabs2_conj.
    assert (Cz : cconj z = csum n (fun i => cmul (entry u i k) (cconj (cnth h i)))). { unfold z. rewrite csum_conj. apply sum_ext. intros. now rewrite cconj_mul, cconj_conj. }
    transitivity (cmul z (cconj z)); [cring|]. rewrite Cz, <- csum_scale. apply sum_ext. intros i Hi.
    transitivity (cmul (cmul (entry u i k) (cconj (cnth h i))) z); [cring|]. unfold z. rewrite <- csum_scale. apply sum_ext. intros j Hj. cring.
  - rewrite csum_swap. apply sum_ext. intros i Hi. rewrite csum_swap. transitivity (csum n (fun j => cmul (delta i j) (cmul (cconj (cnth h i)) (cnth h j)))).
    + apply sum_ext. intros j Hj. rewrite csum_scale. rewrite (U i j Hi Hj : csum n (fun k => cmul (entry u i k) (cconj (entry u j k))) = _). cring.
    + rewrite csum_delta by auto. apply cabs2_conj.
Qed.
(** A matrix with the same vectors and other values [e]. *)
Lemma power_along n M u s vh h (e : nat -> R) : svd_of n M (u, s, vh) -> hermitian n M -> positive_matrix n M -> length h = n -> (forall k, (k < n)%nat -> get s k = 0 -> e k = 0) ->
  power h (mk n (fun i => mk n (fun j => csum n (fun k => cmul (cmul (entry u i k) (rc (e k))) (entry vh k j))))) = rsum n (fun k => e k * along n u h k).
Proof.
  intros D Hm P L Z. unfold power. rewrite quad_form2, L.
  rewrite (form2_ext _ _ _ (fun i j => csum n (fun k => cmul (cmul (entry u i k) (rc (e k))) (cconj (entry u j k))))).
  2: { intros i j Hi Hj. unfold entry at 1. rewrite nth_mk by auto. unfold cnth. rewrite nth_mk by auto. apply sum_ext. intros k Hk. destruct (Req_EM_T (get s k) 0) as [E|E].
       rewrite (Z k Hk E). apply c_ext; cbn; ring. now rewrite (svd_vectors n M u s vh D Hm P k Hk E j Hj). }
  transitivity (fst (csum n (fun k => rc (e k * along n u h k)))); [|now rewrite csum_rc].
  f_equal. unfold form2. transitivity (csum n (fun i => csum n (fun j => csum n (fun k => cmul (cmul (cconj (cnth h i)) (cmul (cmul (entry u i k) (rc (e k))) (cconj (entry u j k)))) (cnth h j))))).
  { apply sum_ext. intros i Hi. apply sum_ext. intros j Hj. change cmul with (@rmul C CRing_C). rewrite (sum_scal_r (HA := CRing_C)). now rewrite (sum_scal_l (HA := CRing_C)). }
  transitivity (csum n (fun k => csum n (fun i => csum n (fun j => cmul (cmul (cconj (cnth h i)) (cmul (cmul (entry u i k) (rc (e k))) (cconj (entry u j k)))) (cnth h j))))).
  { rewrite csum_swap. rewrite (sum_ext (HA := CRing_C) n _ (fun j => csum n (fun k => csum n (fun i => cmul (cmul (cconj (cnth h i)) (cmul (cmul (entry u i k) (rc (e k))) (cconj (entry u j k)))) (cnth h j))))) by (intros; apply csum_swap).
    rewrite csum_swap. apply sum_ext. intros k Hk. apply csum_swap. }
  apply sum_ext. intros k Hk. unfold along. set (z := csum n (fun i => cmul (cconj (entry u i k)) (cnth h i))). transitivity (cmul (rc (e k)) (cmul (cconj z) z)); [|rewrite cabs2_conj; apply c_ext; cbn; ring].
  assert (Cz : cconj z = csum n (fun i => cmul (entry u i k) (cconj (cnth h i)))). { unfold z. rewrite csum_conj. apply sum_ext. intros. now rewrite cconj_mul, cconj_conj. }
  transitivity (cmul (cmul (rc (e k)) z) (cconj z)); [|cring]. rewrite Cz, <- csum_scale. apply sum_ext. intros i Hi.
  transitivity (cmul (cmul (cmul (rc (e k)) (entry u i k)) (cconj (cnth h i))) z); [|cring]. unfold z. rewrite <- csum_scale. apply sum_ext. intros j Hj. cring.
Qed.
(** Convexity. *)
Lemma bernoulli x g : 0 < x -> 1 <= g -> g * x <= Rpower x g + (g - 1).
Proof.
  intros X G. set (m := ln x). assert (Ex : x = exp m) by (unfold m; now rewrite exp_ln). assert (T : forall a, exp m * (1 + (a - m)) <= exp a).
  { intros a. replace (exp a) with (exp m * exp (a - m)) by (rewrite <- exp_plus; f_equal; ring). apply Rmult_le_compat_l. left; apply exp_pos. destruct (Req_dec (a - m) 0) as [->|N]. rewrite exp_0. lra. left. now apply exp_ineq1. }
  unfold Rpower. fold m. pose proof (T (g * m)) as T1. pose proof (T 0) as T2. rewrite exp_0 in T2. rewrite Ex. pose proof (exp_pos m). nra.
Qed.
Lemma rpowg_pos x g : 0 < x -> rpowg x g = Rpower x g.
Proof. intros. unfold rpowg. destruct (Rlt_dec 0 x); [auto|lra]. Qed.
Lemma rpowg_zero g : rpowg 0 g = 0.
Proof. unfold rpowg. destruct (Rlt_dec 0 0); [lra|auto]. Qed.
Lemma rpowg_nonneg x g : 0 <= rpowg x g.
Proof. unfold rpowg. destruct (Rlt_dec 0 x); [left; apply exp_pos|lra]. Qed.
Lemma jensen n (p t : nat -> R) g : 1 <= g -> (forall k, (k < n)%nat -> 0 <= p k /\ 0 <= t k) -> rsum n p = 1 -> rpowg (rsum n (fun k => p k * t k)) g <= rsum n (fun k => p k * rpowg (t k) g).
Proof.
  intros G H S. set (T := rsum n (fun k => p k * t k)). assert (T0 : 0 <= T) by (apply rsum_nonneg; intros k Hk; destruct (H k Hk); now apply Rmult_le_pos). destruct (Rle_lt_or_eq_dec 0 T T0) as [P|Z].
  - assert (Tan : forall x, 0 <= x -> Rpower T g + g * Rpower T g * (x / T - 1) <= rpowg x g).
    { intros x X. assert (RP : 0 < Rpower T g) by apply exp_pos. destruct (Rle_lt_or_eq_dec 0 x X) as [Xp|<-].
      - rewrite rpowg_pos by auto. assert (0 < x / T) by now apply Rdiv_lt_0_compat. pose proof (bernoulli (x / T) g H0 G) as B. replace (Rpower x g) with (Rpower T g * Rpower (x / T) g).
        + nra. + rewrite Rpower_mult_distr by auto. f_equal. field. lra.
      - rewrite rpowg_zero. unfold Rdiv. nra. }
    rewrite rpowg_pos by auto. apply Rle_trans with (rsum n (fun k => p k * (Rpower T g + g * Rpower T g * (t k / T - 1)))).
    + apply Req_le. transitivity ((Rpower T g - g * Rpower T g) * rsum n p + g * Rpower T g / T * rsum n (fun k => p k * t k)).
      * rewrite S. fold T. field. lra. * rewrite <- !rsum_mul_l, <- (sum_add (HA := CRing_R)). apply sum_ext. intros. change (@radd R CRing_R) with Rplus. field. lra.
    + apply rsum_le. intros k Hk. destruct (H k Hk). apply Rmult_le_compat_l; auto.
  - rewrite <- Z, rpowg_zero. apply rsum_nonneg. intros k Hk. apply Rmult_le_pos. apply H; auto. apply rpowg_nonneg.
Qed.
Lemma rpowg_root x g : 0 <= x -> 0 < g -> rpowg (rpowg x (1 / g)) g = x.
Proof.
  intros X G. destruct (Rle_lt_or_eq_dec 0 x X) as [P|<-]. rewrite (rpowg_pos x) by auto. rewrite rpowg_pos by apply exp_pos. rewrite Rpower_mult. replace (1 / g * g) with 1 by (field; lra). now apply Rpower_1. now rewrite !rpowg_zero.
Qed.
Lemma functional_eq n M u s vh h g : svd_of n M (u, s, vh) -> hermitian n M -> positive_matrix n M -> length h = n -> 0 < Sxx n (cnth h) ->
  functional_value h (u, s, vh) g = Sxx n (cnth h) * rpowg (rsum n (fun k => along n u h k / Sxx n (cnth h) * rpowg (get s k) (1 / g))) g.
Proof.
  intros D Hm P L N. unfold functional_value. assert (Ls : length s = n) by apply D. rewrite Ls, L. change (rsum n (fun i => cabs2 (cnth h i))) with (Sxx n (cnth h)).
  rewrite (power_along n M u s vh h (fun k => rpowg (get s k) (1 / g)) D Hm P L) by (intros k Hk ->; apply rpowg_zero). rewrite Rmult_comm. f_equal. f_equal.
  rewrite rsum_div. apply sum_ext. intros. field. lra.
Qed.
Lemma das_along n M m u s vh h : svd_of n M (u, s, vh) -> hermitian n M -> positive_matrix n M -> length h = n -> (forall i j, (i < n)%nat -> (j < n)%nat -> entry m i j = M i j) ->
  das_value false h m = rsum n (fun k => get s k * along n u h k).
Proof.
  intros D Hm P L A. rewrite <- (power_along n M u s vh h (get s) D Hm P L) by auto. unfold das_value, power. rewrite !quad_form2, L. f_equal. apply form2_ext. intros i j Hi Hj. rewrite A by auto.
  destruct D as (_ & _ & _ & _ & E). rewrite E by auto. unfold entry at 3. rewrite nth_mk by auto. unfold cnth. now rewrite nth_mk by auto.
Qed.
(** For every exponent of one or more the functional map is at most the map of the delay-and-sum beamformer, and for exponent one it is that map. *)
Theorem C69_functional :
  forall n M m d h g, svd_of n M d -> hermitian n M -> positive_matrix n M -> (forall i j, (i < n)%nat -> (j < n)%nat -> entry m i j = M i j) -> length h = n -> 0 < Sxx n (cnth h) ->
  (1 <= g -> 0 <= functional_value h d g <= das_value false h m) /\ functional_value h d 1 = das_value false h m.
Proof.
  intros n M m [[u s] vh] h g D Hm P A L N. assert (S0 : forall k, (k < n)%nat -> 0 <= get s k) by apply D. assert (U : unitary n (entry u)) by apply D.
  assert (Pt : rsum n (fun k => along n u h k / Sxx n (cnth h)) = 1). { transitivity (rsum n (along n u h) / Sxx n (cnth h)). rewrite rsum_div. apply sum_ext. intros. unfold Rdiv. ring. rewrite along_total by auto. field. lra. }
  assert (Eq : das_value false h m = Sxx n (cnth h) * rsum n (fun k => along n u h k / Sxx n (cnth h) * get s k)).
  { rewrite (das_along n M m u s vh h D Hm P L A), <- rsum_mul_l. apply sum_ext. intros. field. lra. }
  assert (W : forall k, 0 <= along n u h k / Sxx n (cnth h)). { intros k. apply Rmult_le_pos. apply cabs2_pos. left. now apply Rinv_0_lt_compat. }
  split.
  - intros G. rewrite (functional_eq n M u s vh h g D Hm P L N), Eq. split. apply Rmult_le_pos; [lra|apply rpowg_nonneg]. apply Rmult_le_compat_l; [lra|]. eapply Rle_trans; [apply jensen; auto|].
    + intros k Hk. split; auto. apply rpowg_nonneg. + apply Req_le. apply sum_ext. intros k Hk. rewrite rpowg_root; auto. lra.
  - rewrite (functional_eq n M u s vh h 1 D Hm P L N), Eq. f_equal. set (T := rsum n (fun k => along n u h k / Sxx n (cnth h) * get s k)).
    assert (T0 : 0 <= T) by (apply rsum_nonneg; intros; apply Rmult_le_pos; auto).
    assert (E1 : forall x, 0 <= x -> rpowg x 1 = x). { intros x X. pose proof (rpowg_root x 1 X Rlt_0_1) as Q. replace (1 / 1) with 1 in Q by field. destruct (Rle_lt_or_eq_dec 0 x X) as [Xp|<-]. rewrite rpowg_pos by auto. now apply Rpower_1. apply rpowg_zero. }
    replace (rsum n _) with T. now apply E1. apply sum_ext. intros k Hk. f_equal. replace (1 / 1) with 1 by field. symmetry. now apply E1, S0.
Qed.
Print Assumptions C69_functional.
(** For a single source the functional map is the delay-and-sum map times a power of the squared cosine between steering vector and transfer
    vector, so that the value where the two are parallel is kept. *)
Theorem C69_functional_single_source :
  forall n (a : nat -> C) P m d h g, 0 < P -> 0 < Sxx n a -> svd_of n (fun i j => cmulr (cmul (a i) (cconj (a j))) P) d -> (forall i j, (i < n)%nat -> (j < n)%nat -> entry m i j = cmulr (cmul (a i) (cconj (a j))) P) ->
  length h = n -> 0 < Sxx n (cnth h) -> 1 <= g -> Sxy n (cnth h) a <> rc 0 ->
  functional_value h d g = das_value false h m * Rpower (cabs2 (Sxy n (cnth h) a) / (Sxx n (cnth h) * Sxx n a)) (g - 1).
Proof.
  intros n a P m [[u s] vh] h g P0 A0 D A L N G Z. set (M := fun i j => cmulr (cmul (a i) (cconj (a j))) P) in *.
  assert (Hm : hermitian n M) by (intros i j Hi Hj; unfold M; apply c_ext; cbn; ring).
  assert (Pm : positive_matrix n M). { intros v. exists (P * cabs2 (Sxy n v a)). split. apply Rmult_le_pos; [lra|apply cabs2_pos]. apply form2_rank_one. }
  assert (S0 : forall k, (k < n)%nat -> 0 <= get s k) by apply D. assert (U : unitary n (entry u)) by apply D.
  (* every singular value is zero or P times the energy of a, and its vector is parallel to a *)
  assert (Mu : forall k, (k < n)%nat -> get s k <> 0 -> forall i, (i < n)%nat -> cmul (rc (get s k)) (entry u i k) = cmul (cmul (rc P) (Sxy n a (fun j => entry u j k))) (a i)).
  { intros k Hk Sk i Hi. pose proof (svd_vectors n M u s vh D Hm Pm) as V. destruct D as (_ & _ & [Uu _] & _ & E).
    transitivity (apply n M (fun j => entry u j k) i).
    - unfold apply. transitivity (csum n (fun l => cmul (cmul (entry u i l) (rc (get s l))) (csum n (fun j => cmul (cconj (entry u j l)) (entry u j k))))).
      + transitivity (csum n (fun l => cmul (delta k l) (cmul (entry u i l) (rc (get s l))))). rewrite csum_delta by auto. cring. apply sum_ext. intros l Hl. rewrite (Uu l k Hl Hk : csum n (fun j => cmul (cconj (entry u j l)) (entry u j k)) = _). unfold delta. rewrite Nat.eqb_sym. cring.
      + symmetry. transitivity (csum n (fun j => csum n (fun l => cmul (cmul (entry u i l) (rc (get s l))) (cmul (cconj (entry u j l)) (entry u j k))))).
        * apply sum_ext. intros j Hj. rewrite E by auto. change cmul with (@rmul C CRing_C) at 1. rewrite <- (sum_scal_r (HA := CRing_C)). apply sum_ext. intros l Hl. change (@rmul C CRing_C) with cmul. destruct (Req_EM_T (get s l) 0) as [Zl|Nl]. rewrite Zl. apply c_ext; cbn; ring. rewrite (V l Hl Nl j Hj). cring.
        * rewrite csum_swap. apply sum_ext. intros. apply csum_scale.
    - unfold apply, Sxy, M. rewrite <- csum_scale. change cmul with (@rmul C CRing_C) at 3. rewrite <- (sum_scal_r (HA := CRing_C)). apply sum_ext. intros j Hj. change (@rmul C CRing_C) with cmul. apply c_ext; cbn; ring. }
  assert (Tr : forall k, (k < n)%nat -> get s k <> 0 -> get s k = P * Sxx n a).
  { intros k Hk Sk. set (z := Sxy n a (fun j => entry u j k)). assert (Ez : cmul (rc (get s k)) z = cmul (cmul (rc P) z) (rc (Sxx n a))).
    { unfold z at 1. unfold Sxy. rewrite <- csum_scale. transitivity (csum n (fun i => cmul (cmul (rc P) z) (cmul (cconj (a i)) (a i)))).
      - apply sum_ext. intros i Hi. transitivity (cmul (cconj (a i)) (cmul (rc (get s k)) (entry u i k))); [cring|]. rewrite (Mu k Hk Sk i Hi). fold z. cring.
      - rewrite csum_scale. f_equal. unfold Sxx. rewrite <- csum_rc. apply sum_ext. intros. apply cabs2_conj. }
    assert (Zz : z <> rc 0). { intros Ez0. destruct U as [Uu _]. assert (Z1 : csum n (fun i => cmul (cconj (entry u i k)) (entry u i k)) = rc 0).
      { change (rc 0) with (@r0 C CRing_C). apply (sum_zero' (HA := CRing_C)). intros i Hi. pose proof (Mu k Hk Sk i Hi) as Q. fold z in Q. rewrite Ez0 in Q.
        assert (Ui : entry u i k = rc 0). { apply (f_equal fst) in Q as F. apply (f_equal snd) in Q as F2. cbn in F, F2. apply c_ext; cbn; apply (Rmult_eq_reg_l (get s k)); auto; lra. } rewrite Ui. change (rc 0) with (@r0 C CRing_C). cring. }
      rewrite (Uu k k Hk Hk : csum n (fun i => cmul (cconj (entry u i k)) (entry u i k)) = _) in Z1. unfold delta in Z1. rewrite Nat.eqb_refl in Z1. apply (f_equal fst) in Z1. cbn in Z1. lra. }
    assert (F1 : get s k * fst z = P * Sxx n a * fst z) by (apply (f_equal fst) in Ez; cbn in Ez; lra). assert (F2 : get s k * snd z = P * Sxx n a * snd z) by (apply (f_equal snd) in Ez; cbn in Ez; lra).
    destruct (Req_dec (fst z) 0) as [X|X]; [destruct (Req_dec (snd z) 0) as [Y|Y]|]. exfalso; apply Zz; apply c_ext; cbn; auto. now apply (Rmult_eq_reg_r (snd z)). now apply (Rmult_eq_reg_r (fst z)). }
  set (x := P * Sxx n a) in *. assert (X0 : 0 < x) by (unfold x; nra). set (nn := Sxx n (cnth h)) in *.
  set (q := rsum n (fun k => along n u h k / nn * (if Req_EM_T (get s k) 0 then 0 else 1))).
  assert (Das : das_value false h m = x * nn * q).
  { rewrite (das_along n M m u s vh h D Hm Pm L A). unfold q. rewrite <- rsum_mul_l. apply sum_ext. intros k Hk. destruct (Req_EM_T (get s k) 0) as [E|E]. rewrite E. ring. rewrite (Tr k Hk E). field. lra. }
  assert (Das2 : das_value false h m = P * cabs2 (Sxy n (cnth h) a)). { unfold das_value, power. rewrite quad_form2, L, (form2_ext _ _ _ M) by auto. unfold M. rewrite form2_rank_one. reflexivity. }
  assert (C0 : 0 < cabs2 (Sxy n (cnth h) a)). { destruct (Rle_lt_or_eq_dec _ _ (cabs2_pos (Sxy n (cnth h) a))) as [Q|Q]; auto. exfalso. apply Z. now apply c_norm_zero. }
  assert (Eq : q = cabs2 (Sxy n (cnth h) a) / (nn * Sxx n a)). { apply (Rmult_eq_reg_l (x * nn)); [|nra]. rewrite <- Das, Das2. unfold x. field. split; lra. }
  assert (Q0 : 0 < q). { rewrite Eq. apply Rdiv_lt_0_compat; auto. nra. }
  rewrite (functional_eq n M u s vh h g D Hm Pm L N). fold nn. rewrite Das, <- Eq. replace (rsum n _) with (q * Rpower x (1 / g)).
  - rewrite rpowg_pos by (apply Rmult_lt_0_compat; auto; apply exp_pos). rewrite <- Rpower_mult_distr by (auto; apply exp_pos). rewrite Rpower_mult. replace (1 / g * g) with 1 by (field; lra). rewrite (Rpower_1 x) by auto.
    replace (Rpower q g) with (q * Rpower q (g - 1)). ring. rewrite <- (Rpower_1 q) at 1 by auto. rewrite <- Rpower_plus. f_equal. ring.
  - unfold q. rewrite Rmult_comm, <- rsum_mul_l. apply sum_ext. intros k Hk. destruct (Req_EM_T (get s k) 0) as [E|E]. rewrite E, rpowg_zero. ring. rewrite (Tr k Hk E), rpowg_pos by auto. ring.
Qed.
Print Assumptions C69_functional_single_source.
Lemma delta_unitary n m : (forall i j, (i < n)%nat -> (j < n)%nat -> entry m i j = delta i j) -> unitary n (entry m).
Proof.
  intros E. split; intros i j Hi Hj; unfold mprod.
  - rewrite (sum_ext (HA := CRing_C) n _ (fun k => cmul (delta i k) (delta k j))). now apply (csum_delta n i (fun k => delta k j)). intros k Hk. rewrite !E by auto. unfold delta. rewrite (Nat.eqb_sym k i). destruct (i =? k)%nat; apply c_ext; cbn; ring.
  - rewrite (sum_ext (HA := CRing_C) n _ (fun k => cmul (delta i k) (delta k j))). now apply (csum_delta n i (fun k => delta k j)). intros k Hk. rewrite !E by auto. unfold delta. rewrite (Nat.eqb_sym k j). destruct (j =? k)%nat; apply c_ext; cbn; ring.
Qed.
Lemma two_delta i j : (i < 2)%nat -> (j < 2)%nat -> entry (two 1 1) i j = delta i j.
Proof. intros Hi Hj. rewrite two_entry by auto. unfold delta. destruct (i =? j)%nat; auto. now destruct i. Qed.
Lemma case_svd : svd_of 2 (entry (two 4 1)) (two 1 1, [4; 1], two 1 1).
Proof.
  split; [reflexivity|]. split. { intros k Hk. unfold get. destruct k as [|[|]]; try lia; cbn; lra. } split; [apply delta_unitary, two_delta|]. split; [apply delta_unitary, two_delta|].
  intros i j Hi Hj. cbn [sum]. rewrite !two_entry by lia. destruct i as [|[|]], j as [|[|]]; try lia; unfold get; cbn [Nat.eqb nth]; apply c_ext; cbn; ring.
Qed.
Lemma case_positive a b : 0 <= a -> 0 <= b -> positive_matrix 2 (entry (two a b)).
Proof.
  intros Ha Hb v. exists (a * cabs2 (v 0%nat) + b * cabs2 (v 1%nat)). split. pose proof (cabs2_pos (v 0%nat)). pose proof (cabs2_pos (v 1%nat)). nra.
  unfold form2. cbn [sum]. rewrite !two_entry by lia. cbn [Nat.eqb]. apply c_ext; unfold cabs2; cbn; ring.
Qed.
Lemma case_hermitian a b : hermitian 2 (entry (two a b)).
Proof. intros i j Hi Hj. rewrite !two_entry, (Nat.eqb_sym j i) by auto. destruct (Nat.eqb_spec i j) as [->|]; apply c_ext; cbn; ring. Qed.
Example C69_functional_case : 0 <= functional_value [rc 1; rc 1] (two 1 1, [4; 1], two 1 1) 10 <= das_value false [rc 1; rc 1] (two 4 1).
Proof. apply (C69_functional 2 (entry (two 4 1)) (two 4 1)); auto; try lra. apply case_svd. apply case_hermitian. apply case_positive; lra. unfold Sxx, cabs2. cbn. lra. Qed.
Example C69_functional_single_source_case : functional_value [rc 1; rc 1] (two 1 1, [4; 0], two 1 1) 10 = das_value false [rc 1; rc 1] (two 4 0) * Rpower (1 / 2) 9.
Proof.
  set (a := fun i => match i with 0%nat => rc 1 | _ => rc 0 end). assert (Ea : forall i j, (i < 2)%nat -> (j < 2)%nat -> entry (two 4 0) i j = cmulr (cmul (a i) (cconj (a j))) 4).
  { intros i j Hi Hj. rewrite two_entry by auto. unfold a. destruct i as [|[|]], j as [|[|]]; try lia; apply c_ext; cbn; ring. }
  rewrite (C69_functional_single_source 2 a 4 (two 4 0) (two 1 1, [4; 0], two 1 1)); try lra; auto.
  - f_equal. f_equal; [|lra]. unfold Sxy, Sxx, cabs2, a. cbn. field.
  - unfold Sxx, cabs2, a. cbn. lra.
  - split; [reflexivity|]. split. { intros k Hk. unfold get. destruct k as [|[|]]; try lia; cbn; lra. } split; [apply delta_unitary, two_delta|]. split; [apply delta_unitary, two_delta|].
    intros i j Hi Hj. rewrite <- Ea by auto. cbn [sum]. rewrite !two_entry by lia. destruct i as [|[|]], j as [|[|]]; try lia; unfold get; cbn [Nat.eqb nth]; apply c_ext; cbn; ring.
  - unfold Sxx, cabs2. cbn. lra.
  - intros E. apply (f_equal fst) in E. unfold Sxy, a in E. cbn in E. lra.
Qed.

(** ** Orthogonal beamforming *)
(** The image of the eigenvector [e] (0 is that of the largest eigenvalue), its peak and the height of the peak. *)
Definition image (hs v : list (list C)) (w : list R) (e g : nat) : R := cabs2 (Sxy (length (nth g hs [])) (cnth (nth g hs [])) (cnth (nth (length w - 1 - e) v []))).
Definition peak_of (hs v : list (list C)) (w : list R) (e : nat) : nat := argmax (mk (length hs) (image hs v w e)).
Lemma orthogonal_unfold hs w v N : orthogonal_bin hs w v (S N) = upd (orthogonal_bin hs w v N) (peak_of hs v w N) (get (mk (length hs) (image hs v w N)) (peak_of hs v w N) * get w (length w - 1 - N)).
Proof.
  unfold orthogonal_bin. rewrite seq_S, fold_left_app. cbn [fold_left Nat.add].
  assert (E : map (fun h => cabs2 (inner h (nth (length w - 1 - N) v []))) hs = mk (length hs) (image hs v w N)).
  { apply nth_ext with (d := 0) (d' := 0); rewrite map_length, ?mk_length; auto. intros g Hg. rewrite (nth_indep _ 0 (cabs2 (inner [] (nth (length w - 1 - N) v [])))) by now rewrite map_length.
    rewrite (map_nth (fun h => cabs2 (inner h (nth (length w - 1 - N) v [])))). rewrite nth_mk by auto. reflexivity. }
  rewrite E. reflexivity.
Qed.
Lemma orthogonal_length hs w v N : length (orthogonal_bin hs w v N) = length hs.
Proof. induction N. unfold orthogonal_bin. simpl. apply repeat_length. rewrite orthogonal_unfold, upd_length. auto. Qed.
Lemma peak_lt hs v w e : hs <> [] -> (peak_of hs v w e < length hs)%nat.
Proof. intros N. unfold peak_of. assert (Z : mk (length hs) (image hs v w e) <> []) by (destruct hs; [congruence|discriminate]). destruct (argmax_spec _ Z) as (A & _). now rewrite mk_length in A. Qed.
(** Every peak is placed at the point where the image of its eigenvector is largest. A point where no image peaks is zero; where several
    do, only the last one (that of the smallest of their eigenvalues) remains. *)
Theorem C69_orthogonal_law :
  forall hs w v N g, hs <> [] -> (g < length hs)%nat ->
  (forall e, (e < N)%nat -> forall q, (q < length hs)%nat -> image hs v w e q <= image hs v w e (peak_of hs v w e)) /\
  ((forall e, (e < N)%nat -> peak_of hs v w e <> g) -> get (orthogonal_bin hs w v N) g = 0) /\
  (forall e, (e < N)%nat -> peak_of hs v w e = g -> (forall e', (e < e')%nat -> (e' < N)%nat -> peak_of hs v w e' <> g) ->
    get (orthogonal_bin hs w v N) g = image hs v w e g * get w (length w - 1 - e)).
Proof.
  intros hs w v N g Nn Hg. split; [|split].
  - intros e He q Hq. unfold peak_of. assert (Z : mk (length hs) (image hs v w e) <> []) by (destruct hs; [congruence|discriminate]). destruct (argmax_spec _ Z) as (A & B & _). rewrite mk_length in *. specialize (B q Hq). rewrite !nth_mk in B by auto. exact B.
  - induction N; intros H. { unfold orthogonal_bin. simpl. now apply (get_repeat0 (HA := CRing_R)). } rewrite orthogonal_unfold. rewrite (get_upd (HA := CRing_R)) by (rewrite orthogonal_length; now apply peak_lt).
    destruct (Nat.eqb_spec g (peak_of hs v w N)) as [E|E]. exfalso. apply (H N); auto. apply IHN. intros; apply H; lia.
  - induction N; intros e He Pe Hl. lia. rewrite orthogonal_unfold. rewrite (get_upd (HA := CRing_R)) by (rewrite orthogonal_length; now apply peak_lt). destruct (Nat.eqb_spec g (peak_of hs v w N)) as [E|E].
    + assert (e = N). { destruct (Nat.eq_dec e N); auto. exfalso. apply (Hl N); try lia; auto. } subst e. rewrite <- E. now rewrite get_mk by auto.
    + assert (e <> N) by (intros ->; congruence). apply IHN; auto; try lia.
Qed.
Print Assumptions C69_orthogonal_law.
Lemma rsum_term n (f : nat -> R) k : (k < n)%nat -> (forall i, (i < n)%nat -> 0 <= f i) -> f k <= rsum n f.
Proof.
  induction n; intros Hk P. lia. cbn [sum]. change (@radd R CRing_R) with Rplus. destruct (Nat.eq_dec k n) as [->|].
  - assert (0 <= rsum n f) by (apply rsum_nonneg; intros; apply P; lia). lra.
  - specialize (IHn ltac:(lia) ltac:(intros; apply P; lia)). specialize (P n ltac:(lia)). lra.
Qed.
(** Eigenvalues and eigenvectors as np.linalg.eigh promises (only their sum is needed). *)
Definition eigen_of (n : nat) (M : nat -> nat -> C) (w : list R) (v : list (list C)) : Prop :=
  length w = n /\ forall i j, (i < n)%nat -> (j < n)%nat -> M i j = csum n (fun k => cmul (cmul (cnth (nth k v []) i) (rc (get w k))) (cconj (cnth (nth k v []) j))).
(** No value exceeds that of the delay-and-sum map, and no more points than eigenvalues are used have a value. *)
Theorem C69_orthogonal_bound :
  forall n M m w v hs N g, eigen_of n M w v -> (forall k, (k < n)%nat -> 0 <= get w k) -> (forall i j, (i < n)%nat -> (j < n)%nat -> entry m i j = M i j) -> (forall h, In h hs -> length h = n) -> (N <= n)%nat -> (g < length hs)%nat ->
  0 <= get (orthogonal_bin hs w v N) g <= das_value false (nth g hs []) m.
Proof.
  intros n M m w v hs N g [Lw E] W A Lh HN Hg. set (h := nth g hs []). assert (L : length h = n) by (apply Lh, nth_In; auto).
  assert (Das : das_value false h m = rsum n (fun k => get w k * cabs2 (Sxy n (cnth h) (cnth (nth k v []))))).
  { unfold das_value, power. rewrite quad_form2, L. rewrite (form2_ext _ _ _ (fun i j => csum n (fun k => cmul (cmul (cnth (nth k v []) i) (rc (get w k))) (cconj (cnth (nth k v []) j))))) by (intros; rewrite A, E by auto; reflexivity).
    transitivity (fst (csum n (fun k => rc (get w k * cabs2 (Sxy n (cnth h) (cnth (nth k v []))))))); [|now rewrite csum_rc]. f_equal.
    transitivity (csum n (fun k => form2 n (cnth h) (fun i j => cmulr (cmul (cnth (nth k v []) i) (cconj (cnth (nth k v []) j))) (get w k)))).
    - unfold form2. rewrite csum_swap. rewrite (sum_ext (HA := CRing_C) n _ (fun j => csum n (fun k => csum n (fun i => cmul (cmul (cconj (cnth h i)) (cmulr (cmul (cnth (nth k v []) i) (cconj (cnth (nth k v []) j))) (get w k))) (cnth h j))))).
      + rewrite csum_swap. apply sum_ext. intros k Hk. apply csum_swap.
      + intros j Hj. rewrite csum_swap. apply sum_ext. intros i Hi. change cmul with (@rmul C CRing_C). rewrite <- (sum_scal_l (HA := CRing_C)). rewrite <- (sum_scal_r (HA := CRing_C)). apply sum_ext. intros k Hk. change (@rmul C CRing_C) with cmul. apply c_ext; cbn; ring.
    - apply sum_ext. intros k Hk. apply form2_rank_one. }
  assert (One : forall k, (k < n)%nat -> cabs2 (Sxy n (cnth h) (cnth (nth k v []))) * get w k <= das_value false h m).
  { intros k Hk. rewrite Das, Rmult_comm. apply (rsum_term n (fun k => get w k * cabs2 (Sxy n (cnth h) (cnth (nth k v [])))) k Hk). intros; apply Rmult_le_pos; [now apply W|apply cabs2_pos]. }
  assert (D0 : 0 <= das_value false h m). { rewrite Das. apply rsum_nonneg. intros; apply Rmult_le_pos; [apply W; lia|apply cabs2_pos]. }
  clear Das. induction N. { unfold orthogonal_bin. cbn [seq fold_left]. rewrite (get_repeat0 (HA := CRing_R)). change (@r0 R CRing_R) with 0. lra. }
  rewrite orthogonal_unfold. rewrite (get_upd (HA := CRing_R)) by (rewrite orthogonal_length; apply peak_lt; intros ->; simpl in Hg; lia). destruct (Nat.eqb_spec g (peak_of hs v w N)) as [Eg|Eg].
  - rewrite <- Eg, get_mk by auto. unfold image. fold h. rewrite L. split; [|apply One; lia]. apply Rmult_le_pos; [apply cabs2_pos|apply W; lia].
  - apply IHN. lia.
Qed.
Print Assumptions C69_orthogonal_bound.
Theorem C69_orthogonal_sparse :
  forall hs w v N, (length (filter (fun g => if Req_EM_T (get (orthogonal_bin hs w v N) g) 0 then false else true) (seq 0 (length hs))) <= N)%nat.
Proof.
  intros hs w v N. destruct hs as [|h0 t0] eqn:Eh. simpl; lia. rewrite <- Eh in *. assert (Nn : hs <> []) by (rewrite Eh; discriminate). clear Eh h0 t0.
  set (P := fun g => if Req_EM_T (get (orthogonal_bin hs w v N) g) 0 then false else true). transitivity (length (map (peak_of hs v w) (seq 0 N))); [|now rewrite map_length, seq_length].
  apply NoDup_incl_length. apply NoDup_filter, seq_NoDup. intros g Hg. apply filter_In in Hg as [Hg Pg]. apply in_seq in Hg. unfold P in Pg. destruct (Req_EM_T (get (orthogonal_bin hs w v N) g) 0) as [E|E]; [discriminate|].
  destruct (in_dec Nat.eq_dec g (map (peak_of hs v w) (seq 0 N))) as [I|I]; auto. exfalso. apply E. apply C69_orthogonal_law; auto; try lia. intros e He Q. apply I. rewrite <- Q. apply in_map, in_seq. lia.
Qed.
Print Assumptions C69_orthogonal_sparse.
(** The total of the map is therefore not the total of the peaks: *)
Theorem C69_orthogonal_total_refuted :
  exists M w v hs, eigen_of 2 M w v /\ (forall k, (k < 2)%nat -> 0 < get w k) /\
    rsum (length hs) (get (orthogonal_bin hs w v 2)) < rsum 2 (fun e => image hs v w e (peak_of hs v w e) * get w (length w - 1 - e)) /\ get (orthogonal_bin hs w v 2) 0 = 1.
Proof.
  exists (entry (two 1 4)), [1; 4], [[rc 1; rc 0]; [rc 0; rc 1]], [[rc 1; rc 1]]. split; [|split].
  - split; [reflexivity|]. intros i j Hi Hj. rewrite two_entry by auto. destruct i as [|[|]], j as [|[|]]; try lia; unfold get, cnth; cbn [sum nth Nat.eqb]; apply c_ext; cbn; ring.
  - intros k Hk. unfold get. destruct k as [|[|]]; try lia; cbn; lra.
  - set (hs := [[rc 1; rc 1]]). set (v := [[rc 1; rc 0]; [rc 0; rc 1]]). assert (Pk : forall e, peak_of hs v [1; 4] e = 0%nat) by (intros e; pose proof (peak_lt hs v [1; 4] e ltac:(discriminate)) as L; simpl in L; lia).
    assert (I0 : image hs v [1; 4] 0 0 = 1) by (unfold image, Sxy, cabs2, cnth, hs, v; cbn; ring). assert (I1 : image hs v [1; 4] 1 0 = 1) by (unfold image, Sxy, cabs2, cnth, hs, v; cbn; ring).
    assert (V : get (orthogonal_bin hs [1; 4] v 2) 0 = 1). { destruct (C69_orthogonal_law hs [1; 4] v 2 0 ltac:(discriminate) ltac:(simpl; lia)) as (_ & _ & Q). rewrite (Q 1%nat); [|lia|apply Pk|intros; lia]. rewrite I1. unfold get. cbn. ring. }
    split; auto. change (length hs) with 1%nat. cbn [sum]. change (@radd R CRing_R) with Rplus. change (@r0 R CRing_R) with 0. rewrite V, !Pk, I0, I1. unfold get. cbn. lra.
Qed.
Print Assumptions C69_orthogonal_total_refuted.
(** If the peaks are at different points, every one of them is in the map. *)
Theorem C69_orthogonal_distinct :
  forall hs w v N e, hs <> [] -> (forall e e', (e < e')%nat -> (e' < N)%nat -> peak_of hs v w e' <> peak_of hs v w e) -> (e < N)%nat ->
  get (orthogonal_bin hs w v N) (peak_of hs v w e) = image hs v w e (peak_of hs v w e) * get w (length w - 1 - e).
Proof. intros hs w v N e Nn D He. apply C69_orthogonal_law; auto. now apply peak_lt. Qed.
Print Assumptions C69_orthogonal_distinct.
Example C69_orthogonal_case : 0 <= get (orthogonal_bin [[rc 1; rc 1]; [rc 1; rc 0]] [1; 4] [[rc 1; rc 0]; [rc 0; rc 1]] 1) 1 <= das_value false [rc 1; rc 0] (two 1 4).
Proof.
  apply (C69_orthogonal_bound 2 (entry (two 1 4)) (two 1 4) [1; 4] [[rc 1; rc 0]; [rc 0; rc 1]] [[rc 1; rc 1]; [rc 1; rc 0]] 1 1); auto; try (simpl; lia).
  - split; [reflexivity|]. intros i j Hi Hj. rewrite two_entry by auto. destruct i as [|[|]], j as [|[|]]; try lia; unfold get, cnth; cbn [sum nth Nat.eqb]; apply c_ext; cbn; ring.
  - intros k Hk. unfold get. destruct k as [|[|]]; try lia; cbn; lra.
  - intros h [<-|[<-|[]]]; reflexivity.
Qed.
