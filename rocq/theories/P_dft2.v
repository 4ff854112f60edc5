(** Further facts about discrete Fourier transforms: complex sequences, inversion in both orders, transform of a circular convolution. *)
From Coq Require Import List Arith Lia ZArith Bool Reals Lra.
From Verif Require Import Alg Spec Dft M_scaling P_parseval.
Import ListNotations.
Local Open Scope R_scope.

Definition cdft (n : nat) (x : nat -> C) (k : nat) : C := csum n (fun t => cmul (x t) (root n (- (Z.of_nat t * Z.of_nat k)))).
Definition icdft (n : nat) (X : nat -> C) (t : nat) : C := cdivr (csum n (fun k => cmul (X k) (root n (Z.of_nat k * Z.of_nat t)))) (INR n).

Lemma nth_mk' {T} m (f : nat -> T) d k : (k < m)%nat -> nth k (mk m f) d = f k.
Proof. intros. now apply nth_mk. Qed.
Lemma cdivr_mul z r : cdivr z r = cmul (rc (/ r)) z.
Proof. unfold cdivr, cmul, rc, Rdiv. simpl. apply c_ext; simpl; ring. Qed.
Lemma cmul_comm x y : cmul x y = cmul y x.
Proof. apply c_ext; simpl; ring. Qed.
Lemma cmul_assoc x y z : cmul x (cmul y z) = cmul (cmul x y) z.
Proof. apply c_ext; simpl; ring. Qed.
Lemma cmul_rc1 z : cmul (rc 1) z = z.
Proof. apply c_ext; simpl; ring. Qed.
Lemma cmul_rc0 z : cmul (rc 0) z = rc 0.
Proof. apply c_ext; simpl; ring. Qed.
Lemma INR_pos n : (0 < n)%nat -> 0 < INR n.
Proof. intros. apply lt_0_INR. lia. Qed.

Lemma cdft_ext n x y k : (forall t, (t < n)%nat -> x t = y t) -> cdft n x k = cdft n y k.
Proof. intros H. apply (sum_ext (HA := CRing_C)). intros t Ht. now rewrite H. Qed.
Lemma icdft_ext n x y k : (forall t, (t < n)%nat -> x t = y t) -> icdft n x k = icdft n y k.
Proof. intros H. unfold icdft. f_equal. apply (sum_ext (HA := CRing_C)). intros t Ht. now rewrite H. Qed.
Lemma dft_cdft n x k : dft n x k = cdft n (fun t => rc (get x t)) k.
Proof. reflexivity. Qed.

Lemma cdft_icdft n X k : (k < n)%nat -> cdft n (icdft n X) k = X k.
Proof.
  intros Hk. pose proof (INR_pos n ltac:(lia)) as N0. unfold cdft, icdft.
  rewrite (sum_ext (HA := CRing_C) n _ (fun t => csum n (fun j => cmul (cmul (rc (/ INR n)) (X j)) (root n (Z.of_nat t * (Z.of_nat j - Z.of_nat k)))))).
  2:{ intros t Ht. rewrite cdivr_mul.
      rewrite <- (sum_scal_l (HA := CRing_C)), <- (sum_scal_r (HA := CRing_C)). apply (sum_ext (HA := CRing_C)). intros j Hj.
      replace (Z.of_nat t * (Z.of_nat j - Z.of_nat k))%Z with (Z.of_nat j * Z.of_nat t + - (Z.of_nat t * Z.of_nat k))%Z by ring.
      rewrite root_add. change (@rmul C CRing_C) with cmul. apply c_ext; simpl; ring. }
  rewrite (sum_exchange (HA := CRing_C)).
  rewrite (sum_ext (HA := CRing_C) n _ (fun j => if (j =? k)%nat then X j else @r0 C CRing_C)).
  { apply (sum_delta (HA := CRing_C) n k X). auto. }
  intros j Hj. rewrite (sum_scal_l (HA := CRing_C)).
  rewrite (root_sum n (Z.of_nat j - Z.of_nat k)) by lia.
  rewrite (mod_diff0 n j k) by auto. rewrite Nat.eqb_sym. destruct (j =? k)%nat.
  - change (@rmul C CRing_C) with cmul. apply c_ext; simpl; field; lra.
  - change (@rmul C CRing_C) with cmul. change (@r0 C CRing_C) with (rc 0). apply c_ext; simpl; ring.
Qed.
Lemma icdft_cdft n x t : (t < n)%nat -> icdft n (cdft n x) t = x t.
Proof.
  intros Hk. pose proof (INR_pos n ltac:(lia)) as N0. unfold cdft, icdft. rewrite cdivr_mul.
  rewrite (sum_ext (HA := CRing_C) n _ (fun k => csum n (fun j => cmul (x j) (root n (Z.of_nat k * (Z.of_nat t - Z.of_nat j)))))).
  2:{ intros k Hk'. rewrite <- (sum_scal_r (HA := CRing_C)). apply (sum_ext (HA := CRing_C)). intros j Hj.
      replace (Z.of_nat k * (Z.of_nat t - Z.of_nat j))%Z with (- (Z.of_nat j * Z.of_nat k) + Z.of_nat k * Z.of_nat t)%Z by ring.
      rewrite root_add. change (@rmul C CRing_C) with cmul. apply c_ext; simpl; ring. }
  rewrite (sum_exchange (HA := CRing_C)).
  rewrite (sum_ext (HA := CRing_C) n _ (fun j => if (j =? t)%nat then cmul (rc (INR n)) (x j) else @r0 C CRing_C)).
  { rewrite (sum_delta (HA := CRing_C) n t (fun j => cmul (rc (INR n)) (x j))) by auto. apply c_ext; simpl; field; lra. }
  intros j Hj. rewrite (sum_scal_l (HA := CRing_C)).
  rewrite (root_sum n (Z.of_nat t - Z.of_nat j)) by lia.
  rewrite (mod_diff0 n t j) by auto. destruct (j =? t)%nat.
  - change (@rmul C CRing_C) with cmul. apply c_ext; simpl; ring.
  - change (@rmul C CRing_C) with cmul. change (@r0 C CRing_C) with (rc 0). apply c_ext; simpl; ring.
Qed.
(** Sequences with the same transform are equal. *)
Lemma cdft_inj n x y : (forall k, (k < n)%nat -> cdft n x k = cdft n y k) -> forall t, (t < n)%nat -> x t = y t.
Proof. intros H t Ht. rewrite <- (icdft_cdft n x t), <- (icdft_cdft n y t) by auto. now apply icdft_ext. Qed.
Lemma dft_inj n x y : (forall k, (k < n)%nat -> dft n x k = dft n y k) -> forall t, (t < n)%nat -> get x t = get y t.
Proof. intros H t Ht. pose proof (cdft_inj n (fun t => rc (get x t)) (fun t => rc (get y t)) H t Ht) as E. now injection E. Qed.
(** The half spectrum is enough. *)
Lemma dft_inj_half n x y : (forall k, (k <= n / 2)%nat -> dft n x k = dft n y k) -> forall t, (t < n)%nat -> get x t = get y t.
Proof.
  intros H t Ht. apply (dft_inj n x y); auto. intros k Hk. destruct (Nat.leb_spec k (n / 2)). now apply H.
  pose proof (Nat.div_mod n 2 ltac:(lia)). pose proof (Nat.mod_upper_bound n 2 ltac:(lia)).
  pose proof (H (n - k)%nat ltac:(lia)) as E. rewrite !dft_conj in E by lia.
  rewrite <- (cconj_conj (dft n x k)), <- (cconj_conj (dft n y k)), E. reflexivity.
Qed.

(** A spectrum with the symmetry X(n-k) = conj X(k) belongs to a real sequence. *)
Lemma root_refl n k t : (0 < n)%nat -> (k <= n)%nat -> root n (Z.of_nat (n - k) * Z.of_nat t) = cconj (root n (Z.of_nat k * Z.of_nat t)).
Proof.
  intros Hn Hk. rewrite <- root_opp. rewrite Nat2Z.inj_sub by lia.
  replace ((Z.of_nat n - Z.of_nat k) * Z.of_nat t)%Z with (- (Z.of_nat k * Z.of_nat t) + Z.of_nat n * Z.of_nat t)%Z by ring.
  rewrite root_add, root_period by auto. apply c_ext; simpl; ring.
Qed.
Lemma csum_reflect n f : (0 < n)%nat -> csum n f = csum n (fun k => f ((n - k) mod n)%nat).
Proof.
  intros Hn. destruct n as [|n]; [lia|]. rewrite !(sum_S_front (HA := CRing_C)).
  replace ((S n - 0) mod S n)%nat with 0%nat. 2:{ rewrite Nat.sub_0_r, Nat.mod_same; auto. } f_equal.
  rewrite (sum_rev (HA := CRing_C) n). apply (sum_ext (HA := CRing_C)). intros i Hi. f_equal. rewrite Nat.mod_small by lia. lia.
Qed.
Lemma icdft_real n X t : (0 < n)%nat -> (forall k, (0 < k < n)%nat -> X (n - k)%nat = cconj (X k)) -> snd (X 0%nat) = 0 -> snd (icdft n X t) = 0.
Proof.
  intros Hn H H0. unfold icdft. set (s := csum n _).
  assert (E : s = cconj s).
  { unfold s at 2. rewrite csum_conj. unfold s. rewrite (csum_reflect n) by auto. apply (sum_ext (HA := CRing_C)). intros k Hk.
    destruct (Nat.eq_dec k 0) as [->|Hk0].
    - rewrite Nat.sub_0_r, Nat.mod_same by lia. simpl Z.of_nat. rewrite Z.mul_0_l, root_0. apply c_ext; simpl; rewrite ?H0; ring.
    - rewrite Nat.mod_small by lia. rewrite H by lia. rewrite root_refl by lia. now rewrite cconj_mul. }
  assert (Hs : snd s = - snd s). { rewrite E at 1. reflexivity. }
  unfold cdivr. simpl. replace (snd s) with 0 by lra. unfold Rdiv. ring.
Qed.
Lemma herm_sym n X k : (0 < k < n)%nat -> (forall j, (2 * j = n)%nat -> snd (nth j X (rc 0)) = 0) -> herm n X (n - k) = cconj (herm n X k).
Proof.
  intros Hk H. unfold herm. pose proof (Nat.div_mod n 2 ltac:(lia)) as D. pose proof (Nat.mod_upper_bound n 2 ltac:(lia)) as B.
  destruct (Nat.leb_spec (n - k) (n / 2)), (Nat.leb_spec k (n / 2)).
  - assert (2 * k = n)%nat by lia. replace (n - k)%nat with k by lia. apply c_ext; simpl; auto. rewrite H by auto. ring.
  - now rewrite cconj_conj.
  - f_equal. f_equal. lia.
  - exfalso. lia.
Qed.
(** The transform of the inverse real transform, when the bins at 0 and at n/2 are real. *)
Theorem dft_irfft n X k : (k <= n / 2)%nat -> (0 < n)%nat -> snd (nth 0 X (rc 0)) = 0 -> (forall j, (2 * j = n)%nat -> snd (nth j X (rc 0)) = 0) ->
  dft n (irfft_n n X) k = nth k X (rc 0).
Proof.
  intros Hk Hn H0 Hm.
  assert (Hd : (n / 2 < n)%nat) by (apply Nat.div_lt; lia).
  transitivity (cdft n (icdft n (herm n X)) k).
  - rewrite dft_cdft. apply cdft_ext. intros t Ht. unfold irfft_n. rewrite (get_mk (HA := CRing_R)) by auto.
    assert (S0 : snd (icdft n (herm n X) t) = 0).
    { apply icdft_real; auto. intros j Hj. now apply herm_sym. }
    unfold icdft in *. apply c_ext. reflexivity. symmetry. exact S0.
  - rewrite cdft_icdft by lia. unfold herm. destruct (Nat.leb_spec k (n / 2)); [auto|lia].
Qed.
(** Circular convolution theorem, forward. *)
Theorem dft_circ n x h y k : (k < n)%nat -> (forall t, (t < n)%nat -> get y t = circ n x h t) -> dft n y k = cmul (dft n x k) (dft n h k).
Proof.
  intros Hk H.
  transitivity (cdft n (icdft n (fun k => cmul (dft n x k) (dft n h k))) k).
  - rewrite dft_cdft. apply cdft_ext. intros t Ht. rewrite H by auto. unfold icdft.
    pose proof (conv_thm n x h t ltac:(lia) Ht) as E. change (@rmul C CRing_C) with cmul in E. rewrite E.
    pose proof (INR_pos n ltac:(lia)). apply c_ext; simpl; field; lra.
  - now rewrite cdft_icdft.
Qed.
