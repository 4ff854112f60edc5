(** Complex numbers as pairs of reals and the discrete Fourier transform by its defining sum.
    Used for scipy.fft.rfft / irfft. Nothing here models /repo code. *)
From Coq Require Import List Arith Lia ZArith Reals Lra Ring Field.
From Verif Require Import Alg.
Import ListNotations.
Local Open Scope R_scope.

Definition C := (R * R)%type.
Definition cadd (x y : C) : C := (fst x + fst y, snd x + snd y).
Definition cmul (x y : C) : C := (fst x * fst y - snd x * snd y, fst x * snd y + snd x * fst y).
Definition copp (x : C) : C := (- fst x, - snd x).
Definition csub (x y : C) : C := (fst x - fst y, snd x - snd y).
Definition cconj (x : C) : C := (fst x, - snd x).
Definition rc (x : R) : C := (x, 0).
Definition cinv (x : C) : C := let d := fst x * fst x + snd x * snd x in (fst x / d, - snd x / d).
Definition cabs2 (x : C) : R := fst x * fst x + snd x * snd x.

Lemma c_ext (x y : C) : fst x = fst y -> snd x = snd y -> x = y.
Proof. destruct x, y. simpl. now intros -> ->. Qed.

#[export] Instance CRing_C : CRing C.
Proof.
  refine {| r0 := rc 0; r1 := rc 1; radd := cadd; rmul := cmul; rsub := csub; ropp := copp |}.
  constructor; intros; apply c_ext; unfold cadd, cmul, csub, copp, rc; simpl; ring.
Defined.
Lemma c_norm_zero x : cabs2 x = 0 -> x = rc 0.
Proof.
  unfold cabs2. intros H. assert (fst x * fst x = 0 /\ snd x * snd x = 0) as [H1 H2].
  { pose proof (Rle_0_sqr (fst x)). pose proof (Rle_0_sqr (snd x)). unfold Rsqr in *. split; lra. }
  apply c_ext; simpl. now destruct (Rmult_integral _ _ H1). now destruct (Rmult_integral _ _ H2).
Qed.
#[export] Instance CField_C : CField C.
Proof.
  refine {| fring := CRing_C; rinv := cinv |}.
  - intros x Hx. assert (N : fst x * fst x + snd x * snd x <> 0).
    { intros E. apply Hx. now apply c_norm_zero. }
    apply c_ext; unfold cinv; simpl; field; exact N.
  - intros H. injection H. lra.
Defined.
Definition crt := @rth C CRing_C.
Add Ring Cring : crt.

Lemma cconj_mul x y : cconj (cmul x y) = cmul (cconj x) (cconj y).
Proof. apply c_ext; simpl; ring. Qed.
Lemma cconj_conj x : cconj (cconj x) = x.
Proof. apply c_ext; simpl; ring. Qed.
Lemma rc_mul x y : rc (x * y) = cmul (rc x) (rc y).
Proof. apply c_ext; simpl; ring. Qed.
Lemma rc_add x y : rc (x + y) = cadd (rc x) (rc y).
Proof. apply c_ext; simpl; ring. Qed.
Notation csum := (sum (HA := CRing_C)).
Notation rsum := (sum (HA := CRing_R)).
Lemma csum_fst n f : fst (csum n f) = rsum n (fun i => fst (f i)).
Proof. induction n; simpl; auto. now rewrite IHn. Qed.
Lemma csum_snd n f : snd (csum n f) = rsum n (fun i => snd (f i)).
Proof. induction n; simpl; auto. now rewrite IHn. Qed.
Lemma csum_conj n f : cconj (csum n f) = csum n (fun i => cconj (f i)).
Proof.
  induction n; simpl. apply c_ext; simpl; lra. rewrite <- IHn. apply c_ext; simpl; lra.
Qed.
Lemma csum_rc n f : csum n (fun i => rc (f i)) = rc (rsum n f).
Proof. induction n; simpl; auto. rewrite IHn. apply c_ext; simpl; lra. Qed.

(** ** Roots of unity *)
Definition cis (t : R) : C := (cos t, sin t).
(** e^(2 pi i s / n). *)
Definition root (n : nat) (s : Z) : C := cis (2 * PI * IZR s / INR n).

Lemma cis_add a b : cis (a + b) = cmul (cis a) (cis b).
Proof. unfold cis, cmul. simpl. rewrite cos_plus, sin_plus. apply c_ext; simpl; ring. Qed.
Lemma cis_0 : cis 0 = rc 1.
Proof. unfold cis, rc. now rewrite cos_0, sin_0. Qed.
Lemma cis_opp a : cis (- a) = cconj (cis a).
Proof. unfold cis, cconj. simpl. now rewrite cos_neg, sin_neg. Qed.
Lemma cis_2pi (k : Z) : cis (2 * PI * IZR k) = rc 1.
Proof.
  unfold cis, rc. replace (2 * PI * IZR k) with (0 + 2 * IZR k * PI) by ring.
  destruct (Z_le_gt_dec 0 k).
  - rewrite <- (Z2Nat.id k) by lia. rewrite <- INR_IZR_INZ. rewrite cos_period, sin_period, cos_0, sin_0. reflexivity.
  - assert (E : 2 * IZR k * PI = - (2 * INR (Z.to_nat (- k)) * PI)).
    { rewrite INR_IZR_INZ, Z2Nat.id by lia. rewrite opp_IZR. ring. }
    rewrite E. rewrite Rplus_0_l, cos_neg, sin_neg.
    replace (2 * INR (Z.to_nat (- k)) * PI) with (0 + 2 * INR (Z.to_nat (- k)) * PI) by ring.
    rewrite cos_period, sin_period, cos_0, sin_0. apply c_ext; simpl; lra.
Qed.
Lemma root_add n a b : root n (a + b) = cmul (root n a) (root n b).
Proof. unfold root. rewrite plus_IZR. rewrite <- cis_add. f_equal. unfold Rdiv. ring. Qed.
Lemma root_0 n : root n 0 = rc 1.
Proof. unfold root. replace (2 * PI * 0 / INR n) with 0 by (unfold Rdiv; ring). apply cis_0. Qed.
Lemma root_opp n a : root n (- a) = cconj (root n a).
Proof. unfold root. rewrite <- cis_opp. f_equal. rewrite opp_IZR. unfold Rdiv. ring. Qed.
Lemma root_period n q : (0 < n)%nat -> root n (Z.of_nat n * q) = rc 1.
Proof.
  intros Hn. unfold root. rewrite mult_IZR, <- INR_IZR_INZ.
  replace (2 * PI * (INR n * IZR q) / INR n) with (2 * PI * IZR q). apply cis_2pi.
  field. apply not_0_INR. lia.
Qed.
Lemma root_mod n a : (0 < n)%nat -> root n (a mod Z.of_nat n) = root n a.
Proof.
  intros Hn. rewrite (Z.div_mod a (Z.of_nat n)) at 2 by lia. rewrite root_add, root_period by auto.
  apply c_ext; simpl; ring.
Qed.
Lemma cos_lt_1 t : 0 < t < 2 * PI -> cos t <> 1.
Proof.
  intros [H1 H2] E. pose proof PI_RGT_0 as HP.
  assert (HC : cos t = 1 - 2 * sin (t / 2) * sin (t / 2)).
  { replace t with (2 * (t / 2)) at 1 by field. rewrite cos_2a. pose proof (sin2_cos2 (t / 2)) as S. unfold Rsqr in S. nra. }
  assert (HS : 0 < sin (t / 2)) by (apply sin_gt_0; lra).
  nra.
Qed.
Lemma root_neq1 n s : (0 < n)%nat -> (s mod Z.of_nat n <> 0)%Z -> root n s <> rc 1.
Proof.
  intros Hn Hs E. rewrite <- root_mod in E by auto. pose proof (Z.mod_pos_bound s (Z.of_nat n) ltac:(lia)) as B.
  set (k := (s mod Z.of_nat n)%Z) in *. unfold root, cis, rc in E. injection E as E _. revert E. apply cos_lt_1.
  pose proof PI_RGT_0 as HP. assert (Hn' : 0 < INR n) by (apply lt_0_INR; lia).
  assert (K1 : 1 <= IZR k) by (apply IZR_le; lia).
  assert (K2 : IZR k < INR n) by (rewrite INR_IZR_INZ; apply IZR_lt; lia).
  split.
  - apply Rdiv_lt_0_compat; nra.
  - apply Rmult_lt_reg_r with (INR n); auto. unfold Rdiv. rewrite Rmult_assoc, Rinv_l by lra. nra.
Qed.
Lemma root_pow n s k : root n (Z.of_nat k * s) = rpow (root n s) k.
Proof.
  induction k; simpl rpow. apply root_0. rewrite Nat2Z.inj_succ, Z.mul_succ_l, root_add, IHk. simpl. apply (Rmul_comm crt).
Qed.
Lemma geo n (w : C) : csum n (rpow w) *! (w -! r1) = rpow w n -! r1.
Proof. induction n. cbn [sum rpow]. ring. cbn [sum]. transitivity (csum n (rpow w) *! (w -! r1) +! rpow w n *! (w -! r1)). ring. rewrite IHn. cbn [rpow]. ring. Qed.
(** Orthogonality. *)
Lemma root_sum n s : (0 < n)%nat ->
  csum n (fun k => root n (Z.of_nat k * s)) = if (s mod Z.of_nat n =? 0)%Z then rc (INR n) else rc 0.
Proof.
  intros Hn. destruct (Z.eqb_spec (s mod Z.of_nat n) 0) as [E|E].
  - assert (H : forall k, root n (Z.of_nat k * s) = rc 1).
    { intros k. apply Z.mod_divide in E; [|lia]. destruct E as [q ->].
      replace (Z.of_nat k * (q * Z.of_nat n))%Z with (Z.of_nat n * (Z.of_nat k * q))%Z by ring. now apply root_period. }
    rewrite (sum_ext _ _ (fun _ => rc 1)) by auto. clear. rewrite (csum_rc n (fun _ => 1)). f_equal.
    induction n. reflexivity. rewrite S_INR. simpl sum. rewrite IHn. reflexivity.
  - rewrite (sum_ext _ _ (rpow (root n s))) by (intros; apply root_pow).
    pose proof (geo n (root n s)) as G. rewrite <- root_pow in G. rewrite (root_period n s Hn) in G.
    assert (G' : (root n s -! r1) *! csum n (rpow (root n s)) = r0).
    { rewrite (Rmul_comm crt). rewrite G. apply c_ext; simpl; ring. }
    apply (rmul_integral (HF := CField_C)) in G'; auto.
    intros Z. apply (root_neq1 n s Hn E). apply c_ext; [injection Z|injection Z]; simpl; intros; lra.
Qed.

(** ** DFT *)
Definition dft (n : nat) (x : list R) (k : nat) : C := csum n (fun t => rc (get x t) *! root n (- (Z.of_nat t * Z.of_nat k))).
(** The DFT of a real sequence at n - k is the conjugate of the one at k. *)
Lemma dft_conj n x k : (0 < n)%nat -> (k <= n)%nat -> dft n x (n - k) = cconj (dft n x k).
Proof.
  intros Hn Hk. unfold dft. rewrite csum_conj. apply sum_ext. intros t Ht. simpl. rewrite cconj_mul. f_equal.
  - apply c_ext; simpl; ring.
  - rewrite <- root_opp. rewrite Nat2Z.inj_sub by lia.
    replace (- (Z.of_nat t * (Z.of_nat n - Z.of_nat k)))%Z with (- - (Z.of_nat t * Z.of_nat k) + Z.of_nat n * (- Z.of_nat t))%Z by ring.
    rewrite root_add, root_period by auto. apply c_ext; simpl; ring.
Qed.
(** numpy/scipy rfft with n points: bins 0 .. n/2. *)
Definition rfft (n : nat) (x : list R) : list C := mk (n / 2 + 1) (dft n x).
(** Hermitian extension of a half spectrum, bin k of n. *)
Definition herm (n : nat) (X : list C) (k : nat) : C :=
  if Nat.leb k (n / 2) then nth k X (rc 0) else cconj (nth (n - k) X (rc 0)).
(** irfft with n points: the real part of the inverse DFT of the Hermitian extension
    (imaginary parts of bins 0 and n/2 have no effect, as in pocketfft). *)
Definition irfft_n (n : nat) (X : list C) : list R :=
  mk n (fun t => fst (csum n (fun k => herm n X k *! root n (Z.of_nat k * Z.of_nat t))) / INR n).
(** irfft without n: n = 2 (m - 1) for m bins. *)
Definition irfft (X : list C) : list R := irfft_n (2 * (length X - 1)) X.

(** Circular convolution of two real sequences, n points. *)
Definition circ (n : nat) (x h : list R) (t : nat) : R := rsum n (fun a => get x a * get h ((t + n - a) mod n)).

Lemma herm_real n x k : (0 < n)%nat -> (k < n)%nat -> herm n (rfft n x) k = dft n x k.
Proof.
  intros Hn Hk. unfold herm, rfft. destruct (Nat.leb_spec k (n / 2)).
  - rewrite nth_mk by lia. reflexivity.
  - rewrite nth_mk.
    + rewrite dft_conj by lia. apply cconj_conj.
    + pose proof (Nat.div_mod n 2 ltac:(lia)). pose proof (Nat.mod_upper_bound n 2 ltac:(lia)). lia.
Qed.
Definition cmul_list (X Y : list C) : list C := mk (length X) (fun k => nth k X (rc 0) *! nth k Y (rc 0)).
Lemma rfft_length n x : length (rfft n x) = (n / 2 + 1)%nat.
Proof. apply mk_length. Qed.
Lemma herm_mul n x h k : (0 < n)%nat -> (k < n)%nat -> herm n (cmul_list (rfft n x) (rfft n h)) k = dft n x k *! dft n h k.
Proof.
  intros Hn Hk. rewrite <- (herm_real n x k), <- (herm_real n h k) by auto. unfold herm, cmul_list.
  pose proof (Nat.div_mod n 2 ltac:(lia)). pose proof (Nat.mod_upper_bound n 2 ltac:(lia)).
  destruct (Nat.leb_spec k (n / 2)); rewrite nth_mk by (rewrite rfft_length; lia); auto.
  apply cconj_mul.
Qed.

Lemma mod_small_neg a m : (0 < m)%nat -> (a mod m < m)%nat.
Proof. intros. apply Nat.mod_upper_bound. lia. Qed.

(** Inverse of the product of two DFTs: sum over all pairs with a + b = t mod n. *)
Lemma conv_thm n x h t : (0 < n)%nat -> (t < n)%nat ->
  csum n (fun k => dft n x k *! dft n h k *! root n (Z.of_nat k * Z.of_nat t)) = rc (INR n * circ n x h t).
Proof.
  intros Hn Ht.
  transitivity (csum n (fun k => csum n (fun a => csum n (fun b => rc (get x a * get h b) *! root n (Z.of_nat k * (Z.of_nat t - Z.of_nat a - Z.of_nat b)))))).
  { apply sum_ext. intros k Hk. unfold dft. rewrite sum_mul_sum, <- sum_scal_r. apply sum_ext. intros a Ha. rewrite <- sum_scal_r.
    apply sum_ext. intros b Hb. rewrite rc_mul.
    replace (Z.of_nat k * (Z.of_nat t - Z.of_nat a - Z.of_nat b))%Z with ((- (Z.of_nat a * Z.of_nat k) + - (Z.of_nat b * Z.of_nat k)) + Z.of_nat k * Z.of_nat t)%Z by ring.
    rewrite !root_add. change cmul with (@rmul C CRing_C). ring. }
  rewrite sum_exchange.
  transitivity (csum n (fun a => rc (INR n * (get x a * get h ((t + n - a) mod n))))).
  2:{ rewrite csum_rc. f_equal. unfold circ. apply (sum_scal_l (HA := CRing_R) n (INR n)). }
  apply sum_ext. intros a Ha. rewrite sum_exchange.
  transitivity (csum n (fun b => if (b =? (t + n - a) mod n)%nat then rc (INR n * (get x a * get h b)) else r0)).
  - apply sum_ext. intros b Hb. rewrite sum_scal_l. rewrite (root_sum n (Z.of_nat t - Z.of_nat a - Z.of_nat b)) by auto.
    assert (E : ((Z.of_nat t - Z.of_nat a - Z.of_nat b) mod Z.of_nat n =? 0)%Z = (b =? (t + n - a) mod n)%nat).
    { destruct (Nat.eqb_spec b ((t + n - a) mod n)) as [->|Hne].
      - apply Z.eqb_eq. rewrite Nat2Z.inj_mod, Nat2Z.inj_sub, Nat2Z.inj_add by lia.
        rewrite Zminus_mod_idemp_r. replace (Z.of_nat t - Z.of_nat a - (Z.of_nat t + Z.of_nat n - Z.of_nat a))%Z with ((-1) * Z.of_nat n)%Z by lia.
        apply Z.mod_mul. lia.
      - apply Z.eqb_neq. intros E. apply Hne. apply Z.mod_divide in E; [|lia]. destruct E as [q E].
        apply (Nat.mod_unique _ _ (Z.to_nat (q + 1))); auto.
        assert (-1 <= q)%Z by nia. apply Nat2Z.inj. rewrite Nat2Z.inj_add, Nat2Z.inj_mul, Z2Nat.id, Nat2Z.inj_sub, Nat2Z.inj_add by lia. nia. }
    rewrite E. destruct (b =? (t + n - a) mod n)%nat.
    + rewrite rc_mul, (rc_mul (INR n)). change cmul with (@rmul C CRing_C). rewrite rc_mul. change cmul with (@rmul C CRing_C). ring.
    + change (rc 0) with (@r0 C CRing_C). ring.
  - apply (sum_delta n ((t + n - a) mod n) (fun b => rc (INR n * (get x a * get h b)))). apply Nat.mod_upper_bound. lia.
Qed.

(** Multiplying half spectra and transforming back, with the right number of points: circular convolution. *)
Theorem irfft_conv n x h t : (0 < n)%nat -> (t < n)%nat ->
  get (irfft_n n (cmul_list (rfft n x) (rfft n h))) t = circ n x h t.
Proof.
  intros Hn Ht. unfold irfft_n. rewrite get_mk by auto.
  rewrite (sum_ext (HA := CRing_C) n _ (fun k => dft n x k *! dft n h k *! root n (Z.of_nat k * Z.of_nat t))).
  - rewrite conv_thm by auto. simpl. field. apply not_0_INR. lia.
  - intros k Hk. now rewrite herm_mul.
Qed.
Lemma irfft_even n X : Nat.even n = true -> length X = (n / 2 + 1)%nat -> irfft X = irfft_n n X.
Proof.
  intros E L. unfold irfft. f_equal. rewrite L. apply Nat.even_spec in E. destruct E as [m ->].
  rewrite (Nat.mul_comm 2 m), Nat.div_mul by lia. lia.
Qed.
Lemma irfft_length X : length (irfft X) = (2 * (length X - 1))%nat.
Proof. apply mk_length. Qed.

(** The inverse transform gives the sequence back. *)
Theorem irfft_rfft n x t : (0 < n)%nat -> (t < n)%nat -> get (irfft_n n (rfft n x)) t = get x t.
Proof.
  intros Hn Ht. unfold irfft_n. rewrite get_mk by auto.
  rewrite (sum_ext (HA := CRing_C) n _ (fun k => csum n (fun a => rc (get x a) *! root n (Z.of_nat k * (Z.of_nat t - Z.of_nat a))))).
  - rewrite sum_exchange.
    rewrite (sum_ext (HA := CRing_C) n _ (fun a => if (a =? t)%nat then rc (INR n * get x a) else r0)).
    + rewrite (sum_delta n t (fun a => rc (INR n * get x a))) by auto. simpl. field. apply not_0_INR. lia.
    + intros a Ha. rewrite sum_scal_l, root_sum by auto.
      assert (E : ((Z.of_nat t - Z.of_nat a) mod Z.of_nat n =? 0)%Z = (a =? t)%nat).
      { destruct (Nat.eqb_spec a t) as [->|Hne]. rewrite Z.sub_diag. apply Z.eqb_eq. apply Z.mod_0_l. lia.
        apply Z.eqb_neq. intros E. apply Z.mod_divide in E; [|lia]. destruct E as [q E]. assert (q = 0)%Z by nia. lia. }
      rewrite E. destruct (a =? t)%nat. rewrite rc_mul. change cmul with (@rmul C CRing_C). ring. change (rc 0) with (@r0 C CRing_C). ring.
  - intros k Hk. rewrite herm_real by auto. unfold dft. rewrite <- sum_scal_r. apply sum_ext. intros a Ha.
    replace (Z.of_nat k * (Z.of_nat t - Z.of_nat a))%Z with (- (Z.of_nat a * Z.of_nat k) + Z.of_nat k * Z.of_nat t)%Z by ring.
    rewrite root_add. change cmul with (@rmul C CRing_C). ring.
Qed.
