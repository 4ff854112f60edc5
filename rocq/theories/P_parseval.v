(** Parseval and Plancherel for the discrete Fourier transform; one-sided sums. *)
From Coq Require Import List Arith Lia ZArith Bool Reals Lra Psatz.
From Verif Require Import Alg Spec M_arrays Dft.
Import ListNotations.
Local Open Scope R_scope.
Add Ring crp : (@rth C CRing_C).

Lemma mod_diff0 n a b : (a < n)%nat -> (b < n)%nat -> ((Z.of_nat a - Z.of_nat b) mod Z.of_nat n =? 0)%Z = (b =? a)%nat.
Proof.
  intros Ha Hb. destruct (Nat.eqb_spec b a) as [->|Hne]. rewrite Z.sub_diag. apply Z.eqb_eq. apply Z.mod_0_l. lia.
  apply Z.eqb_neq. intros E. apply Z.mod_divide in E; [|lia]. destruct E as [q E]. assert (q = 0)%Z by nia. lia.
Qed.
Theorem plancherel n x y : (0 < n)%nat ->
  csum n (fun k => cconj (dft n x k) *! dft n y k) = rc (INR n * rsum n (fun t => get x t * get y t)).
Proof.
  intros Hn.
  transitivity (csum n (fun k => csum n (fun a => csum n (fun b => rc (get x a * get y b) *! root n (Z.of_nat k * (Z.of_nat a - Z.of_nat b)))))).
  { apply sum_ext. intros k Hk. unfold dft at 1. rewrite csum_conj. unfold dft. rewrite sum_mul_sum. apply sum_ext. intros a Ha. apply sum_ext. intros b Hb.
    change (@rmul C CRing_C) with cmul. rewrite cconj_mul, <- root_opp, Z.opp_involutive, rc_mul.
    replace (Z.of_nat k * (Z.of_nat a - Z.of_nat b))%Z with (Z.of_nat a * Z.of_nat k + - (Z.of_nat b * Z.of_nat k))%Z by ring. rewrite root_add.
    replace (cconj (rc (get x a))) with (rc (get x a)) by (apply c_ext; simpl; ring). change cmul with (@rmul C CRing_C). ring. }
  rewrite sum_exchange. transitivity (csum n (fun a => rc (INR n * (get x a * get y a)))).
  2:{ rewrite csum_rc. f_equal. apply (sum_scal_l (HA := CRing_R) n (INR n)). }
  apply sum_ext. intros a Ha. rewrite sum_exchange.
  transitivity (csum n (fun b => if (b =? a)%nat then rc (INR n * (get x a * get y b)) else r0)).
  - apply sum_ext. intros b Hb. rewrite sum_scal_l. rewrite root_sum by auto. rewrite mod_diff0 by auto. destruct (b =? a)%nat.
    + rewrite (rc_mul (INR n)). change cmul with (@rmul C CRing_C). ring.
    + change (rc 0) with (@r0 C CRing_C). ring.
  - apply (sum_delta n a (fun b => rc (INR n * (get x a * get y b)))). auto.
Qed.
Lemma cabs2_conj z : cmul (cconj z) z = rc (cabs2 z).
Proof. apply c_ext; unfold cabs2; simpl; ring. Qed.
Lemma cabs2_cconj z : cabs2 (cconj z) = cabs2 z.
Proof. unfold cabs2; simpl; ring. Qed.
Theorem parseval n x : (0 < n)%nat -> rsum n (fun k => cabs2 (dft n x k)) = INR n * rsum n (fun t => get x t * get x t).
Proof.
  intros Hn. pose proof (plancherel n x x Hn) as P. apply (f_equal fst) in P. rewrite csum_fst in P. simpl in P. rewrite <- P. apply sum_ext. intros k Hk.
  change (cabs2 (dft n x k)) with (fst (rc (cabs2 (dft n x k)))). rewrite <- cabs2_conj. reflexivity.
Qed.
(** weight of bin k in a one-sided spectrum of n points *)
Definition onesided (n k : nat) : R := if (k =? 0)%nat then 1 else if (2 * k =? n)%nat then 1 else 2.
Lemma onesided_sum n (f : nat -> R) : (0 < n)%nat -> (forall k, (0 < k < n)%nat -> f (n - k)%nat = f k) ->
  rsum n f = rsum (n / 2 + 1) (fun k => onesided n k * f k).
Proof.
  intros Hn Hf. set (m := (n / 2)%nat). pose proof (Nat.div_mod n 2 ltac:(lia)) as D. pose proof (Nat.mod_upper_bound n 2 ltac:(lia)) as B. fold m in D.
  assert (U : rsum n f = rsum (m + 1) f + rsum (n - (m + 1)) (fun i => f (S i))).
  { destruct (Nat.eq_dec n 1) as [->|]. { unfold m. simpl. lra. }
    replace n with ((m + 1) + (n - (m + 1)))%nat at 1 by lia. rewrite (sum_split (HA := CRing_R)). change (@radd R CRing_R) with Rplus. f_equal. rewrite (sum_rev (HA := CRing_R)).
    apply sum_ext. intros i Hi. rewrite <- (Hf (S i)) by lia. f_equal. lia. }
  rewrite U. rewrite (Nat.add_comm m 1). change (1 + m)%nat with (S m). rewrite !(sum_S_front (HA := CRing_R)). change (@radd R CRing_R) with Rplus.
  change (onesided n 0) with 1. destruct (Nat.eq_dec (n mod 2) 0) as [E|E].
  - destruct m as [|p]; [lia|]. replace (n - S (S p))%nat with p by lia. cbn [sum]. change (@radd R CRing_R) with Rplus.
    rewrite (sum_ext (HA := CRing_R) p (fun i => onesided n (S i) * f (S i)) (fun i => 2 * f (S i))).
    2:{ intros i Hi. unfold onesided. destruct (Nat.eqb_spec (S i) 0); [lia|]. destruct (Nat.eqb_spec (2 * S i) n); [lia|]. auto. }
    rewrite (sum_scal_l (HA := CRing_R)). change (@rmul R CRing_R) with Rmult. unfold onesided. destruct (Nat.eqb_spec (S p) 0); [lia|]. destruct (Nat.eqb_spec (2 * S p) n); [|lia]. lra.
  - replace (n - S m)%nat with m by lia.
    rewrite (sum_ext (HA := CRing_R) m (fun i => onesided n (S i) * f (S i)) (fun i => 2 * f (S i))).
    2:{ intros i Hi. unfold onesided. destruct (Nat.eqb_spec (S i) 0); [lia|]. destruct (Nat.eqb_spec (2 * S i) n); [lia|]. auto. }
    rewrite (sum_scal_l (HA := CRing_R)). change (@rmul R CRing_R) with Rmult. lra.
Qed.
Theorem parseval_onesided n x : (0 < n)%nat ->
  rsum (n / 2 + 1) (fun k => onesided n k * cabs2 (dft n x k)) = INR n * rsum n (fun t => get x t * get x t).
Proof.
  intros Hn. rewrite <- parseval by auto. symmetry. apply onesided_sum; auto. intros k Hk. rewrite dft_conj by lia. apply cabs2_cconj.
Qed.
