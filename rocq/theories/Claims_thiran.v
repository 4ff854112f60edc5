(** Property C118: the fractional delay filter. *)
From Coq Require Import List Arith Lia ZArith Bool Reals Lra Psatz.
From Verif Require Import Alg Spec M_arrays Claims_gausskernel M_thiran.
Import ListNotations.
Local Open Scope R_scope.

(** ** Specification *)
(** Sum of the coefficients and sum weighted with the delays. The group delay at 0 Hz of a polynomial with real coefficients p_k in e^(-jw) is
    (sum of k p_k) / (sum of p_k), that of a filter is the one of its numerator less the one of its denominator. *)
Fixpoint moment0 (p : list R) : R := match p with [] => 0 | v :: t => v + moment0 t end.
Fixpoint moment1 (p : list R) (k : nat) : R := match p with [] => 0 | v :: t => INR k * v + moment1 t (S k) end.
Definition delay_dc (b a : list R) : R := moment1 b 0 / moment0 b - moment1 a 0 / moment0 a.

(** ** Reversed polynomials *)
Lemma re_snoc l v : forall m w, re_part (l ++ [v]) m w = re_part l m w + v * cos (INR (m + length l) * w).
Proof. induction l as [|x l IH]; intros m w; cbn [app re_part length]; [rewrite Nat.add_0_r; ring|]. rewrite IH. replace (S m + length l)%nat with (m + S (length l))%nat by lia. ring. Qed.
Lemma im_snoc l v : forall m w, im_part (l ++ [v]) m w = im_part l m w + v * sin (INR (m + length l) * w).
Proof. induction l as [|x l IH]; intros m w; cbn [app im_part length]; [rewrite Nat.add_0_r; ring|]. rewrite IH. replace (S m + length l)%nat with (m + S (length l))%nat by lia. ring. Qed.
Lemma rev_parts c : forall n m q w, (n + m + length c = S q)%nat ->
  re_part (rev c) m w = cos (INR q * w) * re_part c n w + sin (INR q * w) * im_part c n w /\ im_part (rev c) m w = sin (INR q * w) * re_part c n w - cos (INR q * w) * im_part c n w.
Proof.
  induction c as [|v t IH]; intros n m q w E; [cbn; split; ring|]. cbn [rev re_part im_part length] in *. rewrite re_snoc, im_snoc, rev_length. destruct (IH (S n) m q w ltac:(lia)) as (A & B). rewrite A, B.
  replace (INR (m + length t) * w) with (INR q * w - INR n * w). 2:{ assert (Q : q = (n + (m + length t))%nat) by lia. rewrite Q, plus_INR. ring. }
  rewrite cos_minus, sin_minus. split; ring.
Qed.
Lemma power_rev c w : power (rev c) w = power c w.
Proof.
  destruct c as [|v t]; auto. destruct (rev_parts (v :: t) 0 0 (length t) w ltac:(cbn; lia)) as (A & B). unfold power. rewrite A, B. set (x := re_part _ _ _). set (y := im_part _ _ _). pose proof (sin2_cos2 (INR (length t) * w)) as SC. unfold Rsqr in *.
  set (s := sin _) in *. set (c := cos _) in *. transitivity ((s * s + c * c) * (x * x + y * y)); [ring|]. rewrite SC. ring.
Qed.
Lemma m0_snoc l v : moment0 (l ++ [v]) = moment0 l + v.
Proof. induction l; cbn; [ring|]. rewrite IHl. ring. Qed.
Lemma m1_snoc l v : forall k, moment1 (l ++ [v]) k = moment1 l k + INR (k + length l) * v.
Proof. induction l as [|x l IH]; intros k; cbn [app moment1 length]; [rewrite Nat.add_0_r; ring|]. rewrite IH. replace (S k + length l)%nat with (k + S (length l))%nat by lia. ring. Qed.
Lemma m0_rev l : moment0 (rev l) = moment0 l.
Proof. induction l; cbn; auto. rewrite m0_snoc, IHl. ring. Qed.
Lemma m1_rev l : forall k m q, (k + m + length l = S q)%nat -> moment1 (rev l) m = INR q * moment0 l - moment1 l k.
Proof.
  induction l as [|v l IH]; intros k m q E; cbn [rev moment0 moment1 length] in *; [cbn; ring|]. rewrite m1_snoc, rev_length, (IH (S k) m q) by lia. assert (Q : q = (k + (m + length l))%nat) by lia. rewrite Q, !plus_INR. ring.
Qed.

(** ** Rising factorials and the sum of Chu and Vandermonde *)
Fixpoint poch (b : R) (k : nat) : R := match k with O => 1 | S j => b * poch (b + 1) j end.
Lemma poch_pos b k : 0 < b -> 0 < poch b k.
Proof. revert b. induction k; intros b B; cbn; [lra|]. apply Rmult_lt_0_compat; auto. apply IHk. lra. Qed.
Lemma poch_add k : forall b j, poch b (k + j) = poch b k * poch (b + INR k) j.
Proof. induction k; intros b j; cbn [Nat.add poch]; [cbn; rewrite Rplus_0_r; ring|]. rewrite IHk, S_INR. replace (b + 1 + INR k) with (b + (INR k + 1)) by ring. ring. Qed.
Lemma poch_snoc b k : poch b (S k) = poch b k * (b + INR k).
Proof. replace (S k) with (k + 1)%nat by lia. rewrite poch_add. cbn. ring. Qed.
Fixpoint total (f : nat -> R) (n : nat) : R := match n with O => 0 | S m => total f m + f m end.
Lemma total_ext f g n : (forall k, (k < n)%nat -> f k = g k) -> total f n = total g n.
Proof. induction n; intros H; cbn; auto. rewrite IHn, H; auto. Qed.
Lemma total_front f n : total f (S n) = f 0%nat + total (fun k => f (S k)) n.
Proof. induction n; cbn [total] in *; [ring|]. rewrite IHn. ring. Qed.
Lemma total_lin f g x y n : total (fun k => x * f k + y * g k) n = x * total f n + y * total g n.
Proof. induction n; cbn; [ring|]. rewrite IHn. ring. Qed.
Lemma total_zero n : total (fun _ => 0) n = 0.
Proof. induction n; cbn; auto. rewrite IHn. ring. Qed.
Definition sgn (k : nat) : R := (-1) ^ k.
Definition term (n : nat) (b c : R) (k : nat) : R := sgn k * INR (comb n k) * (poch b k / poch c k).
Lemma comb_0 n : comb n 0 = 1%nat.
Proof. now destruct n. Qed.
Lemma comb_S n k : comb (S n) (S k) = (comb n k + comb n (S k))%nat.
Proof. reflexivity. Qed.
Lemma comb_big n : forall k, (n < k)%nat -> comb n k = 0%nat.
Proof. induction n; intros [|k] H; try lia; auto. rewrite comb_S, !IHn by lia. reflexivity. Qed.
Lemma absorb n : forall k, (S k * comb (S n) (S k) = S n * comb n k)%nat.
Proof.
  induction n; intros k.
  - rewrite comb_S. destruct k; cbn; lia.
  - rewrite comb_S. destruct k as [|k]; [rewrite !comb_0; specialize (IHn 0%nat); rewrite comb_0 in IHn; lia|]. pose proof (IHn k) as A. pose proof (IHn (S k)) as B. rewrite (comb_S n k) in *. nia.
Qed.
Lemma vandermonde n : forall b c m, (n < m)%nat -> 0 < c -> total (term n b c) m = poch (c - b) n / poch c n.
Proof.
  induction n; intros b c m M C; destruct m as [|m]; try lia.
  - rewrite total_front. rewrite (total_ext _ (fun _ => 0)); [rewrite total_zero; unfold term, sgn; cbn; field|]. intros k _. unfold term. cbn [comb INR]. ring.
  - rewrite total_front. assert (P1 : 0 < poch (c + 1) n) by (apply poch_pos; lra). assert (P : 0 < poch c n) by (now apply poch_pos). pose proof (pos_INR n) as NN.
    rewrite (total_ext _ (fun k => 1 * term n b c (S k) + (- (b / c)) * term n (b + 1) (c + 1) k)).
    2:{ intros k _. unfold term, sgn. rewrite comb_S, plus_INR. cbn [poch pow]. assert (0 < poch (c + 1) k) by (apply poch_pos; lra). field. lra. }
    rewrite total_lin. rewrite (IHn (b + 1) (c + 1) m) by (lia || lra). assert (F : total (fun k => term n b c (S k)) m = poch (c - b) n / poch c n - term n b c 0). { rewrite <- (IHn b c (S m)) by (lia || auto). rewrite total_front. ring. }
    rewrite F. replace (term (S n) b c 0) with 1 by (unfold term, sgn; rewrite comb_0; cbn; field). replace (term n b c 0) with 1 by (unfold term, sgn; rewrite comb_0; cbn; field). replace (c + 1 - (b + 1)) with (c - b) by ring.
    rewrite (poch_snoc (c - b) n). pose proof (poch_snoc c n) as E. cbn [poch] in E. cbn [poch]. assert (R : poch (c + 1) n = poch c n * (c + INR n) / c) by (rewrite <- E; field; lra). rewrite R. field. repeat split; lra.
Qed.
Lemma vandermonde1 n b c m : (S n < m)%nat -> 0 < c -> total (fun k => INR k * term (S n) b c k) m = - INR (S n) * (b / c) * (poch (c - b) n / poch (c + 1) n).
Proof.
  intros M C. destruct m as [|m]; [lia|]. rewrite total_front. change (INR 0) with 0. rewrite Rmult_0_l, Rplus_0_l. rewrite (total_ext _ (fun k => 0 * 0 + (- INR (S n) * (b / c)) * term n (b + 1) (c + 1) k)).
  - rewrite (total_lin (fun _ => 0)). rewrite (vandermonde n (b + 1) (c + 1) m) by (lia || lra). replace (c + 1 - (b + 1)) with (c - b) by ring. ring.
  - intros k _. unfold term, sgn. cbn [poch pow]. assert (0 < poch (c + 1) k) by (apply poch_pos; lra). pose proof (absorb n k) as A. apply (f_equal INR) in A. rewrite !mult_INR in A.
    transitivity (- ((-1) ^ k) * (INR (S k) * INR (comb (S n) (S k))) * (b * poch (b + 1) k / (c * poch (c + 1) k))); [field; lra|]. rewrite A. field. lra.
Qed.
Lemma sign_mod k : (if (k mod 2 =? 1)%nat then -1 else 1) = sgn k.
Proof.
  unfold sgn. destruct (Nat.Even_or_Odd k) as [(j & ->)|(j & ->)].
  - rewrite Nat.mul_comm, Nat.mod_mul by lia. cbn [Nat.eqb]. rewrite Nat.mul_comm, pow_mult. replace ((-1) ^ 2) with 1 by ring. now rewrite pow1.
  - replace (2 * j + 1)%nat with (1 + j * 2)%nat by lia. rewrite Nat.mod_add by lia. cbn [Nat.modulo Nat.divmod fst snd Nat.sub Nat.eqb]. rewrite pow_add, Nat.mul_comm, pow_mult. replace ((-1) ^ 2) with 1 by ring. rewrite pow1. ring.
Qed.
Lemma fold_ratio e k m : 0 < e -> forall s v, fold_left (fun v i => v * ((e + INR i) / (e + INR k + INR i))) (seq s m) v = v * (poch (e + INR s) m / poch (e + INR k + INR s) m).
Proof.
  intros E. pose proof (pos_INR k). induction m; intros s v; cbn [seq fold_left poch]; [field|]. rewrite IHm, S_INR. pose proof (pos_INR s). replace (e + (INR s + 1)) with (e + INR s + 1) by ring. replace (e + INR k + (INR s + 1)) with (e + INR k + INR s + 1) by ring.
  assert (0 < poch (e + INR k + INR s + 1) m) by (apply poch_pos; lra). field. split; lra.
Qed.
Lemma coeff_term n e k : 0 < e -> thiran_coeff n (INR n + e) k = term n e (e + INR (n + 1)) k.
Proof.
  intros E. pose proof (pos_INR k). pose proof (pos_INR (n + 1)). unfold thiran_coeff, term. rewrite sign_mod. replace (INR n + e - INR n) with e by ring. rewrite fold_ratio by auto. change (INR 0) with 0. rewrite !Rplus_0_r.
  assert (0 < poch (e + INR k) (n + 1)) by (apply poch_pos; lra). assert (0 < poch (e + INR (n + 1)) k) by (apply poch_pos; lra).
  assert (Q : poch e k * poch (e + INR k) (n + 1) = poch e (n + 1) * poch (e + INR (n + 1)) k) by (rewrite <- !poch_add; f_equal; lia).
  replace (poch e (n + 1) / poch (e + INR k) (n + 1)) with (poch e k / poch (e + INR (n + 1)) k); [ring|]. apply (Rmult_eq_reg_r (poch (e + INR k) (n + 1) * poch (e + INR (n + 1)) k)); [|nra].
  transitivity (poch e k * poch (e + INR k) (n + 1)); [field; lra|]. rewrite Q. field. lra.
Qed.
Lemma m0_total f n : forall s, moment0 (map f (seq s n)) = total (fun k => f (s + k)%nat) n.
Proof. induction n; intros s; auto. rewrite total_front. cbn [seq map moment0]. rewrite IHn, Nat.add_0_r. f_equal. apply total_ext. intros. f_equal. lia. Qed.
Lemma m1_total f n : forall s, moment1 (map f (seq s n)) s = total (fun k => INR (s + k) * f (s + k)%nat) n.
Proof. induction n; intros s; auto. rewrite total_front. cbn [seq map moment1]. rewrite IHn, Nat.add_0_r. f_equal. apply total_ext. intros. replace (S s + k)%nat with (s + S k)%nat by lia. reflexivity. Qed.

(** ** Theorems *)
(** For every order and every delay between 0 and 1 the filter has the given order, passes all frequencies equally, has a leading coefficient 1, gain 1 at 0 Hz, and there the delay order + delay. *)
Theorem C118_delay delay order : (0 < order)%Z -> 0 < delay < 1 ->
  exists b a, thiran delay order = Ok (b, a) /\ length a = Z.to_nat (order + 1) /\ length b = length a /\ nth 0 a 0 = 1 /\
    (forall w, power b w = power a w) /\ moment0 b = moment0 a /\ 0 < moment0 a /\ delay_dc b a = IZR order + delay.
Proof.
  intros O D. unfold thiran. destruct (Z.leb_spec order 0); [lia|]. destruct (Rlt_dec 0 delay); [|lra]. destruct (Rlt_dec delay 1); [|lra]. cbv zeta. set (n := Z.to_nat order). set (a := map _ _).
  assert (LA : length a = (n + 1)%nat) by (unfold a; now rewrite map_length, seq_length). exists (rev a), a. split; auto. split; [rewrite LA; lia|]. split; [apply rev_length|].
  assert (N : exists j, n = S j) by (exists (n - 1)%nat; lia). destruct N as (j & N). set (c := delay + INR (n + 1)). pose proof (pos_INR (n + 1)) as NP. pose proof (pos_INR j) as JP.
  assert (C : 0 < c) by (unfold c; lra).
  assert (T0 : moment0 a = poch (c - delay) n / poch c n). { unfold a. rewrite m0_total. rewrite (total_ext _ (term n delay c)); [apply vandermonde; auto; lia|]. intros k _. cbn [Nat.add]. apply coeff_term. lra. }
  assert (T1 : moment1 a 0 = - INR n * (delay / c) * (poch (c - delay) j / poch (c + 1) j)). { unfold a. rewrite m1_total. rewrite (total_ext _ (fun k => INR k * term n delay c k)); [rewrite N; apply vandermonde1; auto; lia|]. intros k _. cbn [Nat.add]. f_equal. apply coeff_term. lra. }
  assert (CD : c - delay = INR (n + 1)) by (unfold c; ring). assert (CP : 0 < c - delay) by (rewrite CD; apply lt_0_INR; lia). pose proof (poch_pos (c - delay) j CP) as P1. assert (P2 : 0 < poch (c + 1) j) by (apply poch_pos; lra).
  assert (M0 : 0 < moment0 a) by (rewrite T0; apply Rdiv_lt_0_compat; now apply poch_pos). assert (NI : INR n = IZR order) by (unfold n; rewrite INR_IZR_INZ, Z2Nat.id by lia; auto).
  split; [|split; [|split; [|split]]]; auto.
  - unfold a. rewrite Nat.add_comm. cbn [Nat.add seq map nth]. rewrite coeff_term by lra. unfold term, sgn. rewrite comb_0. cbn. field.
  - intros w. apply power_rev.
  - apply m0_rev.
  - unfold delay_dc. rewrite m0_rev. rewrite (m1_rev a 0 0 n) by lia. assert (R : moment1 a 0 = - (delay / 2) * moment0 a).
    { assert (T0' : moment0 a = poch (c - delay) j * (c - delay + INR j) / (c * poch (c + 1) j)) by (rewrite T0; replace (poch (c - delay) n) with (poch (c - delay) (S j)) by (now rewrite N); replace (poch c n) with (poch c (S j)) by (now rewrite N); now rewrite poch_snoc).
      assert (K : c - delay + INR j = 2 * INR n) by (rewrite CD, N, plus_INR, S_INR; cbn; ring). rewrite T1, T0', K. field. split; lra. }
    rewrite R, <- NI. field. lra.
Qed.
Print Assumptions C118_delay.
Theorem C118_refused delay order : (order <= 0)%Z \/ delay <= 0 \/ 1 <= delay <-> thiran delay order = Err AssertionError.
Proof.
  unfold thiran. destruct (Z.leb_spec order 0); [tauto|]. destruct (Rlt_dec 0 delay); [|split; [auto|intros; right; left; lra]]. destruct (Rlt_dec delay 1); [|split; [auto|intros; right; right; lra]]. split; [|discriminate]. intros [X|[X|X]]; [lia|lra|lra].
Qed.
Print Assumptions C118_refused.
(** A case: order 1, half a sample: the denominator is 1 - z^-1 / 5 *)
Example C118_case : thiran (1 / 2) 1 = Ok ([- (1 / 5); 1], [1; - (1 / 5)]).
Proof.
  unfold thiran. cbn [Z.leb Z.compare]. destruct (Rlt_dec 0 (1 / 2)); [|lra]. destruct (Rlt_dec (1 / 2) 1); [|lra]. change (Z.to_nat 1) with 1%nat. cbv zeta.
  assert (E0 : thiran_coeff 1 (INR 1 + 1 / 2) 0 = 1) by (unfold thiran_coeff; cbn; field). assert (E1 : thiran_coeff 1 (INR 1 + 1 / 2) 1 = - (1 / 5)) by (unfold thiran_coeff; cbn; field).
  cbn [Nat.add seq map rev app]. now rewrite E0, E1.
Qed.
