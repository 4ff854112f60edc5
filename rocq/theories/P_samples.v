From Coq Require Import Ascii String List Arith Lia ZArith Bool QArith Qround Lqa Psatz Znumtheory.
From Verif Require Import Alg Spec M_arrays M_samples.
Import ListNotations.
Local Open Scope Z_scope.
Notation len := List.length.

Lemma to_le_len n v : len (to_le n v) = n.
Proof. revert v. induction n; intros; simpl; auto. Qed.
Lemma to_le_byte n : forall v, Forall (fun x => 0 <= x < 256) (to_le n v).
Proof. induction n; intros; constructor; auto. apply Z.mod_pos_bound. lia. Qed.
Lemma from_to n : forall v, from_le (to_le n v) = v mod 256 ^ Z.of_nat n.
Proof.
  induction n; intros v. simpl. now rewrite Z.mod_1_r.
  cbn [to_le from_le]. rewrite IHn. rewrite Nat2Z.inj_succ, Z.pow_succ_r by lia.
  assert (0 < 256 ^ Z.of_nat n) by (apply Z.pow_pos_nonneg; lia). rewrite Z.rem_mul_r by lia. reflexivity.
Qed.
Lemma to_from b : Forall (fun x => 0 <= x < 256) b -> to_le (len b) (from_le b) = b.
Proof.
  induction 1 as [|x t Hx H IH]; auto. cbn [List.length to_le from_le]. f_equal.
  - rewrite Z.mul_comm, Z.mod_add by lia. now apply Z.mod_small.
  - rewrite Z.mul_comm, Z.div_add by lia. rewrite Z.div_small by auto. exact IH.
Qed.
Lemma from_bound b : Forall (fun x => 0 <= x < 256) b -> 0 <= from_le b < 256 ^ Z.of_nat (len b).
Proof.
  induction 1. simpl. lia. cbn [from_le List.length]. rewrite Nat2Z.inj_succ, Z.pow_succ_r by lia. lia.
Qed.

Definition in_range (signed : bool) (n : nat) (v : Z) : Prop :=
  if signed then - (256 ^ Z.of_nat n) <= 2 * v < 256 ^ Z.of_nat n else 0 <= v < 256 ^ Z.of_nat n.


Lemma dec_enc little signed n v : in_range signed n v -> dec little signed (enc little n v) = v.
Proof.
  intros H. unfold dec, enc.
  assert (E : (if little then (if little then to_le n v else rev (to_le n v)) else rev (if little then to_le n v else rev (to_le n v))) = to_le n v).
  { destruct little; auto. apply rev_involutive. }
  rewrite E. assert (L : len (if little then to_le n v else rev (to_le n v)) = n) by (destruct little; rewrite ?rev_length; apply to_le_len).
  rewrite L, from_to. unfold in_range in H.
  set (m := 256 ^ Z.of_nat n) in *. assert (0 < m) by (apply Z.pow_pos_nonneg; lia).
  destruct signed; cbn [andb].
  - destruct (Z.lt_ge_cases v 0).
    + rewrite <- (Z.mod_add v 1 m), Z.mul_1_l, Z.mod_small by lia. destruct (Z.leb_spec m (2 * (v + m))); lia.
    + rewrite Z.mod_small by lia. destruct (Z.leb_spec m (2 * v)); lia.
  - apply Z.mod_small. lia.
Qed.

Lemma enc_dec little signed b : Forall (fun x => 0 <= x < 256) b -> enc little (len b) (dec little signed b) = b /\ in_range signed (len b) (dec little signed b).
Proof.
  intros H. unfold dec. set (b' := if little then b else rev b).
  assert (L : len b' = len b) by (unfold b'; destruct little; rewrite ?rev_length; auto).
  assert (H' : Forall (fun x => 0 <= x < 256) b') by (unfold b'; destruct little; auto; now apply Forall_rev).
  assert (E : enc little (len b) (from_le b') = b).
  { unfold enc. rewrite <- L, to_from by auto. unfold b'. destruct little; auto. apply rev_involutive. }
  pose proof (from_bound b' H') as B. rewrite L in B.
  assert (M : forall n v k, to_le n (v + k * 256 ^ Z.of_nat n) = to_le n v).
  { clear. induction n; intros; auto. cbn [to_le]. rewrite Nat2Z.inj_succ, Z.pow_succ_r by lia.
    replace (v + k * (256 * 256 ^ Z.of_nat n)) with (v + (k * 256 ^ Z.of_nat n) * 256) by ring.
    rewrite Z.mod_add, Z.div_add by lia. now rewrite IHn. }
  destruct signed; cbn [andb]; unfold in_range.
  - destruct (Z.leb_spec (256 ^ Z.of_nat (len b)) (2 * from_le b')).
    + split; [|lia]. rewrite <- E at 3. unfold enc.
      replace (from_le b' - 256 ^ Z.of_nat (len b)) with (from_le b' + (-1) * 256 ^ Z.of_nat (len b)) by lia. now rewrite M.
    + split; auto. lia.
  - split; auto.
Qed.

(** groups *)
Lemma groups_concat n : (0 < n)%nat -> forall l fuel, Forall (fun g => len g = n) l -> (len l <= fuel)%nat -> groups fuel n (concat l) = l.
Proof.
  intros Hn. induction l as [|g t IH]; intros fuel H Hf; simpl. destruct fuel; auto.
  destruct fuel as [|fuel]; [simpl in Hf; lia|]. inversion H as [|? ? H1 H2]; subst. cbn [groups].
  destruct (g ++ concat t) eqn:E. { apply app_eq_nil in E. destruct E. subst. simpl in Hn. lia. }
  rewrite <- E. rewrite firstn_app, Nat.sub_diag, firstn_all. simpl firstn. rewrite app_nil_r.
  rewrite skipn_app, Nat.sub_diag, skipn_all. simpl skipn. rewrite IH; auto. simpl in Hf. lia.
Qed.
Lemma groups_spec n : (0 < n)%nat -> forall fuel b k, len b = (k * n)%nat -> (k <= fuel)%nat ->
  concat (groups fuel n b) = b /\ Forall (fun g => len g = n) (groups fuel n b) /\ len (groups fuel n b) = k.
Proof.
  intros Hn. induction fuel as [|f IH]; intros b k Hb Hk.
  - assert (k = 0)%nat by lia. subst. destruct b; [|simpl in Hb; lia]. simpl. auto.
  - destruct k. { destruct b; [|simpl in Hb; lia]. simpl. auto. }
    cbn [groups]. destruct b as [|x t] eqn:E; [simpl in Hb; lia|]. rewrite <- E in *.
    destruct (IH (skipn n b) k) as [I1 [I2 I3]]; try lia. rewrite skipn_length. lia.
    simpl. rewrite I1, firstn_skipn, I3. repeat split; auto. constructor; auto. rewrite firstn_length. lia.
Qed.

(** dropping *)
Definition drop_from (r k : nat) (b : list Z) : list Z :=
  map snd (filter (fun p => negb (Nat.eqb (Nat.modulo (fst p) 4) r)) (combine (seq k (len b)) b)).
Lemma drop_from4 r j x0 x1 x2 x3 t :
  drop_from r (4 * j) (x0 :: x1 :: x2 :: x3 :: t) =
  (if (r =? 0)%nat then [] else [x0]) ++ (if (r =? 1)%nat then [] else [x1]) ++ (if (r =? 2)%nat then [] else [x2]) ++ (if (r =? 3)%nat then [] else [x3]) ++ drop_from r (4 * S j) t.
Proof.
  assert (M : forall i, (i < 4)%nat -> Nat.modulo (4 * j + i) 4 = i).
  { intros. rewrite Nat.mul_comm, Nat.add_comm, Nat.mod_add by lia. now apply Nat.mod_small. }
  unfold drop_from. cbn [List.length seq combine]. replace (S (S (S (S (4 * j))))) with (4 * S j)%nat by lia.
  pose proof (M 0%nat) as M0. pose proof (M 1%nat) as M1. pose proof (M 2%nat) as M2. pose proof (M 3%nat) as M3.
  replace (S (S (S (4 * j)))) with (4 * j + 3)%nat by lia. replace (S (S (4 * j))) with (4 * j + 2)%nat by lia.
  replace (S (4 * j)) with (4 * j + 1)%nat by lia. replace (4 * j)%nat with (4 * j + 0)%nat at 1 by lia.
  set (T := combine _ t). cbn [filter fst]. rewrite M0, M1, M2, M3 by lia.
  rewrite (Nat.eqb_sym r 0), (Nat.eqb_sym r 1), (Nat.eqb_sym r 2), (Nat.eqb_sym r 3).
  destruct (0 =? r)%nat, (1 =? r)%nat, (2 =? r)%nat, (3 =? r)%nat; reflexivity.
Qed.
Lemma to_le4 v : to_le 4 v = to_le 3 v ++ [(v / 256 / 256 / 256) mod 256].
Proof. reflexivity. Qed.
Lemma drop_concat (little : bool) : forall v j, drop_from (if little then 3 else 0)%nat (4 * j) (concat (map (enc little 4) v)) = concat (map (enc little 3) v).
Proof.
  induction v as [|x t IH]; intros j. destruct little; reflexivity.
  cbn [map concat]. destruct little; unfold enc in *.
  - rewrite to_le4. cbn [to_le app]. rewrite drop_from4. cbn [Nat.eqb app]. now rewrite IH.
  - cbn [to_le rev app]. rewrite drop_from4. cbn [Nat.eqb app]. now rewrite IH.
Qed.
Lemma to_bytes24_eq little v : to_bytes24 little v = concat (map (enc little 3) v).
Proof. rewrite <- (drop_concat little v 0). reflexivity. Qed.

(** rationals *)
Lemma qtrunc_spec x : (0 <= x -> inject_Z (qtrunc x) <= x < inject_Z (qtrunc x) + 1)%Q /\ (x <= 0 -> inject_Z (qtrunc x) - 1 < x <= inject_Z (qtrunc x))%Q.
Proof.
  destruct x as [n d]. unfold qtrunc, Qle, Qlt, inject_Z. cbn [Qnum Qden Qplus Qminus Qopp].
  split; intros H; simpl in *.
  - pose proof (Z.quot_rem' n (Zpos d)). pose proof (Z.rem_bound_pos n (Zpos d)). split; lia.
  - pose proof (Z.quot_rem' n (Zpos d)). pose proof (Z.rem_nonpos n (Zpos d)). pose proof (Z.rem_bound_abs n (Zpos d)). split; lia.
Qed.

(** z is x rounded towards zero. *)
Definition toward_zero (z : Z) (x : Q) : Prop :=
  ((0 <= x -> inject_Z z <= x < inject_Z z + 1) /\ (x <= 0 -> inject_Z z - 1 < x <= inject_Z z))%Q.
Lemma toward_zero_eq z x y : (x == y)%Q -> toward_zero z x -> toward_zero z y.
Proof. intros E [H1 H2]. split; intros; rewrite <- E in *; auto. Qed.
Lemma inj_lt_succ a b : (inject_Z a < inject_Z b + 1)%Q -> a <= b.
Proof. intros H. change 1%Q with (inject_Z 1) in H. rewrite <- inject_Z_plus, <- Zlt_Qlt in H. lia. Qed.
Lemma toward_zero_unique z z' x : toward_zero z x -> toward_zero z' x -> z = z'.
Proof.
  intros [H1 H2] [H3 H4]. destruct (Qlt_le_dec x 0) as [H|H].
  - specialize (H2 (Qlt_le_weak _ _ H)). specialize (H4 (Qlt_le_weak _ _ H)).
    apply Z.le_antisymm; apply inj_lt_succ; lra.
  - specialize (H1 H). specialize (H3 H). apply Z.le_antisymm; apply inj_lt_succ; lra.
Qed.
Lemma toward_zero_mono z z' x x' : (x <= x')%Q -> toward_zero z x -> toward_zero z' x' -> z <= z'.
Proof.
  intros H [H1 H2] [H3 H4]. destruct (Qlt_le_dec x 0) as [Hx|Hx]; destruct (Qlt_le_dec x' 0) as [Hx'|Hx'].
  - specialize (H2 (Qlt_le_weak _ _ Hx)). specialize (H4 (Qlt_le_weak _ _ Hx')). apply inj_lt_succ. lra.
  - specialize (H2 (Qlt_le_weak _ _ Hx)). specialize (H3 Hx').
    assert (z <= 0). { apply inj_lt_succ. change (inject_Z 0) with 0%Q. lra. }
    assert (0 <= z'). { apply inj_lt_succ. change (inject_Z 0) with 0%Q. lra. } lia.
  - exfalso. lra.
  - specialize (H1 Hx). specialize (H3 Hx'). apply inj_lt_succ. lra.
Qed.
Lemma toward_zero_int z : toward_zero z (inject_Z z).
Proof. split; intros; split; lra. Qed.
Lemma qtrunc_toward x : toward_zero (qtrunc x) x.
Proof. exact (qtrunc_spec x). Qed.
Lemma qtrunc_inject z : qtrunc (inject_Z z) = z.
Proof. unfold qtrunc. simpl. apply Z.quot_1_r. Qed.

Lemma qclip_le x y : (x <= y)%Q -> (qclip x <= qclip y)%Q.
Proof.
  intros H. unfold qclip.
  destruct (Qle_bool x (-(1))) eqn:E1; destruct (Qle_bool y (-(1))) eqn:E2; destruct (Qle_bool 1 x) eqn:E3; destruct (Qle_bool 1 y) eqn:E4;
   rewrite ?Qle_bool_iff in *; try lra;
   repeat match goal with H : Qle_bool ?a ?b = false |- _ => assert (~ (a <= b)%Q) by (rewrite <- Qle_bool_iff; congruence); clear H end; lra.
Qed.
Lemma qclip_range x : (-(1) <= qclip x <= 1)%Q.
Proof.
  unfold qclip. destruct (Qle_bool x (-(1))) eqn:E1. split; lra. destruct (Qle_bool 1 x) eqn:E2. split; lra.
  assert (~ (x <= -(1))%Q) by (rewrite <- Qle_bool_iff; congruence). assert (~ (1 <= x)%Q) by (rewrite <- Qle_bool_iff; congruence). lra.
Qed.
Lemma qclip_id x : (-(1) <= x <= 1)%Q -> (qclip x == x)%Q.
Proof.
  intros H. unfold qclip. destruct (Qle_bool x (-(1))) eqn:E1. rewrite Qle_bool_iff in E1. lra.
  destruct (Qle_bool 1 x) eqn:E2. rewrite Qle_bool_iff in E2. lra. reflexivity.
Qed.
