(** Base library: commutative rings and fields, finite sums, total array access.
    Nothing here models /repo code; it is the vocabulary of the model and of the specifications. *)
From Coq Require Import List Arith Lia ZArith Ring Ring_theory QArith Qcanon Reals.
Import ListNotations.
Local Open Scope nat_scope.

(** A commutative ring with Leibniz equality. *)
Class CRing (A : Type) := {
  r0 : A; r1 : A;
  radd : A -> A -> A; rmul : A -> A -> A; rsub : A -> A -> A; ropp : A -> A;
  rth : ring_theory r0 r1 radd rmul rsub ropp (@eq A)
}.

(** A field: a ring with inverses of the non-zero elements. *)
Class CField (A : Type) := {
  fring :> CRing A;
  rinv : A -> A;
  rinv_l : forall x, x <> r0 -> rmul (rinv x) x = r1;
  r1_neq_r0 : r1 <> r0
}.

Declare Scope alg_scope.
Delimit Scope alg_scope with alg.
Infix "+!" := radd (at level 50, left associativity).
Infix "-!" := rsub (at level 50, left associativity).
Infix "*!" := rmul (at level 40, left associativity).
Notation "-! x" := (ropp x) (at level 35, right associativity).

#[export] Instance CRing_Z : CRing Z.
Proof.
  refine {| r0 := 0%Z; r1 := 1%Z; radd := Z.add; rmul := Z.mul; rsub := Z.sub; ropp := Z.opp |}.
  constructor; intros; ring.
Defined.

#[export] Instance CRing_Qc : CRing Qc :=
  {| r0 := Q2Qc 0; r1 := Q2Qc 1; radd := Qcplus; rmul := Qcmult; rsub := Qcminus; ropp := Qcopp;
     rth := Qcrt |}.

#[export] Instance CField_Qc : CField Qc.
Proof.
  refine {| fring := CRing_Qc; rinv := Qcinv |}.
  - intros x Hx. simpl. rewrite Qcmult_comm. apply Qcmult_inv_r. exact Hx.
  - simpl. intro H. discriminate H.
Defined.

#[export] Instance CRing_R : CRing R.
Proof.
  refine {| r0 := 0%R; r1 := 1%R; radd := Rplus; rmul := Rmult; rsub := Rminus; ropp := Ropp |}.
  constructor; intros; ring.
Defined.

#[export] Instance CField_R : CField R.
Proof.
  refine {| fring := CRing_R; rinv := Rinv |}.
  - intros x Hx. simpl. apply Rinv_l. exact Hx.
  - simpl. apply R1_neq_R0.
Defined.

(** ** List update and generic total access *)

Fixpoint upd {T} (l : list T) (i : nat) (v : T) : list T :=
  match l, i with
  | [], _ => []
  | _ :: t, O => v :: t
  | h :: t, S j => h :: upd t j v
  end.

Definition mk {T} (n : nat) (f : nat -> T) : list T := map f (seq 0 n).

Lemma upd_length {T} (l : list T) i v : length (upd l i v) = length l.
Proof. revert i; induction l; intros [|i]; simpl; auto. Qed.

Lemma nth_upd_eq {T} (l : list T) i v d : i < length l -> nth i (upd l i v) d = v.
Proof. revert i; induction l; intros [|i]; simpl; intros; try lia; auto. apply IHl; lia. Qed.

Lemma nth_upd_neq {T} (l : list T) i j v d : i <> j -> nth j (upd l i v) d = nth j l d.
Proof. revert i j; induction l; intros [|i] [|j]; simpl; intros; try lia; auto. Qed.

Lemma nth_upd {T} (l : list T) i j v d : i < length l ->
  nth j (upd l i v) d = if Nat.eqb j i then v else nth j l d.
Proof.
  intros. destruct (Nat.eqb_spec j i).
  - subst. now apply nth_upd_eq.
  - apply nth_upd_neq; auto.
Qed.

Lemma mk_length {T} n (f : nat -> T) : length (mk n f) = n.
Proof. unfold mk. now rewrite map_length, seq_length. Qed.

Lemma nth_mk {T} n (f : nat -> T) i d : i < n -> nth i (mk n f) d = f i.
Proof.
  intros. unfold mk.
  rewrite (nth_indep _ d (f 0)) by (rewrite map_length, seq_length; lia).
  rewrite map_nth. rewrite seq_nth by lia. reflexivity.
Qed.

Lemma nth_mk_out {T} n (f : nat -> T) i d : n <= i -> nth i (mk n f) d = d.
Proof. intros. apply nth_overflow. now rewrite mk_length. Qed.

Lemma mk_ext {T} n (f g : nat -> T) : (forall i, i < n -> f i = g i) -> mk n f = mk n g.
Proof. intros H. apply map_ext_in. intros i Hi. apply in_seq in Hi. apply H. lia. Qed.

Lemma mk_S {T} n (f : nat -> T) : mk (S n) f = mk n f ++ [f n].
Proof. unfold mk. rewrite seq_S, map_app. reflexivity. Qed.

Lemma mk_S_front {T} n (f : nat -> T) : mk (S n) f = f 0 :: mk n (fun i => f (S i)).
Proof. unfold mk. simpl. f_equal. rewrite <- seq_shift, map_map. reflexivity. Qed.

Lemma list_eq_nth {T} (d : T) (l l' : list T) :
  length l = length l' -> (forall i, i < length l -> nth i l d = nth i l' d) -> l = l'.
Proof. intros. apply (nth_ext l l' d d); auto. Qed.

Lemma mk_nth {T} (l : list T) d : mk (length l) (fun i => nth i l d) = l.
Proof.
  apply (list_eq_nth d). apply mk_length. intros i Hi. rewrite mk_length in Hi. now rewrite nth_mk.
Qed.

Lemma map_mk {T U} (g : T -> U) n f : map g (mk n f) = mk n (fun i => g (f i)).
Proof. unfold mk. apply map_map. Qed.

Lemma upd_mk {T} n (f : nat -> T) i v : i < n ->
  upd (mk n f) i v = mk n (fun j => if Nat.eqb j i then v else f j).
Proof.
  intros. apply (list_eq_nth v). now rewrite upd_length, !mk_length.
  intros j Hj. rewrite upd_length, mk_length in Hj.
  rewrite nth_upd by (rewrite mk_length; lia). rewrite !nth_mk by lia. reflexivity.
Qed.

Lemma nth_firstn {T} (l : list T) n i d : i < n -> nth i (firstn n l) d = nth i l d.
Proof.
  revert n i. induction l; intros [|n] [|i]; simpl; intros; try lia; auto. apply IHl. lia.
Qed.

Lemma nth_skipn {T} (l : list T) n i d : nth i (skipn n l) d = nth (n + i) l d.
Proof.
  revert n i. induction l; intros [|n] i; simpl; auto.
  destruct i; auto.
Qed.

Lemma nth_repeat_any {T} (x : T) n i : nth i (repeat x n) x = x.
Proof. revert i; induction n; intros [|i]; simpl; auto. Qed.

Lemma nth_repeat_lt {T} (x d : T) n i : i < n -> nth i (repeat x n) d = x.
Proof. revert i; induction n; intros [|i]; simpl; intros; try lia; auto. apply IHn. lia. Qed.

Lemma nth_rev' {T} (l : list T) i d : i < length l -> nth i (rev l) d = nth (length l - 1 - i) l d.
Proof. intros. rewrite rev_nth by auto. f_equal. lia. Qed.

Lemma nth_map' {T U} (f : T -> U) l i d d' : i < length l -> nth i (map f l) d' = f (nth i l d).
Proof.
  intros. rewrite (nth_indep _ d' (f d)) by (rewrite map_length; auto). apply map_nth.
Qed.

Lemma firstn_S_nth {T} (l : list T) n d : n < length l -> firstn (S n) l = firstn n l ++ [nth n l d].
Proof.
  revert n. induction l; intros [|n]; simpl; intros; try lia; auto.
  f_equal. apply IHl. lia.
Qed.

Lemma last_snoc {T} (l : list T) x d : last (l ++ [x]) d = x.
Proof. induction l; simpl; auto. destruct (l ++ [x]) eqn:E; auto. destruct l; discriminate. Qed.

(** ** Finite sums over a ring *)

Section Sums.
Context {A : Type} {HA : CRing A}.
Add Ring alg_ring : (@rth A HA).

Definition get (l : list A) (i : nat) : A := nth i l r0.

Fixpoint sum (n : nat) (f : nat -> A) : A :=
  match n with O => r0 | S m => sum m f +! f m end.

Fixpoint rpow (x : A) (n : nat) : A :=
  match n with O => r1 | S m => x *! rpow x m end.

Lemma get_out l i : length l <= i -> get l i = r0.
Proof. intros. unfold get. now apply nth_overflow. Qed.

Lemma get_mk n f i : i < n -> get (mk n f) i = f i.
Proof. apply nth_mk. Qed.

Lemma get_app_l l l' i : i < length l -> get (l ++ l') i = get l i.
Proof. intros. unfold get. now apply app_nth1. Qed.

Lemma get_app_r l l' i : length l <= i -> get (l ++ l') i = get l' (i - length l).
Proof. intros. unfold get. now apply app_nth2. Qed.

Lemma get_snoc l x : get (l ++ [x]) (length l) = x.
Proof. rewrite get_app_r by lia. now rewrite Nat.sub_diag. Qed.

Lemma get_repeat0 n i : get (repeat r0 n) i = r0.
Proof. apply nth_repeat_any. Qed.

Lemma get_ext l l' : length l = length l' -> (forall i, i < length l -> get l i = get l' i) -> l = l'.
Proof. apply list_eq_nth. Qed.

Lemma get_upd l i j v : i < length l -> get (upd l i v) j = if Nat.eqb j i then v else get l j.
Proof. apply nth_upd. Qed.

Lemma sum_ext n (f g : nat -> A) : (forall i, i < n -> f i = g i) -> sum n f = sum n g.
Proof. induction n; simpl; intros H; auto. rewrite IHn, H; auto. Qed.

Lemma sum_zero n : sum n (fun _ => r0) = (r0 : A).
Proof. induction n; simpl; auto. rewrite IHn. ring. Qed.

Lemma sum_zero' n (f : nat -> A) : (forall i, i < n -> f i = r0) -> sum n f = r0.
Proof. intros. rewrite (sum_ext _ _ (fun _ => r0)) by auto. apply sum_zero. Qed.

Lemma sum_add n (f g : nat -> A) : sum n (fun i => f i +! g i) = sum n f +! sum n g.
Proof. induction n; simpl. ring. rewrite IHn. ring. Qed.

Lemma sum_sub n (f g : nat -> A) : sum n (fun i => f i -! g i) = sum n f -! sum n g.
Proof. induction n; simpl. ring. rewrite IHn. ring. Qed.

Lemma sum_opp n (f : nat -> A) : sum n (fun i => -! f i) = -! sum n f.
Proof. induction n; simpl. ring. rewrite IHn. ring. Qed.

Lemma sum_scal_l n (c : A) f : sum n (fun i => c *! f i) = c *! sum n f.
Proof. induction n; simpl. ring. rewrite IHn. ring. Qed.

Lemma sum_scal_r n (c : A) f : sum n (fun i => f i *! c) = sum n f *! c.
Proof. induction n; simpl. ring. rewrite IHn. ring. Qed.

Lemma sum_S_front n (f : nat -> A) : sum (S n) f = f 0 +! sum n (fun i => f (S i)).
Proof. induction n. simpl. ring. change (sum (S (S n)) f) with (sum (S n) f +! f (S n)). rewrite IHn. simpl. ring. Qed.

Lemma sum_split n m (f : nat -> A) : sum (n + m) f = sum n f +! sum m (fun i => f (n + i)).
Proof.
  induction m; simpl. rewrite Nat.add_0_r. ring.
  rewrite Nat.add_succ_r. simpl. rewrite IHm. ring.
Qed.

Lemma sum_trunc n m (f : nat -> A) : n <= m -> (forall i, n <= i < m -> f i = r0) -> sum m f = sum n f.
Proof.
  intros H Hz. replace m with (n + (m - n)) by lia. rewrite sum_split.
  rewrite (sum_zero' (m - n)). ring. intros i Hi. apply Hz. lia.
Qed.

Lemma sum_drop n m (f : nat -> A) : n <= m -> (forall i, i < n -> f i = r0) ->
  sum m f = sum (m - n) (fun i => f (n + i)).
Proof.
  intros H Hz. replace m with (n + (m - n)) at 1 by lia. rewrite sum_split.
  rewrite (sum_zero' n) by auto. ring.
Qed.

Lemma sum_exchange n m (f : nat -> nat -> A) :
  sum n (fun i => sum m (fun j => f i j)) = sum m (fun j => sum n (fun i => f i j)).
Proof.
  induction n; simpl. now rewrite sum_zero.
  rewrite IHn, sum_add. reflexivity.
Qed.

Lemma sum_rev n (f : nat -> A) : sum n f = sum n (fun i => f (n - 1 - i)).
Proof.
  induction n. reflexivity.
  rewrite (sum_S_front n (fun i => f (S n - 1 - i))). simpl sum at 1.
  rewrite IHn.
  replace (S n - 1 - 0) with n by lia.
  rewrite (sum_ext n (fun i => f (n - 1 - i)) (fun i => f (S n - 1 - S i))).
  ring. intros i Hi. f_equal. lia.
Qed.

Lemma sum_single n k (f : nat -> A) : k < n -> (forall i, i < n -> i <> k -> f i = r0) -> sum n f = f k.
Proof.
  intros Hk Hz. replace n with (k + S (n - k - 1)) by lia.
  rewrite sum_split, sum_S_front, Nat.add_0_r.
  rewrite (sum_zero' k) by (intros; apply Hz; lia).
  rewrite (sum_zero' (n - k - 1)) by (intros; apply Hz; lia). ring.
Qed.

Lemma sum_delta n k c : k < n -> sum n (fun i => if Nat.eqb i k then c i else r0) = c k.
Proof.
  intros. rewrite (sum_single n k); auto.
  - now rewrite Nat.eqb_refl.
  - intros i _ Hi. destruct (Nat.eqb_spec i k); congruence.
Qed.

Lemma sum_mul_sum n m (f g : nat -> A) :
  sum n f *! sum m g = sum n (fun i => sum m (fun j => f i *! g j)).
Proof.
  rewrite <- sum_scal_r. apply sum_ext. intros. now rewrite <- sum_scal_l.
Qed.

(** Blockwise summation: n*m terms as n blocks of m terms. *)
Lemma sum_blocks n m (f : nat -> A) : sum (n * m) f = sum n (fun i => sum m (fun j => f (i * m + j))).
Proof.
  induction n; simpl; auto.
  rewrite Nat.add_comm, sum_split, IHn. reflexivity.
Qed.

Lemma rpow_add (x : A) n m : rpow x (n + m) = rpow x n *! rpow x m.
Proof. induction n; simpl. ring. rewrite IHn. ring. Qed.

Lemma rpow_1 n : rpow (r1 : A) n = r1.
Proof. induction n; simpl; auto. rewrite IHn. ring. Qed.

Lemma rpow_mul (x : A) n m : rpow x (n * m) = rpow (rpow x n) m.
Proof.
  induction m. now rewrite Nat.mul_0_r.
  rewrite Nat.mul_succ_r, Nat.add_comm, rpow_add, IHm. reflexivity.
Qed.

Lemma rpow_mul_distr (x y : A) n : rpow (x *! y) n = rpow x n *! rpow y n.
Proof. induction n; simpl. ring. rewrite IHn. ring. Qed.
End Sums.

Section FieldFacts.
Context {A : Type} {HF : CField A}.
Add Ring alg_ring_f : (@rth A fring).

Definition rdiv (x y : A) : A := x *! rinv y.

Lemma rdiv_mul (x y : A) : y <> r0 -> rdiv x y *! y = x.
Proof.
  intros. unfold rdiv. replace (x *! rinv y *! y) with (x *! (rinv y *! y)) by ring.
  rewrite rinv_l by auto. ring.
Qed.

Lemma rmul_reg_l (x y z : A) : x <> r0 -> x *! y = x *! z -> y = z.
Proof.
  intros Hx H.
  assert (E : forall w, w = rinv x *! (x *! w)).
  { intros w. transitivity (rinv x *! x *! w); [rewrite (rinv_l x Hx)|]; ring. }
  rewrite (E y), (E z), H. reflexivity.
Qed.

Lemma rmul_integral (x y : A) : x *! y = r0 -> x <> r0 -> y = r0.
Proof. intros H Hx. apply (rmul_reg_l x); auto. rewrite H. ring. Qed.
End FieldFacts.
Infix "/!" := rdiv (at level 40, left associativity).

(** Python exceptions as values. *)
Inductive exn := IndexError | ValueError | AssertionError | TypeError | KeyError | AttributeError | ZeroDivisionError.
Inductive result (T : Type) := Ok (v : T) | Err (e : exn).
Arguments Ok {T} v.
Arguments Err {T} e.
Definition bind {T U} (r : result T) (f : T -> result U) : result U :=
  match r with Ok v => f v | Err e => Err e end.
Definition is_ok {T} (r : result T) : bool := match r with Ok _ => true | Err _ => false end.

(** numpy/Python integer indexing of an axis of length n: negative indices count from the end,
    everything else outside the axis is an IndexError. *)
Definition py_index (n : nat) (i : Z) : option nat :=
  if (0 <=? i)%Z then (if (i <? Z.of_nat n)%Z then Some (Z.to_nat i) else None)
  else if (- Z.of_nat n <=? i)%Z then Some (Z.to_nat (Z.of_nat n + i)) else None.

Lemma py_index_lt n i k : py_index n i = Some k -> k < n.
Proof.
  unfold py_index.
  destruct (Z.leb_spec 0 i); [destruct (Z.ltb_spec i (Z.of_nat n))|destruct (Z.leb_spec (- Z.of_nat n) i)];
    intros E; inversion E; lia.
Qed.

Lemma py_index_nonneg n k : k < n -> py_index n (Z.of_nat k) = Some k.
Proof.
  intros. unfold py_index.
  destruct (Z.leb_spec 0 (Z.of_nat k)); try lia.
  destruct (Z.ltb_spec (Z.of_nat k) (Z.of_nat n)); try lia. now rewrite Nat2Z.id.
Qed.
