(** Lemmas about windows with flanks. *)
From Coq Require Import List Arith Lia ZArith Bool Reals Lra.
From Verif Require Import Alg Spec Dft M_arrays M_ir P_arrays P_dft2.
Import ListNotations.
Local Open Scope R_scope.
Notation getr := (get (HA := CRing_R)).

Lemma get_app (a b : list R) i : getr (a ++ b) i = if (i <? length a)%nat then getr a i else getr b (i - length a)%nat.
Proof.
  destruct (Nat.ltb_spec i (length a)). now rewrite (get_app_l (HA := CRing_R)) by auto.
  now rewrite (get_app_r (HA := CRing_R)) by auto.
Qed.
Lemma get_repeat (v : R) n i : (i < n)%nat -> getr (repeat v n) i = v.
Proof. unfold get. revert i. induction n; intros [|i] H; simpl; auto; try lia. apply IHn. lia. Qed.
Lemma get_map (f : R -> R) (l : list R) i : (i < length l)%nat -> getr (map f l) i = f (getr l i).
Proof. intros. unfold get. rewrite (nth_indep _ _ (f 0)) by (now rewrite map_length). now rewrite map_nth. Qed.

(** The value of the window at [k], region by region. *)
Definition tukey_value (wl wr : nat -> list R) (at_start : bool) (p0 p1 p2 p3 k : nat) : R :=
  if (k <? p0)%nat then 0
  else if (k <? p1)%nat then (if at_start then getr (wl (2 * (p1 - p0))%nat) (k - p0)%nat else 1)
  else if (k <? p2)%nat then 1
  else if (k <? p3)%nat then (if (1 <? p3 - p2)%nat then getr (wr (2 * (p3 - p2))%nat) (p3 - p2 + (k - p2))%nat else 1)
  else 0.
Lemma tukey_ok wl wr at_start inverse p0 p1 p2 p3 len : (forall n, length (wl n) = n) -> (forall n, length (wr n) = n) ->
  (p0 <= p1)%nat -> (p1 <= p2)%nat -> (p2 <= p3)%nat -> (p3 <= len)%nat ->
  exists w, tukey_like wl wr p0 p1 p2 p3 len at_start inverse = Ok w /\ length w = len /\
  forall k, (k < len)%nat -> getr w k = let v := tukey_value wl wr at_start p0 p1 p2 p3 k in if inverse then 1 - v else v.
Proof.
  intros Hl Hr H0 H1 H2 H3. unfold tukey_like.
  replace ((p1 <? p0) || (p2 <? p1) || (p3 <? p2) || (len <? p3))%nat with false
    by (symmetry; repeat rewrite orb_false_iff; repeat split; apply Nat.ltb_ge; auto).
  set (lf := if (at_start && (0 <? p1 - p0)%nat)%bool then _ else _). set (hf := if (1 <? p3 - p2)%nat then _ else _).
  set (w := repeat 0 p0 ++ lf ++ repeat 1 (p2 - p1) ++ hf ++ repeat 0 (len - p3)).
  assert (Ll : length lf = (p1 - p0)%nat).
  { unfold lf. destruct (at_start && (0 <? p1 - p0)%nat)%bool; [rewrite firstn_length, Hl; lia|apply repeat_length]. }
  assert (Lh : length hf = (p3 - p2)%nat). { unfold hf. destruct (1 <? p3 - p2)%nat; [rewrite skipn_length, Hr; lia|apply repeat_length]. }
  assert (Lw : length w = len). { unfold w. rewrite !app_length, !repeat_length, Ll, Lh. lia. }
  assert (V : forall k, (k < len)%nat -> getr w k = tukey_value wl wr at_start p0 p1 p2 p3 k).
  { intros k Hk. unfold w, tukey_value. rewrite get_app, repeat_length. destruct (Nat.ltb_spec k p0). { now rewrite get_repeat. }
    rewrite get_app, Ll. destruct (Nat.ltb_spec (k - p0) (p1 - p0)), (Nat.ltb_spec k p1); try lia.
    { unfold lf. destruct (Nat.ltb_spec 0 (p1 - p0)); [|lia]. destruct at_start; cbn [andb]. rewrite (get_firstn (HA := CRing_R)).
      destruct (Nat.ltb_spec (k - p0) (p1 - p0)); [reflexivity|lia]. now rewrite get_repeat. }
    rewrite get_app, repeat_length. destruct (Nat.ltb_spec (k - p0 - (p1 - p0)) (p2 - p1)), (Nat.ltb_spec k p2); try lia. { now rewrite get_repeat. }
    rewrite get_app, Lh. destruct (Nat.ltb_spec (k - p0 - (p1 - p0) - (p2 - p1)) (p3 - p2)), (Nat.ltb_spec k p3); try lia.
    { unfold hf. replace (k - p0 - (p1 - p0) - (p2 - p1))%nat with (k - p2)%nat by lia. destruct (Nat.ltb_spec 1 (p3 - p2)).
      rewrite (get_skipn (HA := CRing_R)). f_equal; lia. rewrite get_repeat; auto; lia. }
    rewrite get_repeat; auto; lia. }
  exists (if inverse then map (fun v => 1 - v) w else w). split; [reflexivity|]. split. { destruct inverse; rewrite ?map_length; auto. }
  intros k Hk. cbn zeta. rewrite <- V by auto. destruct inverse; auto. rewrite (get_map (fun v => 1 - v)) by lia. reflexivity.
Qed.
Lemma hann_length n : length (hann n) = n.
Proof. apply mk_length. Qed.
Lemma hann_range n i : 0 <= getr (hann n) i <= 1.
Proof.
  destruct (Nat.lt_ge_cases i n).
  - unfold hann. rewrite (get_mk (HA := CRing_R)) by auto. pose proof (COS_bound (2 * PI * INR i / INR n)). lra.
  - rewrite (get_out (HA := CRing_R)) by (rewrite hann_length; lia). change (@r0 R CRing_R) with 0. lra.
Qed.
Lemma hann_mid n : (0 < n)%nat -> getr (hann (2 * n)) n = 1.
Proof.
  intros Hn. unfold hann. rewrite (get_mk (HA := CRing_R)) by lia. replace (2 * PI * INR n / INR (2 * n)) with PI.
  rewrite cos_PI. lra. rewrite mult_INR. simpl INR. field. apply not_0_INR. lia.
Qed.
Lemma tukey_range wl wr s p0 p1 p2 p3 k : (forall n i, 0 <= getr (wl n) i <= 1) -> (forall n i, 0 <= getr (wr n) i <= 1) -> 0 <= tukey_value wl wr s p0 p1 p2 p3 k <= 1.
Proof. intros Hl Hr. unfold tukey_value. repeat match goal with |- context [if ?b then _ else _] => destruct b end; auto; lra. Qed.
