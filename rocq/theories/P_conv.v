(** Convolution algebra and difference equations: uniqueness, linearity, impulse responses. *)
From Coq Require Import List Arith Lia ZArith Setoid.
From Verif Require Import Alg Spec.
Import ListNotations.
Local Open Scope nat_scope.

Section Conv.
Context {A : Type} {HA : CRing A}.
Add Ring Aring_pc : (rth (A := A)).

Definition sconv (f g : nat -> A) (n : nat) : A := sum (S n) (fun k => f k *! g (n - k)).
Lemma sconv_ext f f' g g' n : (forall i, i <= n -> f i = f' i) -> (forall i, i <= n -> g i = g' i) -> sconv f g n = sconv f' g' n.
Proof. intros H1 H2. apply sum_ext. intros i Hi. rewrite H1, H2 by lia. reflexivity. Qed.
Lemma sconv_comm f g n : sconv f g n = sconv g f n.
Proof.
  unfold sconv. rewrite sum_rev. apply sum_ext. intros i Hi. replace (S n - 1 - i) with (n - i) by lia.
  replace (n - (n - i)) with i by lia. ring.
Qed.
Lemma sconv_S f g n : sconv f g (S n) = f 0 *! g (S n) +! sconv (fun i => f (S i)) g n.
Proof. unfold sconv. rewrite sum_S_front. rewrite Nat.sub_0_r. f_equal. Qed.
Lemma sconv_lin_l c f f' g n : sconv (fun i => c *! f i +! f' i) g n = c *! sconv f g n +! sconv f' g n.
Proof. unfold sconv. rewrite <- sum_scal_l, <- sum_add. apply sum_ext. intros. ring. Qed.
Lemma sconv_lin_r c f g g' n : sconv f (fun i => c *! g i +! g' i) n = c *! sconv f g n +! sconv f g' n.
Proof. unfold sconv. rewrite <- sum_scal_l, <- sum_add. apply sum_ext. intros. ring. Qed.
Lemma sconv_assoc f g h n : sconv (sconv f g) h n = sconv f (sconv g h) n.
Proof.
  revert f. induction n; intros f.
  - unfold sconv. cbn [sum Nat.sub]. ring.
  - rewrite !sconv_S.
    rewrite (sconv_ext _ (fun i => f 0 *! g (S i) +! sconv (fun i => f (S i)) g i) h h) by (intros; auto; apply sconv_S).
    rewrite sconv_lin_l, IHn. replace (sconv f g 0) with (f 0 *! g 0) by (unfold sconv; cbn [sum Nat.sub]; ring). ring.
Qed.

Lemma conv_sconv (b x : list A) n : conv b x n = sconv (get b) (get x) n.
Proof. reflexivity. Qed.
Lemma conv_comm (b x : list A) n : conv b x n = conv x b n.
Proof. apply sconv_comm. Qed.
Lemma conv_0 (b x : list A) : conv b x 0 = get b 0 *! get x 0.
Proof. unfold conv. cbn [sum]. rewrite Nat.sub_diag. ring. Qed.
Lemma conv_ext_r (b x y : list A) n : (forall i, i <= n -> get x i = get y i) -> conv b x n = conv b y n.
Proof. intros H. apply sconv_ext; auto. Qed.
Lemma conv_ext_l (b c x : list A) n : (forall i, i <= n -> get b i = get c i) -> conv b x n = conv c x n.
Proof. intros H. apply sconv_ext; auto. Qed.

(** The truncated convolution as a list. *)
Definition convl (h x : list A) : list A := mk (length x) (conv h x).
Lemma convl_length h x : length (convl h x) = length x.
Proof. apply mk_length. Qed.
Lemma get_convl h x n : n < length x -> get (convl h x) n = conv h x n.
Proof. intros. unfold convl. now rewrite get_mk. Qed.
Lemma conv_convl (a h x : list A) n : n < length x -> conv a (convl h x) n = sconv (sconv (get a) (get h)) (get x) n.
Proof. intros Hn. rewrite sconv_assoc. apply sconv_ext; auto. intros i Hi. apply get_convl. lia. Qed.
Lemma convl_assoc (g h x : list A) : length h = length x -> convl g (convl h x) = convl (convl g h) x.
Proof.
  intros L. apply get_ext. now rewrite !convl_length. rewrite !convl_length. intros n Hn.
  rewrite !get_convl by (rewrite ?convl_length; auto). rewrite conv_convl by auto. unfold conv at 1. fold (sconv (get (convl g h)) (get x) n).
  apply sconv_ext; auto. intros i Hi. rewrite get_convl by lia. reflexivity.
Qed.

(** unit impulse of N samples *)
Definition delta (N : nat) : list A := mk N (fun i => if i =? 0 then r1 else r0).
Lemma delta_length N : length (delta N) = N.
Proof. apply mk_length. Qed.
Lemma get_delta N i : i < N -> get (delta N) i = if i =? 0 then r1 else r0.
Proof. intros. unfold delta. now rewrite get_mk. Qed.
Lemma conv_delta (b : list A) N n : n < N -> conv b (delta N) n = get b n.
Proof.
  intros Hn. unfold conv. rewrite (sum_single _ n) by
    (try lia; intros i Hi Hne; rewrite get_delta by lia; destruct (Nat.eqb_spec (n - i) 0); try lia; ring).
  rewrite Nat.sub_diag, get_delta by lia. cbn [Nat.eqb]. ring.
Qed.

(** Uniqueness of the response. *)
Lemma diff_eq_unique (b a x y y' : list A) : get a 0 = r1 -> diff_eq b a x y -> diff_eq b a x y' -> y = y'.
Proof.
  intros Ha [L H] [L' H']. apply get_ext. lia. intros n. induction n as [n IH] using lt_wf_ind. intros Hn.
  specialize (H n ltac:(lia)). specialize (H' n ltac:(lia)). rewrite <- H' in H. clear H'. unfold conv in H.
  rewrite !sum_S_front in H. rewrite !Nat.sub_0_r, Ha in H.
  rewrite (sum_ext n (fun i => get a (S i) *! get y (n - S i)) (fun i => get a (S i) *! get y' (n - S i))) in H
    by (intros i Hi; rewrite IH by lia; reflexivity).
  set (s := sum n _) in H. transitivity (r1 *! get y n +! s -! s). ring. rewrite H. ring.
Qed.
(** A response exists. *)
Fixpoint resp_v (b a x : list A) (n : nat) : list A :=
  match n with
  | O => []
  | S m => let y := resp_v b a x m in y ++ [conv b x m -! sum m (fun k => get a (S k) *! get y (m - S k))]
  end.
Definition resp (b a x : list A) : list A := resp_v b a x (length x).
Lemma resp_v_length b a x n : length (resp_v b a x n) = n.
Proof. induction n; simpl; auto. rewrite app_length; simpl; lia. Qed.
Lemma resp_v_prefix b a x n m i : i < n -> n <= m -> get (resp_v b a x m) i = get (resp_v b a x n) i.
Proof.
  intros Hi Hm. induction m. lia. destruct (Nat.eq_dec n (S m)) as [->|]; auto. cbn [resp_v]. cbv zeta.
  rewrite get_app_l by (rewrite resp_v_length; lia). apply IHm. lia.
Qed.
Lemma resp_ok b a x : get a 0 = r1 -> diff_eq b a x (resp b a x).
Proof.
  intros Ha. split. apply resp_v_length. intros n Hn. unfold conv at 1. rewrite sum_S_front, Nat.sub_0_r, Ha.
  unfold resp. rewrite (resp_v_prefix b a x (S n) (length x) n) by lia. cbn [resp_v]. cbv zeta.
  set (y := resp_v b a x n). assert (Ly : length y = n) by apply resp_v_length.
  replace (get (y ++ _) n) with (conv b x n -! sum n (fun k => get a (S k) *! get y (n - S k)))
    by (rewrite get_app_r by lia; now rewrite Ly, Nat.sub_diag).
  rewrite (sum_ext n (fun i => get a (S i) *! get (resp_v b a x (length x)) (n - S i)) (fun k => get a (S k) *! get y (n - S k))).
  ring. intros k Hk. f_equal. apply resp_v_prefix; lia.
Qed.
(** The response is the convolution with the impulse response. *)
Lemma diff_eq_impulse (b a x h y : list A) : get a 0 = r1 -> diff_eq b a (delta (length x)) h -> diff_eq b a x y -> y = convl h x.
Proof.
  intros Ha [Lh Hh] Hy. rewrite delta_length in Lh, Hh. apply (diff_eq_unique b a x); auto. split. apply convl_length. intros n Hn.
  rewrite conv_convl by auto. unfold conv. fold (sconv (get b) (get x) n). apply sconv_ext; auto. intros i Hi.
  change (sconv (get a) (get h) i) with (conv a h i). rewrite Hh by lia. apply conv_delta. lia.
Qed.
Lemma diff_eq_scale (c : A) (b a x y : list A) : diff_eq b a x y -> diff_eq (map (fun v => c *! v) b) a x (map (fun v => c *! v) y).
Proof.
  assert (G : forall l i, get (map (fun v => c *! v) l) i = c *! get l i).
  { intros l i. unfold get. destruct (Nat.lt_ge_cases i (length l)). now rewrite (nth_map' _ l i r0).
    rewrite !nth_overflow by (rewrite ?map_length; auto). ring. }
  intros [L H]. split. now rewrite map_length. intros n Hn. specialize (H n Hn).
  transitivity (c *! conv a y n). { unfold conv. rewrite <- sum_scal_l. apply sum_ext. intros. rewrite G. ring. }
  rewrite H. unfold conv. rewrite <- sum_scal_l. apply sum_ext. intros. rewrite G. ring.
Qed.
End Conv.
