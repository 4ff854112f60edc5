(** Property C100: detrending and envelopes. *)
From Coq Require Import List Arith Lia ZArith Bool Reals Lra.
From Verif Require Import Alg Spec Dft M_arrays M_signal P_signal P_ar P_arrays M_minphase P_minphase M_transforms Claims_transforms M_detrend.
Import ListNotations.
Local Open Scope R_scope.

(** ** Specification *)
Notation gt := (get (HA := CRing_R)).
Notation sm := (sum (HA := CRing_R)).
(** values of a polynomial with the coefficients c, lowest first *)
Definition poly (c : list R) (t : R) : R := sm (length c) (fun j => gt c j * t ^ j).
(** the moment of order j of a list of samples *)
Definition moment (y : list R) (j : nat) : R := sm (length y) (fun i => gt y i * INR i ^ j).
Definition energy (y : list R) : R := sm (length y) (fun i => gt y i ^ 2).
(** y is x without its polynomial trend of that order: the same length, the difference is a polynomial, and nothing of one is left *)
Definition trend_free (order : nat) (x y : list R) : Prop :=
  length y = length x /\ (exists c, length c = S order /\ forall i, (i < length x)%nat -> gt x i = gt y i + poly c (INR i)) /\
  forall j, (j <= order)%nat -> moment y j = 0.

(** ** Auxiliary facts *)
Lemma dot_comm n u v : dotn n u v = dotn n v u.
Proof. unfold dotn. apply (sum_ext (HA := CRing_R)). intros. ring. Qed.
Lemma dot_ext n u u' v v' : (forall i, (i < n)%nat -> u i = u' i) -> (forall i, (i < n)%nat -> v i = v' i) -> dotn n u v = dotn n u' v'.
Proof. intros H H'. unfold dotn. apply (sum_ext (HA := CRing_R)). intros. now rewrite H, H'. Qed.
Lemma dot_lin n a b u v w : dotn n (fun i => a * u i + b * v i) w = a * dotn n u w + b * dotn n v w.
Proof.
  unfold dotn. change Rmult with (@rmul R CRing_R) at 4 6. rewrite <- !(sum_scal_l (HA := CRing_R)). change Rplus with (@radd R CRing_R) at 2.
  rewrite <- (sum_add (HA := CRing_R)). apply (sum_ext (HA := CRing_R)). intros. simpl. ring.
Qed.
Lemma dot_pos n u : 0 <= dotn n u u.
Proof. unfold dotn. apply rsum_nonneg. intros. nra. Qed.
Lemma dot_zero n u : dotn n u u = 0 -> forall i, (i < n)%nat -> u i = 0.
Proof.
  induction n as [|n IH]; intros H i Hi. lia. unfold dotn in H. cbn [sum] in H. simpl radd in H.
  pose proof (dot_pos n u) as P. unfold dotn in P. assert (u n * u n = 0) by nra. assert (Z : dotn n u u = 0) by (unfold dotn; nra).
  destruct (Nat.eq_dec i n) as [->|]. nra. apply IH; auto; lia.
Qed.
Lemma strip_dot n q v w : dotn n (strip n q v) w = dotn n v w - dotn n v q / dotn n q q * dotn n q w.
Proof.
  unfold strip. set (k := dotn n v q / dotn n q q). rewrite (dot_ext n _ (fun i => 1 * v i + (- k) * q i) w w). 2: intros; ring. 2: auto. rewrite dot_lin. ring.
Qed.
Lemma strip_orth n q v : dotn n (strip n q v) q = 0.
Proof.
  rewrite strip_dot. destruct (Req_dec (dotn n q q) 0) as [E|E]; [|field; auto]. pose proof (dot_zero n q E) as Z.
  rewrite (dot_ext n v v q (fun _ => 0)) by auto. rewrite E. unfold dotn at 1 2. rewrite (sum_zero' (HA := CRing_R) n) by (intros; simpl; ring). simpl. ring.
Qed.
Lemma all_keep n qs v w : (forall q, In q qs -> dotn n q w = 0) -> dotn n (strip_all n qs v) w = dotn n v w.
Proof.
  revert v. induction qs as [|q qs IH]; intros v H. reflexivity. cbn [strip_all fold_left]. fold (strip_all n qs (strip n q v)).
  rewrite IH by (intros; apply H; now right). rewrite strip_dot, (H q) by (now left). ring.
Qed.
Lemma all_orth n qs v : ForallOrdPairs (fun a b => dotn n a b = 0) qs -> forall q, In q qs -> dotn n (strip_all n qs v) q = 0.
Proof.
  intros H. revert v. induction H as [|q qs F O IH]; intros v r Hr. destruct Hr.
  cbn [strip_all fold_left]. fold (strip_all n qs (strip n q v)). destruct Hr as [<-|Hr]; [|now apply IH].
  rewrite all_keep. apply strip_orth. intros r Hr. rewrite dot_comm. rewrite Forall_forall in F. now apply F.
Qed.
Lemma pairs_snoc {T} (P : T -> T -> Prop) l x : ForallOrdPairs P l -> (forall y, In y l -> P y x) -> ForallOrdPairs P (l ++ [x]).
Proof.
  intros H. induction H as [|a l F O IH]; intros G. repeat constructor. cbn [app]. constructor.
  - apply Forall_app. split; auto. constructor; auto. apply G. now left.
  - apply IH. intros. apply G. now right.
Qed.
Lemma basis_orth n p : ForallOrdPairs (fun a b => dotn n a b = 0) (basis n p).
Proof. induction p. constructor. cbn [basis]. apply pairs_snoc; auto. intros y Hy. rewrite dot_comm. now apply all_orth. Qed.
Lemma basis_in n p j : (j < p)%nat -> In (strip_all n (basis n j) (power j)) (basis n p) /\ incl (basis n j) (basis n p).
Proof.
  induction p; intros H. lia. cbn [basis]. destruct (Nat.eq_dec j p) as [->|].
  - split. apply in_or_app. right. now left. now apply incl_appl, incl_refl.
  - destruct IHp as (A & B); [lia|]. split. apply in_or_app. now left. now apply incl_appl.
Qed.
Lemma residual_power n p v j : (j < p)%nat -> dotn n (strip_all n (basis n p) v) (power j) = 0.
Proof.
  intros H. set (y := strip_all n (basis n p) v). destruct (basis_in n p j H) as (A & B).
  assert (O : forall q, In q (basis n p) -> dotn n y q = 0) by (intros; apply all_orth; auto using basis_orth).
  rewrite dot_comm, <- (all_keep n (basis n j) (power j) y). rewrite dot_comm. now apply O. intros q Hq. rewrite dot_comm. now apply O, B.
Qed.
(** polynomials of degree below p as functions *)
Definition isp (p : nat) (f : nat -> R) : Prop := exists c : nat -> R, forall i, f i = sm p (fun j => c j * INR i ^ j).
Lemma isp_lin p f g a b : isp p f -> isp p g -> isp p (fun i => a * f i + b * g i).
Proof.
  intros (c & Hc) (d & Hd). exists (fun j => a * c j + b * d j). intros i. rewrite Hc, Hd. change Rmult with (@rmul R CRing_R) at 1 3. rewrite <- !(sum_scal_l (HA := CRing_R)).
  change Rplus with (@radd R CRing_R) at 1. rewrite <- (sum_add (HA := CRing_R)). apply (sum_ext (HA := CRing_R)). intros. simpl. ring.
Qed.
Lemma isp_ext p f g : (forall i, f i = g i) -> isp p f -> isp p g.
Proof. intros H (c & Hc). exists c. intros. now rewrite <- H. Qed.
Lemma isp_zero p : isp p (fun _ => 0).
Proof. exists (fun _ => 0). intros. rewrite (sum_zero' (HA := CRing_R)); auto. intros. simpl. ring. Qed.
Lemma isp_mono p q f : (p <= q)%nat -> isp p f -> isp q f.
Proof.
  intros H (c & Hc). exists (fun j => if (j <? p)%nat then c j else 0). intros i. rewrite Hc. replace q with (p + (q - p))%nat by lia. rewrite (sum_split (HA := CRing_R)).
  rewrite (sum_zero' (HA := CRing_R) (q - p)). 2:{ intros j Hj. destruct (Nat.ltb_spec (p + j) p); [lia|]. simpl. ring. }
  simpl radd. rewrite Rplus_0_r. apply (sum_ext (HA := CRing_R)). intros j Hj. destruct (Nat.ltb_spec j p); [auto|lia].
Qed.
Lemma isp_power p : isp (S p) (power p).
Proof.
  exists (fun j => if (j =? p)%nat then 1 else 0). intros i. cbn [sum]. rewrite (sum_zero' (HA := CRing_R)).
  - rewrite Nat.eqb_refl. simpl. unfold power. ring.
  - intros j Hj. destruct (Nat.eqb_spec j p); [lia|]. simpl. ring.
Qed.
Lemma isp_all p n qs v : (forall q, In q qs -> isp p q) -> isp p (fun i => v i - strip_all n qs v i).
Proof.
  revert v. induction qs as [|q qs IH]; intros v H.
  - apply (isp_ext p (fun _ => 0)). intros. simpl. ring. apply isp_zero.
  - cbn [strip_all fold_left]. fold (strip_all n qs (strip n q v)).
    apply (isp_ext p (fun i => 1 * (strip n q v i - strip_all n qs (strip n q v) i) + (dotn n v q / dotn n q q) * q i)).
    + intros i. unfold strip at 1. ring.
    + apply (isp_lin p (fun i => strip n q v i - strip_all n qs (strip n q v) i) q). apply IH. intros. apply H. now right. apply H. now left.
Qed.
Lemma basis_isp n p : forall q, In q (basis n p) -> isp p q.
Proof.
  induction p; cbn [basis]. intros q []. intros q Hq. apply in_app_or in Hq. destruct Hq as [Hq|[<-|[]]].
  - apply (isp_mono p); auto.
  - apply (isp_ext _ (fun i => 1 * power p i + (-1) * (power p i - strip_all n (basis n p) (power p) i))). intros; ring.
    apply isp_lin. apply isp_power. apply (isp_mono p). auto. now apply isp_all.
Qed.
Lemma isp_poly p f : isp p f -> exists c, length c = p /\ forall i, f i = poly c (INR i).
Proof.
  intros (c & Hc). exists (mk p c). split. apply mk_length. intros i. rewrite Hc. unfold poly. rewrite mk_length. apply (sum_ext (HA := CRing_R)). intros. now rewrite get_mk.
Qed.
Lemma poly_isp c p : length c = p -> isp p (fun i => poly c (INR i)).
Proof. intros <-. exists (gt c). reflexivity. Qed.
Lemma dot_isp n p u f : isp p f -> (forall j, (j < p)%nat -> dotn n u (power j) = 0) -> dotn n u f = 0.
Proof.
  intros (c & Hc) H. rewrite dot_comm. rewrite (dot_ext n f (fun i => sm p (fun j => c j * power j i)) u u); [|intros; apply Hc|auto]. clear Hc f.
  induction p as [|p IH]; cbn [sum].
  - unfold dotn. apply (sum_zero' (HA := CRing_R)). intros. simpl. ring.
  - rewrite (dot_ext n _ (fun i => 1 * sm p (fun j => c j * power j i) + c p * power p i) u u); [|intros; simpl; ring|auto].
    rewrite (dot_lin n 1 (c p) (fun i => sm p (fun j => c j * power j i)) (power p) u), IH by auto. rewrite (dot_comm n (power p)), H by lia. ring.
Qed.
Lemma moment_dot y j : moment y j = dotn (length y) (gt y) (power j).
Proof. reflexivity. Qed.
Lemma energy_dot y : energy y = dotn (length y) (gt y) (gt y).
Proof. unfold energy, dotn. apply (sum_ext (HA := CRing_R)). intros. ring. Qed.

Lemma get_rep0 n i : gt (repeat 0 n) i = 0.
Proof. apply (get_repeat0 (HA := CRing_R)). Qed.

(** ** Detrending one column *)
Theorem C100_detrend order x : trend_free order x (detrend_col order x).
Proof.
  unfold trend_free, detrend_col. set (n := length x). set (y := strip_all n (basis n (S order)) (gt x)).
  assert (L : length (mk n y) = n) by apply mk_length. split; auto. split.
  - destruct (isp_poly (S order) (fun i => gt x i - y i)) as (c & Lc & Hc). { apply isp_all. apply basis_isp. }
    exists c. split; auto. intros i Hi. rewrite get_mk by auto. rewrite <- Hc. ring.
  - intros j Hj. rewrite moment_dot, L. rewrite (dot_ext n _ y _ (power j)); auto. 2:{ intros. now rewrite get_mk. } apply residual_power. lia.
Qed.
Print Assumptions C100_detrend.
Lemma trend_free_unique order x y y' : trend_free order x y -> trend_free order x y' -> y = y'.
Proof.
  intros (L & (c & Lc & Hc) & M) (L' & (c' & Lc' & Hc') & M'). set (n := length x) in *.
  apply (list_eq_nth 0). lia. intros i Hi.
  set (d := fun i => 1 * gt y i + (-1) * gt y' i).
  assert (Z : dotn n d d = 0).
  { rewrite (dot_ext n d d d (fun i => 1 * poly c' (INR i) + (-1) * poly c (INR i))); auto.
    - apply (dot_isp n (S order)). apply isp_lin; now apply poly_isp. intros j Hj. unfold d. rewrite dot_lin.
      pose proof (M j ltac:(lia)) as A. pose proof (M' j ltac:(lia)) as B. rewrite moment_dot, L in A. rewrite moment_dot, L' in B. rewrite A, B. ring.
    - intros k Hk. unfold d. pose proof (Hc k Hk). pose proof (Hc' k Hk). lra. }
  pose proof (dot_zero n d Z i ltac:(lia)) as E. unfold d in E. change (nth i y 0) with (gt y i). change (nth i y' 0) with (gt y' i). lra.
Qed.
(** The specification determines the result. *)
Theorem C100_detrend_unique order x y : trend_free order x y -> y = detrend_col order x.
Proof. intros H. apply (trend_free_unique order x); auto. apply C100_detrend. Qed.
Print Assumptions C100_detrend_unique.
(** No polynomial of that order leaves less energy, and the polynomial that leaves the least leaves this. *)
Theorem C100_least_squares order x c : length c = S order ->
  let r := mk (length x) (fun i => gt x i - poly c (INR i)) in
  energy (detrend_col order x) <= energy r /\ (energy r <= energy (detrend_col order x) -> r = detrend_col order x).
Proof.
  intros Lc r. destruct (C100_detrend order x) as (L & (e & Le & He) & M). set (y := detrend_col order x) in *. set (n := length x) in *.
  assert (Lr : length r = n) by apply mk_length. set (d := fun i => 1 * poly e (INR i) + (-1) * poly c (INR i)).
  assert (E : forall i, (i < n)%nat -> gt r i = gt y i + d i). { intros i Hi. unfold r. rewrite get_mk by auto. rewrite He by auto. unfold d. ring. }
  assert (O : dotn n (gt y) d = 0).
  { apply (dot_isp n (S order)). apply isp_lin; now apply poly_isp. intros j Hj. rewrite <- L, <- moment_dot. apply M. lia. }
  assert (T : energy r = energy y + dotn n d d).
  { rewrite !energy_dot, Lr, L. rewrite (dot_ext n (gt r) (fun i => 1 * gt y i + 1 * d i) (gt r) (fun i => 1 * gt y i + 1 * d i)) by (intros i Hi; rewrite E by auto; ring).
    rewrite (dot_lin n 1 1 (gt y) d). rewrite (dot_comm n (gt y)), (dot_comm n d). rewrite !dot_lin. rewrite (dot_comm n d (gt y)), O. ring. }
  pose proof (dot_pos n d). split. lra. intros G. assert (Z : dotn n d d = 0) by lra.
  apply (list_eq_nth 0). lia. intros i Hi. change (gt r i = gt y i). rewrite E by lia. rewrite (dot_zero n d Z) by lia. ring.
Qed.
Print Assumptions C100_least_squares.
(** In particular detrending never adds energy. *)
Theorem C100_energy order x : energy (detrend_col order x) <= energy x.
Proof.
  destruct (C100_least_squares order x (repeat 0 (S order)) ltac:(apply repeat_length)) as (H & _). eapply Rle_trans. exact H.
  apply Req_le. unfold energy. rewrite mk_length. apply (sum_ext (HA := CRing_R)). intros i Hi. rewrite get_mk by auto.
  unfold poly. rewrite (sum_zero' (HA := CRing_R)). simpl. ring. intros j Hj. rewrite get_rep0. simpl. ring.
Qed.
Print Assumptions C100_energy.
Lemma trend_free_lin order a b x z y w : length z = length x -> trend_free order x y -> trend_free order z w ->
  trend_free order (mk (length x) (fun i => a * gt x i + b * gt z i)) (mk (length x) (fun i => a * gt y i + b * gt w i)).
Proof.
  intros Lz (L & (c & Lc & Hc) & M) (L' & (c' & Lc' & Hc') & M'). rewrite Lz in *. split. now rewrite !mk_length. rewrite mk_length. split.
  - destruct (isp_poly (S order) (fun i => a * poly c (INR i) + b * poly c' (INR i))) as (e & Le & He). { apply isp_lin; now apply poly_isp. }
    exists e. split; auto. intros i Hi. rewrite !get_mk by auto. rewrite Hc, Hc' by auto. rewrite <- He. ring.
  - intros j Hj. rewrite moment_dot, mk_length. rewrite (dot_ext _ _ (fun i => a * gt y i + b * gt w i) _ (power j)); auto. 2:{ intros. now rewrite get_mk. }
    rewrite dot_lin. pose proof (M j Hj) as A. pose proof (M' j Hj) as B. rewrite moment_dot, L in A. rewrite moment_dot, L' in B. rewrite A, B. ring.
Qed.
(** Linear, idempotent, blind to any trend of that order or lower, and complete: with as many coefficients as samples nothing is left. *)
Theorem C100_linear order a b x z : length z = length x ->
  detrend_col order (mk (length x) (fun i => a * gt x i + b * gt z i)) =
  mk (length x) (fun i => a * gt (detrend_col order x) i + b * gt (detrend_col order z) i).
Proof. intros H. symmetry. apply C100_detrend_unique. apply trend_free_lin; auto; apply C100_detrend. Qed.
Print Assumptions C100_linear.
Lemma poly_pad c p : (length c <= p)%nat -> exists c', length c' = p /\ forall t, poly c' t = poly c t.
Proof.
  intros H. exists (c ++ repeat 0 (p - length c)). split. rewrite app_length, repeat_length. lia. intros t. unfold poly. rewrite app_length, repeat_length, (sum_split (HA := CRing_R)).
  rewrite (sum_zero' (HA := CRing_R) (p - length c)). 2:{ intros j Hj. rewrite get_app_r by lia. rewrite get_rep0. simpl. ring. }
  simpl radd. rewrite Rplus_0_r. apply (sum_ext (HA := CRing_R)). intros j Hj. now rewrite get_app_l.
Qed.
Theorem C100_trend order x c : (length c <= S order)%nat ->
  detrend_col order (mk (length x) (fun i => gt x i + poly c (INR i))) = detrend_col order x.
Proof.
  intros H. symmetry. apply C100_detrend_unique. destruct (C100_detrend order x) as (L & (e & Le & He) & M). split. now rewrite mk_length. rewrite mk_length. split; auto.
  destruct (poly_pad c (S order) H) as (c' & Lc & Ec).
  destruct (isp_poly (S order) (fun i => 1 * poly e (INR i) + 1 * poly c' (INR i))) as (f & Lf & Hf). { apply isp_lin; now apply poly_isp. }
  exists f. split; auto. intros i Hi. rewrite get_mk by auto. rewrite He by auto. rewrite <- Hf, <- Ec. ring.
Qed.
Print Assumptions C100_trend.
Theorem C100_idempotent order order' x : (order' <= order)%nat -> detrend_col order' (detrend_col order x) = detrend_col order x /\ detrend_col order (detrend_col order' x) = detrend_col order x.
Proof.
  intros H. destruct (C100_detrend order x) as (L & (e & Le & He) & M). split.
  - symmetry. apply C100_detrend_unique. split; auto. split. 2:{ intros j Hj. apply M. lia. }
    exists (repeat 0 (S order')). split. apply repeat_length. intros i Hi. unfold poly. rewrite (sum_zero' (HA := CRing_R)). simpl. ring. intros. rewrite get_rep0. simpl. ring.
  - symmetry. apply C100_detrend_unique. destruct (C100_detrend order' x) as (L' & (e' & Le' & He') & M'). split. now rewrite L, L'. split; auto.
    destruct (poly_pad e' (S order) ltac:(lia)) as (c' & Lc & Ec).
    destruct (isp_poly (S order) (fun i => 1 * poly e (INR i) + (-1) * poly c' (INR i))) as (f & Lf & Hf). { apply isp_lin; now apply poly_isp. }
    exists f. split; auto. rewrite L'. intros i Hi. rewrite <- Hf, Ec. pose proof (He i Hi). pose proof (He' i Hi). lra.
Qed.
Print Assumptions C100_idempotent.
(** Order 0 subtracts the mean. *)
Theorem C100_mean x i : (i < length x)%nat -> gt (detrend_col 0 x) i = gt x i - sm (length x) (gt x) / INR (length x).
Proof.
  intros Hi. set (m := sm (length x) (gt x) / INR (length x)). assert (P : 0 < INR (length x)) by (apply lt_0_INR; lia).
  rewrite <- (C100_detrend_unique 0 x (mk (length x) (fun i => gt x i - m))). now rewrite get_mk.
  split. apply mk_length. split.
  - exists [m]. split; auto. intros j Hj. rewrite get_mk by auto. unfold poly. simpl. unfold get. simpl. ring.
  - intros j Hj. assert (j = 0)%nat by lia. subst j. rewrite moment_dot, mk_length. rewrite (dot_ext _ _ (fun i => 1 * gt x i + (-m) * power 0 i) _ (power 0)); auto. 2:{ intros. rewrite get_mk by auto. unfold power. simpl. ring. }
    rewrite dot_lin. assert (E : dotn (length x) (gt x) (power 0) = sm (length x) (gt x)). { unfold dotn. apply (sum_ext (HA := CRing_R)). intros. unfold power. simpl. ring. }
    assert (E' : dotn (length x) (power 0) (power 0) = INR (length x)).
    { clear. unfold dotn. induction (length x) as [|k IH]. reflexivity. cbn [sum]. rewrite S_INR, IH. unfold power. simpl. ring. }
    rewrite E, E'. unfold m. field. lra.
Qed.
Print Assumptions C100_mean.
(** The example: 1, 2, 4 minus the line 5/6 + 3/2 t *)
Example C100_detrend_inst : detrend_col 1 [1; 2; 4] = [1/6; -1/3; 1/6] /\ energy [1/6; -1/3; 1/6] = 1/6.
Proof.
  split; [|unfold energy, get; simpl; lra]. symmetry. apply C100_detrend_unique. split; auto. split.
  - exists [5/6; 3/2]. split; auto. intros i Hi. simpl in Hi. destruct i as [|[|[|]]]; [| | |lia]; unfold poly, get; simpl; lra.
  - intros j Hj. destruct j as [|[|]]; [| |lia]; unfold moment, get; simpl; lra.
Qed.

(** ** Detrending a signal *)
(** Every channel loses its trend; sampling rate and constraint setting are kept; the result is scaled with one reported factor, which is 1 unless
    the signal is amplitude-constrained and a detrended sample exceeds 1. A negative order is refused. *)
Theorem C100_signal s n k order : shape (s_re s) n k -> (1 <= k <= n)%nat -> (n * k <> 1)%nat ->
  ((order < 0)%Z -> detrend order s = Err AssertionError) /\
  ((0 <= order)%Z -> exists ys s', length ys = k /\ (forall c, (c < k)%nat -> trend_free (Z.to_nat order) (nth c (s_re s) []) (nth c ys [])) /\
     detrend order s = Ok s' /\ s_fs s' = s_fs s /\ s_constr s' = s_constr s /\ s_im s' = None /\ shape (s_re s') n k /\
     (forall i c, (i < n)%nat -> (c < k)%nat -> entry (s_re s') i c = s_scale s' * entry ys i c) /\
     (s_scale s' = 1 \/ s_constr s = true /\ exists i c, (i < n)%nat /\ (c < k)%nat /\ 1 < Rabs (entry ys i c) /\ s_scale s' = 1 / Rabs (entry ys i c)) /\
     ((s_constr s = false \/ forall i c, (i < n)%nat -> (c < k)%nat -> Rabs (entry ys i c) <= 1) -> s_scale s' = 1)).
Proof.
  intros Sh Hk H1. pose proof Sh as (Lk & _). split. { intros H. unfold detrend. destruct (Z.ltb_spec order 0); [auto|lia]. }
  intros H. unfold detrend. destruct (Z.ltb_spec order 0); [lia|]. set (ys := map (detrend_col (Z.to_nat order)) (s_re s)).
  assert (Sy : shape ys n k). { rewrite <- Lk. apply shape_mk_map. intros x Hx. unfold detrend_col. rewrite mk_length. destruct Sh as (_ & F). rewrite Forall_forall in F. now apply F. }
  assert (Si : in_shape (mkIn ys None false) n k) by (split; [exact Sy|discriminate]).
  destruct (stored (s_constr s) (s_fs s) (mkIn ys None false) n k Si Hk H1 eq_refl) as (p & s' & (Pk1 & Pk2) & E & A & B & D & F & G & I). cbn [i_re i_im] in *.
  exists ys, s'. split. { unfold ys. now rewrite map_length. }
  split. { intros c Hc. unfold ys. rewrite (nth_map' _ _ _ [] []) by lia. apply C100_detrend. }
  split; [exact E|]. split; [exact B|]. split; [exact A|]. split; [exact I|]. split; [exact F|]. split; [exact G|].
  destruct Pk2 as (i & c & Hi & Hc & [Ep|(im & W & _)]); [|discriminate]. split.
  - rewrite D. destruct (s_constr s); [|now left]. destruct (Rlt_dec 1 p); [|now left]. right. split; auto. exists i, c. rewrite <- Ep. repeat split; auto.
  - rewrite D. intros [->|Q]; auto. destruct (s_constr s); auto. destruct (Rlt_dec 1 p); auto. pose proof (Q i c Hi Hc). lra.
Qed.
Print Assumptions C100_signal.
Example C100_signal_inst : exists s', detrend 1 (mkSig [[1; 2; 4]] None 1 false 48000%Z) = Ok s' /\ s_re s' = [[1/6; -1/3; 1/6]].
Proof.
  destruct C100_detrend_inst as (E & _). unfold detrend. change (1 <? 0)%Z with false. cbv iota.
  change (map (detrend_col (Z.to_nat 1)) (s_re _)) with [detrend_col 1 [1; 2; 4]]. rewrite E. eexists. split; reflexivity.
Qed.
(** Detrending a constrained signal may scale it: removing the mean of 1, 1, 1, -1 leaves 1/2, 1/2, 1/2, -3/2, which is stored divided by 3/2, so
    the difference from the input is not a constant any more. *)
Theorem C100_constrained_refuted : exists s s', s_constr s = true /\ shape (s_re s) 4 1 /\ detrend 0 s = Ok s' /\
  s_re s = [[1; 1; 1; -1]] /\ s_scale s' = 2/3 /\ (forall i, (i < 3)%nat -> entry (s_re s') i 0 = 1/3) /\ entry (s_re s') 3 0 = -1.
Proof.
  set (s := mkSig [[1; 1; 1; -1]] None 1 true 48000%Z). assert (Sh : shape (s_re s) 4 1) by (repeat constructor).
  destruct (C100_signal s 4 1 0 Sh ltac:(lia) ltac:(lia)) as (_ & H). destruct (H ltac:(lia)) as (ys & s' & Ly & Ty & E & _ & _ & _ & _ & G & Sc & Sc').
  exists s, s'. split; auto. split; auto. split; auto. split; auto.
  assert (Y : forall i, (i < 4)%nat -> entry ys i 0 = if (i =? 3)%nat then -3/2 else 1/2).
  { intros i Hi. unfold entry. rewrite (C100_detrend_unique _ _ _ (Ty 0%nat ltac:(lia))). cbn [s_re s nth]. change (nth i ?l 0) with (gt l i). change (Z.to_nat 0) with 0%nat.
    rewrite C100_mean by (simpl; lia). destruct i as [|[|[|[|]]]]; [| | | |lia]; unfold get; simpl; lra. }
  assert (SC : s_scale s' = 2/3).
  { destruct Sc as [Q|(_ & i & c & Hi & Hc & Q1 & Q2)].
    - exfalso. unfold detrend in E. cbn -[map s] in E. unfold set_data in E.
      assert (Si : in_shape (mkIn ys None false) 4 1). { split; [|discriminate]. split; auto. apply Forall_forall. intros x Hx. destruct ys as [|y [|]]; try discriminate. destruct Hx as [<-|[]]. pose proof (Ty 0%nat ltac:(lia)) as (Q' & _). exact Q'. }
      assert (YS : map (detrend_col (Z.to_nat 0)) (s_re s) = ys). { destruct ys as [|y [|]]; try discriminate. cbn [s_re s map]. f_equal. symmetry. now apply (C100_detrend_unique 0 _ _ (Ty 0%nat ltac:(lia))). }
      change (s_constr s) with true in E. change (Z.to_nat 0) with 0%nat in YS. unfold Z.to_nat in E. rewrite YS in E.
      destruct (stored true (s_fs s) (mkIn ys None false) 4 1 Si ltac:(lia) ltac:(lia) eq_refl) as (p & s2 & (Pk1 & _) & E2 & _ & _ & D & _).
      rewrite E2 in E. injection E as <-. rewrite Q in D. destruct (Pk1 3%nat 0%nat ltac:(lia) ltac:(lia)) as (P & _). cbn [i_re] in P. rewrite Y in P by lia. cbn [Nat.eqb] in P.
      replace (Rabs (-3/2)) with (3/2) in P. 2:{ rewrite Rabs_left; lra. } destruct (Rlt_dec 1 p); [|lra]. assert (p * (1 / p) = 1) by (field; lra). rewrite <- D in *. lra.
    - assert (c = 0)%nat by lia. subst c. rewrite Q2. rewrite Y in * by lia. destruct (Nat.eqb_spec i 3); [|rewrite Rabs_right in Q1; lra]. replace (Rabs (-3/2)) with (3/2); [lra|]. rewrite Rabs_left; lra. }
  split; auto. split.
  - intros i Hi. rewrite G by lia. rewrite Y by lia. destruct (Nat.eqb_spec i 3); [lia|]. rewrite SC. lra.
  - rewrite G by lia. rewrite Y by lia. cbn [Nat.eqb]. rewrite SC. lra.
Qed.
Print Assumptions C100_constrained_refuted.

(** Bands are detrended one by one; the order is checked for each. *)
Theorem C100_bands order l : (forall s, In s l -> exists n k, shape (s_re s) n k /\ (1 <= k <= n)%nat /\ (n * k <> 1)%nat) ->
  ((0 <= order)%Z -> exists l', detrend_bands order l = Ok l' /\ length l' = length l /\ forall b d, (b < length l)%nat -> detrend order (nth b l d) = Ok (nth b l' d)) /\
  ((order < 0)%Z -> l <> [] -> detrend_bands order l = Err AssertionError).
Proof.
  intros H. split.
  - intros Ho. unfold detrend_bands. induction l as [|s l IH].
    + exists []. repeat split; auto. intros b d Hb. simpl in Hb. lia.
    + destruct (H s (or_introl eq_refl)) as (n & k & Sh & Hk & H1). destruct (C100_signal s n k order Sh Hk H1) as (_ & Q). destruct (Q Ho) as (_ & s' & _ & _ & E & _).
      destruct IH as (l' & E' & L' & G). { intros. apply H. now right. }
      exists (s' :: l'). cbn [map seq_result]. rewrite E. cbn [bind]. rewrite E'. cbn [bind]. repeat split; auto. simpl; lia. intros [|b] d Hb; simpl; auto. apply G. simpl in Hb. lia.
  - intros Ho N. destruct l as [|s l]; [easy|]. unfold detrend_bands. cbn [map seq_result]. unfold detrend at 1. destruct (Z.ltb_spec order 0); [reflexivity|lia].
Qed.
Print Assumptions C100_bands.

(** ** Envelopes *)
(** The RMS envelope at a sample: the squares of the last w samples (fewer at the start), divided by w. *)
Lemma rms_sq w y i : (0 < w)%nat -> (i < length y)%nat -> 0 <= gt (rms_col w y) i /\ gt (rms_col w y) i ^ 2 = sm (Nat.min w (S i)) (fun d => gt y (i - d) ^ 2) / INR w.
Proof.
  intros Hw Hi. assert (P : 0 < INR w) by (apply lt_0_INR; lia).
  assert (E : gt (rms_col w y) i = sqrt (sm (Nat.min w (S i)) (fun d => gt y (i - d) ^ 2) / INR w)).
  { unfold rms_col. unfold get at 1. rewrite (nth_map' _ _ _ 0 _) by (now rewrite mk_length). f_equal. rewrite nth_mk by auto. unfold conv.
    change (@rmul R CRing_R) with Rmult.
    transitivity (sm (S i) (fun k => if (k <? w)%nat then 1 / INR w * gt y (i - k) ^ 2 else 0)).
    - apply (sum_ext (HA := CRing_R)). intros k Hk. destruct (Nat.ltb_spec k w).
      + f_equal. { unfold get. now rewrite nth_repeat_lt. } unfold get. rewrite (nth_map' (fun v => v ^ 2) y _ 0 _) by lia. reflexivity.
      + rewrite get_out by (rewrite repeat_length; lia). simpl. ring.
    - transitivity (sm (Nat.min w (S i)) (fun k => 1 / INR w * gt y (i - k) ^ 2)).
      + replace (S i) with (Nat.min w (S i) + (S i - Nat.min w (S i)))%nat at 1 by lia. rewrite (sum_split (HA := CRing_R)).
        rewrite (sum_zero' (HA := CRing_R) (S i - _)). 2:{ intros j Hj. destruct (Nat.ltb_spec (Nat.min w (S i) + j) w); [lia|reflexivity]. }
        simpl radd. rewrite Rplus_0_r. apply (sum_ext (HA := CRing_R)). intros j Hj. destruct (Nat.ltb_spec j w); [reflexivity|lia].
      + transitivity (1 / INR w * sm (Nat.min w (S i)) (fun d => gt y (i - d) ^ 2)). exact (sum_scal_l (HA := CRing_R) _ _ _). unfold Rdiv. ring. }
  assert (Q : 0 <= sm (Nat.min w (S i)) (fun d => gt y (i - d) ^ 2) / INR w).
  { apply Rmult_le_pos. apply rsum_nonneg. intros. apply pow2_ge_0. left. now apply Rinv_0_lt_compat. }
  rewrite E. split. apply sqrt_pos. now apply pow2_sqrt.
Qed.

(** RMS envelope of the stored, detrended samples y: the exact law; w = 1 gives the absolute value; never above the largest absolute value. *)
Theorem C100_rms w y i : (0 < w)%nat -> (i < length y)%nat ->
  let e := gt (rms_col w y) in
  length (rms_col w y) = length y /\ 0 <= e i /\ e i ^ 2 = sm (Nat.min w (S i)) (fun d => gt y (i - d) ^ 2) / INR w /\
  (w = 1%nat -> e i = Rabs (gt y i)) /\ (forall p, (forall j, (i < j + w)%nat -> (j <= i)%nat -> Rabs (gt y j) <= p) -> e i <= p).
Proof.
  intros Hw Hi e. destruct (rms_sq w y i Hw Hi) as (P & E). fold e in P, E. split. { unfold rms_col. now rewrite map_length, mk_length. } split; auto. split; auto. split.
  - intros ->. change (Nat.min 1 (S i)) with 1%nat in E. cbn [sum] in E. rewrite Nat.sub_0_r in E. simpl in E.
    rewrite <- (Rabs_pos_eq (e i)) by auto. apply Rsqr_eq_abs_0. unfold Rsqr. lra.
  - intros p Hp. assert (0 <= p). { eapply Rle_trans. apply Rabs_pos. apply (Hp i); lia. }
    assert (W : 0 < INR w) by (apply lt_0_INR; lia).
    assert (B : sm (Nat.min w (S i)) (fun d => gt y (i - d) ^ 2) <= INR w * p ^ 2).
    { eapply Rle_trans. apply (rsum_le _ _ (fun _ => p ^ 2)).
      - intros d Hd. rewrite <- (pow2_abs (gt y (i - d))). apply pow_incr. split. apply Rabs_pos. apply Hp; lia.
      - assert (C : forall m, sm m (fun _ => p ^ 2) = INR m * p ^ 2). { induction m. simpl. ring. cbn [sum]. rewrite IHm, S_INR. simpl. ring. }
        rewrite C. apply Rmult_le_compat_r. apply pow2_ge_0. apply le_INR. lia. }
    apply Rsqr_incr_0_var; auto. unfold Rsqr. replace (e i * e i) with (e i ^ 2) by ring. rewrite E. apply (Rmult_le_reg_r (INR w)); auto. unfold Rdiv. rewrite Rmult_assoc, Rinv_l by lra. lra.
Qed.
Print Assumptions C100_rms.
Example C100_rms_inst : gt (rms_col 2 [3; 4; 0]) 2 ^ 2 = 8 /\ gt (rms_col 1 [3; -4; 0]) 1 = 4.
Proof.
  split.
  - destruct (C100_rms 2 [3; 4; 0] 2 ltac:(lia) ltac:(simpl; lia)) as (_ & _ & E & _). rewrite E. unfold get. simpl. lra.
  - destruct (C100_rms 1 [3; -4; 0] 1 ltac:(lia) ltac:(simpl; lia)) as (_ & _ & _ & E & _). rewrite E by auto. unfold get. simpl. rewrite Rabs_left; lra.
Qed.
(** At the first w - 1 samples the sum of fewer squares is still divided by w: there the envelope is below the RMS of the samples so far, by sqrt((i + 1) / w). *)
Theorem C100_rms_start_refuted w y i : (S i < w)%nat -> (i < length y)%nat ->
  let m := sm (S i) (fun d => gt y (i - d) ^ 2) / INR (S i) in
  gt (rms_col w y) i ^ 2 = INR (S i) / INR w * m /\ (0 < m -> gt (rms_col w y) i ^ 2 < m).
Proof.
  intros Hw Hi m. destruct (rms_sq w y i ltac:(lia) Hi) as (_ & E). rewrite Nat.min_r in E by lia. assert (W : 0 < INR w) by (apply lt_0_INR; lia). assert (W' : 0 < INR (S i)) by (apply lt_0_INR; lia).
  assert (E' : gt (rms_col w y) i ^ 2 = INR (S i) / INR w * m). { rewrite E. unfold m. field. lra. }
  split; auto. intros Hm. rewrite E'. assert (INR (S i) / INR w < 1). { apply (Rmult_lt_reg_r (INR w)); auto. unfold Rdiv. rewrite Rmult_assoc, Rinv_l by lra. rewrite Rmult_1_r, Rmult_1_l. now apply lt_INR. }
  rewrite <- (Rmult_1_l m) at 2. now apply Rmult_lt_compat_r.
Qed.
Print Assumptions C100_rms_start_refuted.
Example C100_rms_start_inst : gt (rms_col 4 [1; 1; 1; 1; 1]) 0 ^ 2 = 1 / 4 /\ gt (rms_col 4 [1; 1; 1; 1; 1]) 4 ^ 2 = 1.
Proof.
  split.
  - destruct (C100_rms_start_refuted 4 [1; 1; 1; 1; 1] 0 ltac:(lia) ltac:(simpl; lia)) as (E & _). rewrite E. unfold get. simpl. lra.
  - destruct (C100_rms 4 [1; 1; 1; 1; 1] 4 ltac:(lia) ltac:(simpl; lia)) as (_ & _ & E & _). rewrite E. unfold get. simpl. lra.
Qed.

(** What envelope returns, for every signal and setting: of the signal detrended with a line, either the modulus of the analytic signal or the RMS
    envelope; it never lies below the absolute value of the detrended samples in the first case; a window is needed and must be positive in the second. *)
Theorem C100_envelope s n k : shape (s_re s) n k -> (1 <= k <= n)%nat -> (n * k <> 1)%nat ->
  exists s', detrend 1 s = Ok s' /\ shape (s_re s') n k /\
  (exists e, envelope true None s = Ok e /\ (forall w, envelope true w s = Ok e) /\ shape e n k /\
     forall i c, (i < n)%nat -> (c < k)%nat -> let z := nth i (analytic (nth c (s_re s') [])) (rc 0) in
       fst z = entry (s_re s') i c /\ 0 <= entry e i c /\ entry e i c ^ 2 = entry (s_re s') i c ^ 2 + snd z ^ 2 /\ Rabs (entry (s_re s') i c) <= entry e i c) /\
  envelope false None s = Err AssertionError /\
  forall w, ((w <= 0)%Z -> envelope false (Some w) s = Err AssertionError) /\
    ((0 < w)%Z -> exists e, envelope false (Some w) s = Ok e /\ shape e n k /\
       forall i c, (i < n)%nat -> (c < k)%nat -> 0 <= entry e i c /\
         entry e i c ^ 2 = sm (Nat.min (Z.to_nat w) (S i)) (fun d => entry (s_re s') (i - d) c ^ 2) / IZR w).
Proof.
  intros Sh Hk H1. destruct (C100_signal s n k 1 Sh Hk H1) as (_ & Q). destruct (Q ltac:(lia)) as (ys & s' & _ & _ & E & _ & _ & _ & F & _).
  exists s'. split; auto. split; auto. pose proof F as (Lk & Fl). unfold envelope. rewrite E. cbn [bind]. split; [|split].
  - exists (map (fun x => map cmod (analytic x)) (s_re s')). split; auto. split; auto. split.
    { rewrite <- Lk. apply shape_mk_map. intros x Hx. rewrite map_length. destruct (C76_hilbert x) as (L & _). rewrite L. rewrite Forall_forall in Fl. now apply Fl. }
    intros i c Hi Hc. set (z := nth i (analytic (nth c (s_re s') [])) (rc 0)). assert (Lc : length (nth c (s_re s') []) = n) by (apply (shape_len _ n k); auto).
    assert (R : fst z = entry (s_re s') i c). { unfold z. rewrite analytic_re by lia. reflexivity. }
    rewrite (entry_map _ _ []) by lia. rewrite (nth_map' cmod _ _ (rc 0) 0) by (destruct (C76_hilbert (nth c (s_re s') [])) as (L & _); lia). fold z.
    assert (P : 0 <= cmod z) by (unfold cmod; apply sqrt_pos).
    assert (S2 : cmod z ^ 2 = entry (s_re s') i c ^ 2 + snd z ^ 2). { rewrite <- R. replace (cmod z ^ 2) with (cmod z * cmod z) by ring. rewrite cmod_sq. unfold cabs2. ring. }
    split; auto. split; auto. split; auto. apply Rsqr_incr_0_var; auto. rewrite <- Rsqr_abs. unfold Rsqr. pose proof (pow2_ge_0 (snd z)). lra.
  - reflexivity.
  - intros w. split. { intros Hw. destruct (Z.leb_spec w 0); [reflexivity|lia]. } intros Hw. destruct (Z.leb_spec w 0); [lia|].
    exists (map (rms_col (Z.to_nat w)) (s_re s')). split; auto. split.
    { rewrite <- Lk. apply shape_mk_map. intros x Hx. unfold rms_col. rewrite map_length, mk_length. rewrite Forall_forall in Fl. now apply Fl. }
    intros i c Hi Hc. assert (Lc : length (nth c (s_re s') []) = n) by (apply (shape_len _ n k); auto). rewrite (entry_map _ _ []) by lia.
    destruct (rms_sq (Z.to_nat w) (nth c (s_re s') []) i ltac:(lia) ltac:(lia)) as (A & B). split; [exact A|].
    transitivity (gt (rms_col (Z.to_nat w) (nth c (s_re s') [])) i ^ 2). reflexivity. rewrite B. rewrite INR_IZR_INZ, Z2Nat.id by lia. reflexivity.
Qed.
Print Assumptions C100_envelope.
(** A signal plus any line per channel has the same envelope, with the same sampling rate and constraint setting. *)
Theorem C100_envelope_trend s t n k an w : shape (s_re s) n k -> shape (s_re t) n k -> s_constr s = s_constr t -> s_fs s = s_fs t ->
  (forall c, (c < k)%nat -> exists a b, forall i, (i < n)%nat -> entry (s_re t) i c = entry (s_re s) i c + (a + b * INR i)) ->
  envelope an w t = envelope an w s.
Proof.
  intros Ss St Hc Hf H. enough (E : detrend 1 t = detrend 1 s) by (unfold envelope; now rewrite E).
  unfold detrend. change (1 <? 0)%Z with false. cbv iota. change (Z.to_nat 1) with 1%nat. unfold set_data. rewrite Hc, Hf. f_equal. f_equal.
  pose proof Ss as (Ls & _). pose proof St as (Lt & _). apply (list_eq_nth []). rewrite !map_length. lia. rewrite map_length. intros c Hcc.
  rewrite !(nth_map' _ _ _ [] []) by lia. destruct (H c ltac:(lia)) as (a & b & G). assert (L1 : length (nth c (s_re s) []) = n) by (apply (shape_len _ n k); auto; lia). assert (L2 : length (nth c (s_re t) []) = n) by (apply (shape_len _ n k); auto; lia).
  rewrite <- (C100_trend 1 (nth c (s_re s) []) [a; b]) by (simpl; lia). f_equal. apply (list_eq_nth 0). rewrite mk_length. lia. intros i Hi. rewrite nth_mk by lia.
  change (nth i (nth c (s_re t) []) 0) with (entry (s_re t) i c). rewrite G by lia. unfold entry, get, poly. f_equal. simpl. unfold get. simpl. ring.
Qed.
Print Assumptions C100_envelope_trend.
Example C100_envelope_trend_inst : envelope false (Some 2%Z) (mkSig [[11; 12; 14]] None 1 false 48000%Z) = envelope false (Some 2%Z) (mkSig [[1; 2; 4]] None 1 false 48000%Z).
Proof.
  apply (C100_envelope_trend _ _ 3 1); auto; try (repeat constructor). intros c Hc. assert (c = 0)%nat by lia. subst c. exists 10, 0. intros i Hi. destruct i as [|[|[|]]]; [| | |lia]; unfold entry; simpl; ring.
Qed.
