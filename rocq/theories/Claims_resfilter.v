(** Property C110: resampling of a filter given by zeros and poles. *)
From Coq Require Import List Arith Lia ZArith Bool Reals Lra Psatz Field Permutation.
From Verif Require Import Alg Dft M_resfilter.
Import ListNotations.
Local Open Scope R_scope.

(** ** Specification *)
(** the frequency response at w (on the unit circle exp(i theta)) of the causal filter with zeros z, poles p and gain k *)
Definition response (z p : list C) (k : R) (w : C) : C :=
  cmul (cmul (rc k) (fold_right (fun v acc => cmul (csub (rc 1) (cmul v (cinv w))) acc) (rc 1) z))
       (cinv (fold_right (fun v acc => cmul (csub (rc 1) (cmul v (cinv w))) acc) (rc 1) p)).
Definition inside (v : C) : Prop := fst v * fst v + snd v * snd v < 1.
(** zeros or poles of a real filter: real or in conjugate pairs *)
Definition paired (l : list C) : Prop := Permutation (map cconj l) l.
Definition nyquist : C := (-1, 0).

(** ** Complex field *)
Lemma Cfield_th : field_theory (rc 0) (rc 1) cadd cmul csub copp (fun a b => cmul a (cinv b)) cinv eq.
Proof.
  constructor. exact crt. intros H. injection H. lra. auto. intros x Hx. assert (N : fst x * fst x + snd x * snd x <> 0) by (intros E; apply Hx; now apply c_norm_zero).
  apply c_ext; unfold cinv; simpl; field; exact N.
Qed.
Add Field Cf : Cfield_th.
Lemma rc_inj a b : rc a = rc b -> a = b. Proof. intros H. now injection H. Qed.
Lemma rc_inv a : a <> 0 -> rc (/ a) = cinv (rc a).
Proof. intros H. apply c_ext; unfold cinv, rc; cbn [fst snd]; field; auto. Qed.
Lemma cmul_0 x y : cmul x y = rc 0 -> x = rc 0 \/ y = rc 0.
Proof.
  intros H. destruct (Req_dec (cabs2 x) 0) as [E|E]. left. now apply c_norm_zero. right. assert (N : x <> rc 0) by (intros ->; apply E; unfold cabs2, rc; cbn [fst snd]; ring).
  transitivity (cmul (cinv x) (cmul x y)). field. exact N. rewrite H. ring.
Qed.
Lemma prod_ne l : (forall v, In v l -> v <> rc 0) -> cprod l <> rc 0.
Proof.
  induction l as [|a l IH]; intros H. intros E; apply rc_inj in E; lra. cbn [cprod fold_right]. intros E. apply cmul_0 in E as [E|E]. apply (H a); [now left|auto]. apply IH; auto. intros v Hv. apply H. now right.
Qed.
Lemma prod_app a b : cprod (a ++ b) = cmul (cprod a) (cprod b).
Proof. unfold cprod. induction a as [|v a IH]; cbn [app fold_right]. ring. rewrite IH. ring. Qed.
Fixpoint cpow (x : C) (n : nat) : C := match n with O => rc 1 | S m => cmul x (cpow x m) end.
Lemma prod_rep x n : cprod (repeat x n) = cpow x n. Proof. induction n; cbn; auto. now rewrite <- IHn. Qed.
Lemma map_rep {T U} (f : T -> U) x n : map f (repeat x n) = repeat (f x) n. Proof. induction n; cbn; auto. now rewrite IHn. Qed.
Lemma pow_ne x n : x <> rc 0 -> cpow x n <> rc 0.
Proof. intros H. rewrite <- prod_rep. apply prod_ne. intros v Hv. apply repeat_spec in Hv. now subst. Qed.
Lemma pow_add x n m : cpow x (n + m) = cmul (cpow x n) (cpow x m). Proof. induction n; cbn. ring. rewrite IHn. ring. Qed.
Lemma prod_perm a b : Permutation a b -> cprod a = cprod b.
Proof.
  intros H. induction H; cbn [cprod fold_right]; auto.
  - unfold cprod in IHPermutation. now rewrite IHPermutation.
  - ring.
  - congruence.
Qed.
Lemma prod_conj l : cconj (cprod l) = cprod (map cconj l).
Proof. induction l as [|a l IH]; cbn [cprod fold_right map]. apply c_ext; unfold cconj, rc; cbn [fst snd]; ring. rewrite cconj_mul. unfold cprod in IH. now rewrite IH. Qed.
Lemma eqb_true u v : c_eqb u v = true <-> u = v.
Proof.
  unfold c_eqb. destruct u as [a b], v as [c d]. cbn [fst snd]. destruct (Req_EM_T a c), (Req_EM_T b d); cbn; split; intros H; try discriminate; subst; auto; injection H; intros; contradiction.
Qed.
Lemma eqb_false u v : c_eqb u v = false <-> u <> v.
Proof. pose proof (eqb_true u v). destruct (c_eqb u v); split; intros; try discriminate; auto. elim H0. now apply H. intros E. apply H in E. discriminate. Qed.

(** ** The bilinear transform *)
Definition plain (z p : list C) (k : C) (w : C) : C := cmul (cmul k (cprod (map (csub w) z))) (cinv (cprod (map (csub w) p))).
Definition ratio (f : R) (z p : list C) : C := cmul (cprod (map (csub (rc f)) z)) (cinv (cprod (map (csub (rc f)) p))).
Lemma two_ne g : 0 < g -> cmul (rc 2) (rc g) <> rc 0.
Proof. intros H E. rewrite <- rc_mul in E. apply rc_inj in E. lra. Qed.
Lemma digital_diff g s a : csub (rc g) s <> rc 0 -> csub (rc g) a <> rc 0 ->
  csub (to_digital g s) (to_digital g a) = cmul (cmul (cmul (rc 2) (rc g)) (cinv (csub (rc g) s))) (cmul (csub s a) (cinv (csub (rc g) a))).
Proof. intros H1 H2. unfold to_digital. replace (rc 2) with (cadd (rc 1) (rc 1)) by (rewrite <- rc_add; f_equal; ring). field. auto. Qed.
Lemma digital_ny g s : csub (rc g) s <> rc 0 -> csub (to_digital g s) (rc (-1)) = cmul (cmul (rc 2) (rc g)) (cinv (csub (rc g) s)).
Proof. intros H1. unfold to_digital. replace (rc 2) with (cadd (rc 1) (rc 1)) by (rewrite <- rc_add; f_equal; ring). replace (rc (-1)) with (copp (rc 1)) by (apply c_ext; unfold rc, copp; cbn; ring). field. auto. Qed.
Lemma digital_prod g s l : csub (rc g) s <> rc 0 -> (forall a, In a l -> csub (rc g) a <> rc 0) ->
  cprod (map (csub (to_digital g s)) (map (to_digital g) l)) =
  cmul (cpow (cmul (cmul (rc 2) (rc g)) (cinv (csub (rc g) s))) (length l)) (cmul (cprod (map (csub s) l)) (cinv (cprod (map (csub (rc g)) l)))).
Proof.
  intros H1. induction l as [|a l IH]; intros H2. cbn. field. intros E. apply rc_inj in E. lra.
  cbn [map cprod fold_right length cpow]. unfold cprod in IH. rewrite IH by (intros; apply H2; now right). rewrite digital_diff by (auto; apply H2; now left).
  field. split; [|split]; auto. 2: apply H2; now left. apply (prod_ne (map (csub (rc g)) l)). intros v Hv. apply in_map_iff in Hv as (q & <- & Hq). apply H2. now right.
Qed.
Lemma value g s A B k : 0 < g -> (length A <= length B)%nat -> csub (rc g) s <> rc 0 -> (forall a, In a (A ++ B) -> csub (rc g) a <> rc 0) -> (forall b, In b B -> csub s b <> rc 0) ->
  plain (map (to_digital g) A ++ repeat (rc (-1)) (length B - length A)) (map (to_digital g) B) (cmul k (ratio g A B)) (to_digital g s) =
  cmul k (cmul (cprod (map (csub s) A)) (cinv (cprod (map (csub s) B)))).
Proof.
  intros G L H1 H2 H3. unfold plain. rewrite map_app, prod_app, !digital_prod by (auto; intros a Ha; apply H2; apply in_or_app; auto).
  rewrite map_rep.
  rewrite prod_rep, digital_ny by auto. set (q := cmul (cmul (rc 2) (rc g)) (cinv (csub (rc g) s))).
  assert (Q : q <> rc 0). { intros E. apply cmul_0 in E as [E|E]. now apply (two_ne g). assert (K : cmul (csub (rc g) s) (cinv (csub (rc g) s)) = rc 1) by (field; auto). rewrite E in K. assert (K' : rc 0 = rc 1) by (rewrite <- K; ring). apply rc_inj in K'. lra. }
  replace (cpow q (length B)) with (cmul (cpow q (length A)) (cpow q (length B - length A))) by (rewrite <- pow_add; f_equal; lia).
  unfold ratio. assert (N1 : forall l, incl l (A ++ B) -> cprod (map (csub (rc g)) l) <> rc 0).
  { intros l I. apply prod_ne. intros v Hv. apply in_map_iff in Hv as (w & <- & Hw). apply H2. now apply I. }
  assert (N2 : cprod (map (csub s) B) <> rc 0). { apply prod_ne. intros v Hv. apply in_map_iff in Hv as (w & <- & Hw). now apply H3. }
  pose proof (N1 A ltac:(intros v Hv; apply in_or_app; auto)). pose proof (N1 B ltac:(intros v Hv; apply in_or_app; auto)). pose proof (pow_ne q (length A) Q). pose proof (pow_ne q (length B - length A) Q).
  field. repeat split; auto.
Qed.

(** ** The steps of the function *)
Lemma analog_digital f v : 0 < f -> v <> rc (-1) -> csub (rc f) (to_analog f v) <> rc 0 /\ to_digital f (to_analog f v) = v.
Proof.
  intros F N. assert (N' : cadd v (rc 1) <> rc 0). { intros E. apply N. transitivity (csub (cadd v (rc 1)) (rc 1)). ring. rewrite E. apply c_ext; unfold csub, rc; cbn; ring. }
  assert (E2 : cadd (rc 1) (rc 1) = rc 2) by (rewrite <- rc_add; f_equal; ring).
  assert (D : csub (rc f) (to_analog f v) = cmul (cmul (rc 2) (rc f)) (cinv (cadd v (rc 1)))). { unfold to_analog. rewrite <- E2. field. auto. }
  assert (NZ : csub (rc f) (to_analog f v) <> rc 0).
  { rewrite D. intros E. apply cmul_0 in E as [E|E]. now apply (two_ne f). assert (K : cmul (cadd v (rc 1)) (cinv (cadd v (rc 1))) = rc 1) by (field; auto). rewrite E in K.
    assert (K' : rc 0 = rc 1) by (rewrite <- K; ring). apply rc_inj in K'. lra. }
  split; auto. unfold to_digital. rewrite D. unfold to_analog. pose proof (two_ne f F) as T. rewrite <- E2 in *.
  assert (rc f <> rc 0) by (intros E; apply rc_inj in E; lra). assert (cadd (rc 1) (rc 1) <> rc 0) by (rewrite E2; intros E; apply rc_inj in E; lra). field. auto.
Qed.
Lemma analog_conj f v : cconj (to_analog f v) = to_analog f (cconj v).
Proof. unfold to_analog. apply c_ext; unfold cconj, cmul, cinv, csub, cadd, rc; cbn [fst snd]; unfold Rdiv; replace ((- snd v + 0) * (- snd v + 0)) with ((snd v + 0) * (snd v + 0)) by ring; ring. Qed.
Lemma digital_conj f v : cconj (to_digital f v) = to_digital f (cconj v).
Proof. unfold to_digital. apply c_ext; unfold cconj, cmul, cinv, csub, cadd, rc; cbn [fst snd]; unfold Rdiv; replace ((0 - - snd v) * (0 - - snd v)) with ((0 - snd v) * (0 - snd v)) by ring; ring. Qed.
Lemma paired_map h l : (forall v, cconj (h v) = h (cconj v)) -> paired l -> paired (map h l).
Proof. intros H P. unfold paired in *. rewrite map_map. rewrite (map_ext _ (fun v => h (cconj v))) by auto. rewrite <- (map_map cconj h). now apply Permutation_map. Qed.
Lemma paired_app a b : paired a -> paired b -> paired (a ++ b).
Proof. unfold paired. intros. rewrite map_app. now apply Permutation_app. Qed.
Lemma paired_rep r n : paired (repeat (rc r) n).
Proof. unfold paired. rewrite map_rep. replace (cconj (rc r)) with (rc r) by (apply c_ext; unfold cconj, rc; cbn; ring). apply Permutation_refl. Qed.
Lemma filter_perm {T} (f : T -> bool) a b : Permutation a b -> Permutation (filter f a) (filter f b).
Proof.
  intros H. induction H; cbn [filter]; auto.
  - destruct (f x); auto.
  - destruct (f x), (f y); auto. apply perm_swap.
  - eapply Permutation_trans; eauto.
Qed.
Definition keep (l : list C) : list C := filter (fun v => negb (c_eqb v (rc (-1)))) l.
Lemma paired_keep l : paired l -> paired (keep l).
Proof.
  intros P. unfold paired, keep. apply (filter_perm (fun v => negb (c_eqb v (rc (-1))))) in P.
  replace (map cconj (filter (fun v => negb (c_eqb v (rc (-1)))) l)) with (filter (fun v => negb (c_eqb v (rc (-1)))) (map cconj l)); auto.
  clear P. induction l as [|a l IH]; auto. cbn [map filter]. replace (c_eqb (cconj a) (rc (-1))) with (c_eqb a (rc (-1))).
  destruct (negb _); cbn [map]; now rewrite IH. unfold c_eqb, cconj, rc. cbn [fst snd]. f_equal. destruct (Req_EM_T (snd a) 0), (Req_EM_T (- snd a) 0); auto; lra.
Qed.
Lemma ratio_real f A B : paired A -> paired B -> (forall b, In b B -> csub (rc f) b <> rc 0) -> rc (gain_factor f A B) = ratio f A B.
Proof.
  intros PA PB N. unfold gain_factor. fold (ratio f A B). set (q := ratio f A B). assert (E : cconj q = q).
  { assert (PR : forall l, paired l -> cconj (cprod (map (csub (rc f)) l)) = cprod (map (csub (rc f)) l)).
    { intros l P. rewrite prod_conj. apply prod_perm. apply (paired_map (csub (rc f))); auto. intros v. apply c_ext; unfold cconj, csub, rc; cbn; ring. }
    unfold q, ratio. rewrite cconj_mul, PR by auto. f_equal. set (y := cprod (map (csub (rc f)) B)). assert (cconj y = y) by now apply PR.
    assert (Y : snd y = 0). { clearbody y. destruct y as [a b]. unfold cconj in H. cbn [fst snd] in *. injection H as H. lra. } apply c_ext; unfold cconj, cinv; cbn [fst snd]; auto. rewrite Y. unfold Rdiv. ring. }
  clearbody q. destruct q as [a b]. unfold cconj, rc in *. cbn [fst snd] in *. injection E as E. f_equal. lra.
Qed.
Lemma prod_keep w l : cprod (map (csub w) l) = cprod (map (csub w) (keep l ++ repeat (rc (-1)) (length l - length (keep l)))).
Proof.
  assert (LK : forall l, (length (keep l) <= length l)%nat). { clear. induction l as [|a l IH]; cbn [keep filter length]; auto. unfold keep in IH. destruct (negb _); cbn [length]; lia. }
  induction l as [|a l IH]. reflexivity. specialize (LK l). rewrite map_app, prod_app in *. cbn [keep filter map length]. fold (keep l). destruct (c_eqb a (rc (-1))) eqn:E; cbn [negb].
  - apply eqb_true in E. subst a. replace (S (length l) - length (keep l))%nat with (S (length l - length (keep l))) by lia. cbn [repeat map cprod fold_right]. unfold cprod in *. rewrite IH. ring.
  - cbn [length map Nat.sub cprod fold_right]. unfold cprod in *. rewrite IH. ring.
Qed.
Lemma keep_in v l : In v (keep l) <-> In v l /\ v <> rc (-1).
Proof. unfold keep. rewrite filter_In. destruct (c_eqb v (rc (-1))) eqn:E; cbn [negb]. apply eqb_true in E. split; intros []; [discriminate|contradiction]. apply eqb_false in E. tauto. Qed.
Lemma resp_pad z p k w n m : w <> rc 0 -> response (z ++ repeat (rc 0) n) (p ++ repeat (rc 0) m) k w = response z p k w.
Proof.
  intros W. assert (P : forall l n, fold_right (fun v acc => cmul (csub (rc 1) (cmul v (cinv w))) acc) (rc 1) (l ++ repeat (rc 0) n) = fold_right (fun v acc => cmul (csub (rc 1) (cmul v (cinv w))) acc) (rc 1) l).
  { intros l q. rewrite fold_right_app. f_equal. induction q; cbn [repeat fold_right]; auto. rewrite IHq. ring. }
  unfold response. now rewrite !P.
Qed.
Lemma resp_plain z p k w : w <> rc 0 -> length z = length p -> (forall v, In v p -> csub w v <> rc 0) -> response z p k w = plain z p (rc k) w.
Proof.
  intros W L N. assert (P : forall l, fold_right (fun v acc => cmul (csub (rc 1) (cmul v (cinv w))) acc) (rc 1) l = cmul (cprod (map (csub w) l)) (cinv (cpow w (length l)))).
  { induction l as [|a l IH]; cbn [fold_right map length cpow cprod]. field. intros E; apply rc_inj in E; lra. rewrite IH. unfold cprod. field. split; auto. now apply pow_ne. }
  unfold response, plain. rewrite !P, L. assert (cprod (map (csub w) p) <> rc 0). { apply prod_ne. intros v Hv. apply in_map_iff in Hv as (q & <- & Hq). now apply N. }
  field. split; auto. now apply pow_ne.
Qed.
Lemma inside_ny v : inside v -> v <> rc (-1).
Proof. intros H ->. unfold inside, rc in H. cbn [fst snd] in H. lra. Qed.
Lemma analog_left f v : 0 < f -> inside v -> fst (to_analog f v) < 0.
Proof.
  intros F H. destruct v as [x y]. unfold inside in H. cbn [fst snd] in H.
  assert (D : 0 < (x + 1) * (x + 1) + (y + 0) * (y + 0)). { assert (-1 < x) by nra. nra. }
  replace (fst (to_analog f (x, y))) with (- (f * (1 - (x * x + y * y)) / ((x + 1) * (x + 1) + (y + 0) * (y + 0)))).
  - assert (0 < f * (1 - (x * x + y * y)) / ((x + 1) * (x + 1) + (y + 0) * (y + 0))) by (apply Rdiv_lt_0_compat; auto; nra). lra.
  - unfold to_analog, cmul, cinv, csub, cadd, rc. cbn [fst snd]. field. lra.
Qed.
Lemma digital_inside g b : 0 < g -> fst b < 0 -> inside (to_digital g b).
Proof.
  intros G H. destruct b as [x y]. cbn [fst] in H. unfold inside. set (d := (g - x) * (g - x) + (0 - y) * (0 - y)). assert (D : 0 < d) by (unfold d; nra).
  replace (fst (to_digital g (x, y)) * fst (to_digital g (x, y)) + snd (to_digital g (x, y)) * snd (to_digital g (x, y))) with (((g + x) * (g + x) + y * y) / d).
  - apply Rmult_lt_reg_r with d; auto. unfold Rdiv. rewrite Rmult_assoc, Rinv_l by lra. unfold d. nra.
  - unfold to_digital, cmul, cinv, csub, cadd, rc. cbn [fst snd]. unfold d in *. field. lra.
Qed.
Lemma analog_0 f : to_analog f (rc 0) = rc (- f).
Proof. unfold to_analog, cmul, cinv, csub, cadd, rc. cbn [fst snd]. f_equal; field. Qed.
Lemma keep_all l : ~ In nyquist l -> keep l = l.
Proof.
  intros H. unfold keep. induction l as [|a l IH]; auto. cbn [filter]. destruct (c_eqb a (rc (-1))) eqn:E. apply eqb_true in E. elim H. left. auto.
  cbn [negb]. f_equal. apply IH. intros K. apply H. now right.
Qed.
Lemma keep_app a b : keep (a ++ b) = keep a ++ keep b. Proof. apply filter_app. Qed.
Lemma keep_zeros n : keep (repeat (rc 0) n) = repeat (rc 0) n.
Proof. apply keep_all. intros H. apply repeat_spec in H. unfold nyquist, rc in H. injection H. lra. Qed.
Lemma no_eqb (l : list C) c : ~ In c l -> existsb (fun v => c_eqb v c) l = false.
Proof. intros H. destruct (existsb _ l) eqn:E; auto. apply existsb_exists in E as (v & Hv & E). apply eqb_true in E. subst. contradiction. Qed.
(** the lists of the filter, with zeros or poles at the origin up to equal number *)
Definition zeros_of (z p : list C) : list C := z ++ repeat (rc 0) (length p - length z).
Definition poles_of (z p : list C) : list C := p ++ repeat (rc 0) (length z - length p).
Lemma resample_form fs new z p k : (0 < fs)%Z -> (0 < new)%Z -> (forall v, In v p -> inside v) ->
  (forall v, In v z -> cmul (rc (IZR fs - IZR new)) v <> rc (IZR fs + IZR new)) -> (length z = length p \/ ~ In nyquist z) ->
  let f := 2 * IZR fs in let g := 2 * IZR new in let A := map (to_analog f) (keep (zeros_of z p)) in let B := map (to_analog f) (poles_of z p) in
  (forall b, In b B -> fst b < 0) /\ (forall a, In a (A ++ B) -> csub (rc g) a <> rc 0 /\ csub (rc f) a <> rc 0) /\
  resample_filter fs new z p k = Some (map (to_digital g) A ++ repeat (rc (-1)) (length B - length A), map (to_digital g) B, k / gain_factor f A B * gain_factor g A B).
Proof.
  intros Hf Hg IP NZ HC f g A B. assert (F : 0 < f) by (apply IZR_lt in Hf; unfold f; lra). assert (G : 0 < g) by (apply IZR_lt in Hg; unfold g; lra).
  assert (IPP : forall v, In v (poles_of z p) -> inside v). { intros v Hv. apply in_app_or in Hv as [Hv|Hv]; auto. apply repeat_spec in Hv. subst v. unfold inside, rc. cbn [fst snd]. lra. }
  assert (HB : forall b, In b B -> fst b < 0). { intros b Hb. unfold B in Hb. apply in_map_iff in Hb as (v & <- & Hv). apply analog_left; auto. }
  assert (HG : forall a, In a (A ++ B) -> a <> rc g).
  { intros a Ha E. apply in_app_or in Ha as [Ha|Ha].
    - unfold A in Ha. apply in_map_iff in Ha as (v & Ev & Hv). apply keep_in in Hv as (Hv & N). apply in_app_or in Hv as [Hv|Hv].
      + apply (NZ v Hv). assert (N' : cadd v (rc 1) <> rc 0). { intros K. apply N. transitivity (csub (cadd v (rc 1)) (rc 1)). ring. rewrite K. apply c_ext; unfold csub, rc; cbn; ring. }
        assert (Q : cmul (rc f) (csub v (rc 1)) = cmul (rc g) (cadd v (rc 1))). { rewrite <- E, <- Ev. unfold to_analog. field. auto. }
        unfold f, g in Q. destruct v as [x y]. unfold cmul, csub, cadd, rc in *. cbn [fst snd] in *. injection Q as Q1 Q2. f_equal; lra.
      + apply repeat_spec in Hv. subst v. rewrite analog_0 in Ev. rewrite E in Ev. apply rc_inj in Ev. lra.
    - specialize (HB a Ha). subst a. unfold rc in HB. cbn [fst] in HB. lra. }
  split; auto. split.
  { intros a Ha. split. intros E. apply (HG a Ha). transitivity (csub (rc g) (csub (rc g) a)). ring. rewrite E. apply c_ext; unfold csub, rc; cbn; ring.
    assert (AN : forall v, v <> rc (-1) -> csub (rc f) (to_analog f v) <> rc 0) by (intros v Hv; now apply analog_digital).
    apply in_app_or in Ha as [Ha|Ha]; apply in_map_iff in Ha as (v & <- & Hv); apply AN. now apply keep_in in Hv. now apply inside_ny, IPP. }
  assert (EA : A = map (to_analog f) (keep z) ++ repeat (rc (- f)) (length p - length z)).
  { unfold A, zeros_of. rewrite keep_app, keep_zeros, map_app, map_rep. now rewrite analog_0. }
  assert (EB : B = map (to_analog f) p ++ repeat (rc (- f)) (length z - length p)).
  { unfold B, poles_of. rewrite map_app, map_rep. now rewrite analog_0. }
  unfold resample_filter. rewrite no_eqb. 2: { intros K. apply IP in K. unfold inside, rc in K. cbn [fst snd] in K. lra. }
  fold f g (keep z). rewrite !map_length.
  assert (E1 : (if (length p <? length z)%nat then map (to_analog f) p ++ repeat (rc (- f)) (length (keep z) - length p) else map (to_analog f) p) = B).
  { rewrite EB. destruct (Nat.ltb_spec (length p) (length z)). destruct HC as [HC|HC]; [lia|]. now rewrite keep_all. replace (length z - length p)%nat with 0%nat by lia. cbn [repeat]. now rewrite app_nil_r. }
  rewrite E1.
  assert (E2 : (if (length z <? length p)%nat then map (to_analog f) (keep z) ++ repeat (rc (- f)) (length B - length (keep z)) else map (to_analog f) (keep z)) = A).
  { rewrite EA. destruct (Nat.ltb_spec (length z) (length p)). destruct HC as [HC|HC]; [lia|]. rewrite keep_all by auto. rewrite EB, app_length, map_length, repeat_length. do 2 f_equal. lia.
    replace (length p - length z)%nat with 0%nat by lia. cbn [repeat]. now rewrite app_nil_r. }
  rewrite E2. rewrite no_eqb by (intros K; now apply (HG _ K)). reflexivity.
Qed.
(** Every stable real filter whose zeros and poles are equal in number or that has no zero at half the sampling rate: the new filter is stable and
    real, and its response at w' is the response of the old one at w whenever fs (w-1)/(w+1) = new (w'-1)/(w'+1). No zero may lie at the real
    point that the transform sends to infinity, which is outside the unit circle. *)
Theorem C110_response fs new z p k : (0 < fs)%Z -> (0 < new)%Z -> paired z -> paired p -> (forall v, In v p -> inside v) ->
  (forall v, In v z -> cmul (rc (IZR fs - IZR new)) v <> rc (IZR fs + IZR new)) -> (length z = length p \/ ~ In nyquist z) ->
  exists z' p' k', resample_filter fs new z p k = Some (z', p', k') /\ length z' = length p' /\ length p' = Nat.max (length z) (length p) /\
    paired z' /\ paired p' /\ (forall v, In v p' -> inside v) /\
    forall w w', w <> rc 0 -> w' <> rc 0 -> w <> nyquist -> w' <> nyquist -> ~ In w p ->
      cmul (rc (IZR fs)) (cmul (csub w (rc 1)) (cadd w' (rc 1))) = cmul (rc (IZR new)) (cmul (csub w' (rc 1)) (cadd w (rc 1))) ->
      response z' p' k' w' = response z p k w.
Proof.
  intros Hf Hg PZ PP IP NZ HC. destruct (resample_form fs new z p k Hf Hg IP NZ HC) as (HB & HN & E). cbv zeta in *. set (f := 2 * IZR fs) in *. set (g := 2 * IZR new) in *.
  set (A := map (to_analog f) (keep (zeros_of z p))) in *. set (B := map (to_analog f) (poles_of z p)) in *.
  assert (F : 0 < f) by (apply IZR_lt in Hf; unfold f; lra). assert (G : 0 < g) by (apply IZR_lt in Hg; unfold g; lra).
  assert (LZ : length (zeros_of z p) = length (poles_of z p)) by (unfold zeros_of, poles_of; rewrite !app_length, !repeat_length; lia).
  assert (LK : (length (keep (zeros_of z p)) <= length (zeros_of z p))%nat). { unfold keep. generalize (zeros_of z p). induction l; cbn [filter length]; auto. destruct (negb _); cbn [length]; lia. }
  assert (LA : (length A <= length B)%nat) by (unfold A, B; rewrite !map_length; lia).
  assert (PA : paired A). { apply paired_map. intros; apply analog_conj. apply paired_keep, paired_app; auto. apply paired_rep. }
  assert (PB : paired B). { apply paired_map. intros; apply analog_conj. apply paired_app; auto. apply paired_rep. }
  do 3 eexists. split; [exact E|]. rewrite app_length, repeat_length, !map_length. split; [unfold A, B in *; rewrite !map_length in *; lia|].
  split. { unfold B, poles_of. rewrite map_length, app_length, repeat_length. lia. }
  split. { apply paired_app. apply paired_map; auto. intros; apply digital_conj. apply paired_rep. }
  split. { apply paired_map; auto. intros; apply digital_conj. }
  split. { intros v Hv. apply in_map_iff in Hv as (b & <- & Hb). apply digital_inside; auto. }
  intros w w' W W' N N' WP EQ. set (s := to_analog f w).
  assert (P1 : cadd w (rc 1) <> rc 0). { intros K. apply N. transitivity (csub (cadd w (rc 1)) (rc 1)). ring. rewrite K. apply c_ext; unfold csub, rc, nyquist; cbn; ring. }
  assert (P1' : cadd w' (rc 1) <> rc 0). { intros K. apply N'. transitivity (csub (cadd w' (rc 1)) (rc 1)). ring. rewrite K. apply c_ext; unfold csub, rc, nyquist; cbn; ring. }
  assert (ES : s = to_analog g w').
  { unfold s, to_analog, f, g. rewrite !rc_mul. transitivity (cmul (rc 2) (cmul (cmul (rc (IZR fs)) (cmul (csub w (rc 1)) (cadd w' (rc 1)))) (cmul (cinv (cadd w (rc 1))) (cinv (cadd w' (rc 1)))))). field; auto. rewrite EQ. field; auto. }
  destruct (analog_digital f w F N) as (S1 & D1). destruct (analog_digital g w' G N') as (S2 & D2). fold s in S1, D1. rewrite <- ES in S2, D2.
  assert (WPP : ~ In w (poles_of z p)). { intros K. apply in_app_or in K as [K|K]; auto. apply repeat_spec in K. auto. }
  assert (IPP : forall v, In v (poles_of z p) -> inside v). { intros v Hv. apply in_app_or in Hv as [Hv|Hv]; auto. apply repeat_spec in Hv. subst v. unfold inside, rc. cbn [fst snd]. lra. }
  assert (SB : forall b, In b B -> csub s b <> rc 0).
  { intros b Hb K. assert (s = b). { transitivity (cadd (csub s b) b). ring. rewrite K. ring. } unfold B in Hb. apply in_map_iff in Hb as (v & Ev & Hv). apply WPP.
    destruct (analog_digital f v F (inside_ny v (IPP v Hv))) as (_ & D). rewrite <- D1, H, <- Ev, D. exact Hv. }
  set (m := rc (k / gain_factor f A B)).
  assert (GF : forall h, (forall a, In a (A ++ B) -> csub (rc h) a <> rc 0) -> rc (gain_factor h A B) = ratio h A B /\ gain_factor h A B <> 0).
  { intros h Hh. assert (Q : rc (gain_factor h A B) = ratio h A B) by (apply ratio_real; auto; intros; apply Hh; apply in_or_app; auto). split; auto. intros K. rewrite K in Q. symmetry in Q. unfold ratio in Q. apply cmul_0 in Q as [Q|Q].
    - apply (prod_ne (map (csub (rc h)) A)); auto. intros v Hv. apply in_map_iff in Hv as (q & <- & Hq). apply Hh. apply in_or_app; auto.
    - assert (NB : cprod (map (csub (rc h)) B) <> rc 0). { apply prod_ne. intros v Hv. apply in_map_iff in Hv as (q & <- & Hq). apply Hh. apply in_or_app; auto. }
      assert (K1 : cmul (cprod (map (csub (rc h)) B)) (cinv (cprod (map (csub (rc h)) B))) = rc 1) by (field; auto). rewrite Q in K1. assert (K' : rc 0 = rc 1) by (rewrite <- K1; ring). apply rc_inj in K'. lra. }
  destruct (GF g ltac:(intros a Ha; now apply HN)) as (Gg & _). destruct (GF f ltac:(intros a Ha; now apply HN)) as (Gf & NGf).
  transitivity (cmul m (cmul (cprod (map (csub s) A)) (cinv (cprod (map (csub s) B))))).
  - rewrite resp_plain; auto.
    + rewrite rc_mul, Gg. fold m. rewrite <- D2. apply value; auto. intros a Ha. now apply HN.
    + rewrite app_length, repeat_length, !map_length. unfold A, B in *. rewrite !map_length in *. lia.
    + intros v Hv. apply in_map_iff in Hv as (b & <- & Hb). rewrite <- D2. rewrite digital_diff; auto. 2: apply HN, in_or_app; auto.
      assert (I : forall x, x <> rc 0 -> cinv x <> rc 0). { intros x Hx K. assert (K1 : cmul x (cinv x) = rc 1) by (field; auto). rewrite K in K1. assert (K' : rc 0 = rc 1) by (rewrite <- K1; ring). apply rc_inj in K'. lra. }
      intros K. apply cmul_0 in K as [K|K]; apply cmul_0 in K as [K|K]. now apply (two_ne g). now apply (I _ S2). now apply (SB b). apply (I (csub (rc g) b)); auto. apply HN, in_or_app; auto.
  - rewrite <- (resp_pad z p k w (length p - length z) (length z - length p)) by auto. fold (zeros_of z p) (poles_of z p). rewrite resp_plain; auto.
    + rewrite <- (value f s A B m); auto. 2: intros a Ha; now apply HN. rewrite D1. unfold m. rewrite <- Gf, <- rc_mul. replace (k / gain_factor f A B * gain_factor f A B) with k by (field; auto).
      unfold plain. assert (EB : map (to_digital f) B = poles_of z p). { unfold B. rewrite map_map. transitivity (map (fun v => v) (poles_of z p)); [|apply map_id]. apply map_ext_in. intros v Hv. apply analog_digital; auto. now apply inside_ny, IPP. }
      assert (EA : map (to_digital f) A = keep (zeros_of z p)). { unfold A. rewrite map_map. transitivity (map (fun v => v) (keep (zeros_of z p))); [|apply map_id]. apply map_ext_in. intros v Hv. apply analog_digital; auto. now apply keep_in in Hv. }
      rewrite EB, EA. rewrite (prod_keep w (zeros_of z p)). unfold A, B. rewrite !map_length, <- LZ. reflexivity.
    + intros v Hv K. apply WPP. replace w with v; auto. transitivity (csub w (csub w v)). ring. rewrite K. apply c_ext; unfold csub, rc; cbn; ring.
Qed.
Print Assumptions C110_response.
Definition at_angle (t : R) : C := (cos t, sin t).
Lemma angle_ne0 t : at_angle t <> rc 0.
Proof. intros E. unfold at_angle, rc in E. injection E as E1 E2. pose proof (sin2_cos2 t) as Q. unfold Rsqr in Q. rewrite E1, E2 in Q. lra. Qed.
Lemma angle_out t : ~ inside (at_angle t).
Proof. unfold inside, at_angle. cbn [fst snd]. pose proof (sin2_cos2 t) as Q. unfold Rsqr in Q. lra. Qed.
Lemma angle_ny t : - PI < t < PI -> at_angle t <> nyquist.
Proof.
  intros H E. unfold at_angle, nyquist in E. injection E as E _. assert (0 < cos (t / 2)) by (apply cos_gt_0; lra).
  replace t with (2 * (t / 2)) in E by field. rewrite cos_2a_cos in E. nra.
Qed.
(** On the unit circle: the response at one frequency appears at the frequency whose tangent of half the angle is smaller by the ratio of the rates. *)
Theorem C110_frequency fs new z p k t t' : (0 < fs)%Z -> (0 < new)%Z -> paired z -> paired p -> (forall v, In v p -> inside v) ->
  (forall v, In v z -> cmul (rc (IZR fs - IZR new)) v <> rc (IZR fs + IZR new)) -> (length z = length p \/ ~ In nyquist z) ->
  - PI < t < PI -> - PI < t' < PI -> IZR fs * tan (t / 2) = IZR new * tan (t' / 2) ->
  exists z' p' k', resample_filter fs new z p k = Some (z', p', k') /\ response z' p' k' (at_angle t') = response z p k (at_angle t).
Proof.
  intros Hf Hg PZ PP IP NZ HC T T' EQ. destruct (C110_response fs new z p k Hf Hg PZ PP IP NZ HC) as (z' & p' & k' & E & _ & _ & _ & _ & _ & R). exists z', p', k'. split; auto.
  apply R; try apply angle_ne0; try (now apply angle_ny). { intros K. apply IP in K. now apply (angle_out t). }
  assert (C : 0 < cos (t / 2)) by (apply cos_gt_0; lra). assert (C' : 0 < cos (t' / 2)) by (apply cos_gt_0; lra).
  assert (S : IZR fs * sin (t / 2) * cos (t' / 2) = IZR new * sin (t' / 2) * cos (t / 2)).
  { unfold tan in EQ. apply Rmult_eq_reg_r with (/ (cos (t / 2) * cos (t' / 2))); [|apply Rinv_neq_0_compat; nra].
    transitivity (IZR fs * (sin (t / 2) / cos (t / 2))). field; lra. rewrite EQ. field; lra. }
  unfold at_angle. replace (cos t) with (cos (2 * (t / 2))) by (f_equal; field). replace (sin t) with (sin (2 * (t / 2))) by (f_equal; field).
  replace (cos t') with (cos (2 * (t' / 2))) by (f_equal; field). replace (sin t') with (sin (2 * (t' / 2))) by (f_equal; field). rewrite !cos_2a, !sin_2a.
  pose proof (sin2_cos2 (t / 2)) as Q. pose proof (sin2_cos2 (t' / 2)) as Q'. unfold Rsqr in Q, Q'.
  set (s := sin (t / 2)) in *. set (c := cos (t / 2)) in *. set (s' := sin (t' / 2)) in *. set (c' := cos (t' / 2)) in *.
  assert (W1 : csub (c * c - s * s, 2 * s * c) (rc 1) = cmul (rc (2 * s)) (- s, c)). { apply c_ext; unfold csub, cmul, rc; cbn [fst snd]; try ring. transitivity (c * c - s * s - (s * s + c * c)). rewrite Q; ring. ring. }
  assert (W2 : cadd (c * c - s * s, 2 * s * c) (rc 1) = cmul (rc (2 * c)) (c, s)). { apply c_ext; unfold cadd, cmul, rc; cbn [fst snd]; try ring. transitivity (c * c - s * s + (s * s + c * c)). rewrite Q; ring. ring. }
  assert (W1' : csub (c' * c' - s' * s', 2 * s' * c') (rc 1) = cmul (rc (2 * s')) (- s', c')). { apply c_ext; unfold csub, cmul, rc; cbn [fst snd]; try ring. transitivity (c' * c' - s' * s' - (s' * s' + c' * c')). rewrite Q'; ring. ring. }
  assert (W2' : cadd (c' * c' - s' * s', 2 * s' * c') (rc 1) = cmul (rc (2 * c')) (c', s')). { apply c_ext; unfold cadd, cmul, rc; cbn [fst snd]; try ring. transitivity (c' * c' - s' * s' + (s' * s' + c' * c')). rewrite Q'; ring. ring. }
  rewrite W1, W2, W1', W2'. transitivity (cmul (rc (4 * (IZR fs * s * c'))) (cmul (- s, c) (c', s'))).
  - apply c_ext; unfold cmul, rc; cbn [fst snd]; ring.
  - rewrite S. apply c_ext; unfold cmul, rc; cbn [fst snd]; ring.
Qed.
Print Assumptions C110_frequency.
(** Resampling to the same rate keeps the response. *)
Theorem C110_same_rate fs z p k t : (0 < fs)%Z -> paired z -> paired p -> (forall v, In v p -> inside v) -> (length z = length p \/ ~ In nyquist z) -> - PI < t < PI ->
  exists z' p' k', resample_filter fs fs z p k = Some (z', p', k') /\ response z' p' k' (at_angle t) = response z p k (at_angle t).
Proof.
  intros Hf PZ PP IP HC T. apply C110_frequency; auto. intros v _ E. destruct v as [x y]. unfold cmul, rc in E. cbn [fst snd] in E. injection E as E _. apply IZR_lt in Hf. replace (IZR fs - IZR fs) with 0 in E by ring. lra.
Qed.
Print Assumptions C110_same_rate.
(** A filter with as many poles as zeros, all on or within the unit circle, one at half the sampling rate: a first order low pass. *)
Example C110_low_pass fs new : (0 < fs)%Z -> (0 < new)%Z -> exists z' p' k', resample_filter fs new [rc (-1)] [rc (1 / 2)] (1 / 4) = Some (z', p', k') /\
  response z' p' k' (at_angle 0) = rc 1.
Proof.
  intros Hf Hg. pose proof PI_RGT_0. destruct (C110_frequency fs new [rc (-1)] [rc (1 / 2)] (1 / 4) 0 0 Hf Hg) as (z' & p' & k' & E & R); auto; try lra.
  - apply (paired_rep (-1) 1).
  - apply (paired_rep (1 / 2) 1).
  - intros v [<-|[]]. unfold inside, rc. cbn [fst snd]. lra.
  - intros v [<-|[]] K. unfold cmul, rc in K. cbn [fst snd] in K. injection K as K _. apply IZR_lt in Hf, Hg. lra.
  - replace (0 / 2) with 0 by field. rewrite tan_0. ring.
  - exists z', p', k'. split; auto. rewrite R. unfold response, at_angle. rewrite cos_0, sin_0. apply c_ext; unfold cmul, cinv, csub, rc; cbn [fold_right fst snd]; field.
Qed.
(** A moving average of two samples has its zero at half the sampling rate and no pole. The zero is dropped without a replacement: the new filter
    is a constant gain of one half, also when the sampling rate does not change. *)
Lemma eqb_refl' v : c_eqb v v = true. Proof. now apply eqb_true. Qed.
Theorem C110_moving_average_refuted fs new : resample_filter fs new [nyquist] [] (1 / 2) = Some ([], [], 1 / 2) /\
  response [nyquist] [] (1 / 2) (at_angle 0) = rc 1 /\ forall w, response [] [] (1 / 2) w = rc (1 / 2).
Proof.
  split; [|split].
  - unfold resample_filter. cbn [existsb filter]. change nyquist with (rc (-1)). rewrite eqb_refl'. cbn [negb map length Nat.ltb Nat.leb Nat.sub repeat app existsb]. do 2 f_equal.
    unfold gain_factor. cbn [map cprod fold_right]. unfold cmul, cinv, rc. cbn [fst snd]. field.
  - unfold response, at_angle, nyquist. rewrite cos_0, sin_0. apply c_ext; unfold cmul, cinv, csub, rc; cbn [fold_right fst snd]; field.
  - intros w. unfold response. cbn [fold_right]. apply c_ext; unfold cmul, cinv, rc; cbn [fst snd]; field.
Qed.
Print Assumptions C110_moving_average_refuted.
(** With fewer zeros than poles a zero at half the sampling rate moves to the origin: even for an unchanged rate the filter no longer blocks that
    frequency and passes a constant signal at half its level. *)
Lemma eqb_rc a b : a <> b -> c_eqb (rc a) (rc b) = false. Proof. intros H. apply eqb_false. intros E. apply rc_inj in E. contradiction. Qed.
Lemma analog_rc f x : x + 1 <> 0 -> to_analog f (rc x) = rc (f * (x - 1) / (x + 1)).
Proof. intros H. apply c_ext; unfold to_analog, cmul, cinv, csub, cadd, rc; cbn [fst snd]; field; auto; nra. Qed.
Lemma digital_rc g x : g - x <> 0 -> to_digital g (rc x) = rc ((g + x) / (g - x)).
Proof. intros H. apply c_ext; unfold to_digital, cmul, cinv, csub, cadd, rc; cbn [fst snd]; field; auto; nra. Qed.
Theorem C110_lost_zero_refuted fs : (0 < fs)%Z -> let p := [rc (1 / 2); rc (1 / 4)] in
  resample_filter fs fs [nyquist] p 1 = Some ([rc 0; rc 0], p, 1) /\
  response [nyquist] p 1 nyquist = rc 0 /\ response [rc 0; rc 0] p 1 nyquist = rc (8 / 15) /\
  response [nyquist] p 1 (at_angle 0) = rc (16 / 3) /\ response [rc 0; rc 0] p 1 (at_angle 0) = rc (8 / 3).
Proof.
  intros Hf p. apply IZR_lt in Hf. split.
  - unfold resample_filter, p. cbn [existsb filter]. change nyquist with (rc (-1)). rewrite eqb_refl', !eqb_rc by lra. cbn [negb map length Nat.ltb Nat.leb Nat.sub repeat app existsb orb].
    set (f := 2 * IZR fs). assert (F : 0 < f) by (unfold f; lra). rewrite !analog_rc by lra. replace (f * (1 / 2 - 1) / (1 / 2 + 1)) with (- f / 3) by field. replace (f * (1 / 4 - 1) / (1 / 4 + 1)) with (- 3 * f / 5) by field.
    rewrite !eqb_rc by lra. cbn [orb]. rewrite !digital_rc by lra. do 2 f_equal.
    + f_equal.
      * replace ((f + - f) / (f - - f)) with 0 by (field; lra). reflexivity.
      * replace ((f + - f / 3) / (f - - f / 3)) with (1 / 2) by (field; lra). replace ((f + -3 * f / 5) / (f - -3 * f / 5)) with (1 / 4) by (field; lra). reflexivity.
    + set (q := gain_factor _ _ _). assert (Q : q = 15 / 8). { unfold q, gain_factor. cbn [map cprod fold_right]. unfold cmul, cinv, csub, rc. cbn [fst snd]. field. lra. } rewrite Q. field.
  - unfold response, at_angle, nyquist, p. rewrite cos_0, sin_0. repeat split; apply c_ext; unfold cmul, cinv, csub, rc; cbn [fold_right fst snd]; field.
Qed.
Print Assumptions C110_lost_zero_refuted.
