(** C63: the Linkwitz-Riley filter bank. *)
From Coq Require Import List Arith Lia ZArith Bool Reals Lra Psatz.
From Verif Require Import Alg Spec Dft M_arrays M_filter P_conv P_filter P_ar P_biquad M_crossover P_crossover.
Import ListNotations.
Local Open Scope R_scope.

(** ** Specification *)
(** [y] is [x] passed from rest through allpass systems of order at most two. *)
Inductive allpass : list R -> list R -> Prop :=
| ap_same x : allpass x x
| ap_first r x y : -1 < r < 1 -> length y = length x ->
    (forall n, (n < length x)%nat -> get y n + r * prev 0 (get y) n = r * get x n + prev 0 (get x) n) -> allpass x y
| ap_second d1 d2 x y : -1 < d2 < 1 -> Rabs d1 < 1 + d2 -> length y = length x ->
    (forall n, (n < length x)%nat -> get y n + d1 * prev 0 (get y) n + d2 * prev 0 (prev 0 (get y)) n
                                    = d2 * get x n + d1 * prev 0 (get x) n + prev 0 (prev 0 (get x)) n) -> allpass x y
| ap_chain x y z : allpass x y -> allpass y z -> allpass x z.
(** The squared magnitude at the angle th of a cascade of sections, by its definition. *)
Definition poly_at (c : list R) (th : R) : C := csum (length c) (fun k => cmul (rc (get c k)) (cis (- (INR k * th)))).
Fixpoint gain2 (s : sos) (th : R) : R := match s with [] => 1 | (b, a) :: t => cabs2 (poly_at b th) / cabs2 (poly_at a th) * gain2 t th end.
(** one band over consecutive blocks *)
Definition joined (i : nat) (stream : list (list (list R))) : list R := concat (map (fun bands => nth i bands []) stream).

(** ** Lemmas *)
Ltac lst := repeat match goal with |- (_, _) = (_, _) => f_equal | |- _ :: _ = _ :: _ => f_equal end.
Lemma theta_pos f0 fs : 0 < f0 < fs / 2 -> 0 < PI * f0 / fs < PI / 2.
Proof.
  intros [H1 H2]. assert (0 < fs) by lra. pose proof PI_RGT_0. split. apply Rdiv_lt_0_compat; nra.
  apply (Rmult_lt_reg_r fs); auto. replace (PI * f0 / fs * fs) with (PI * f0) by (field; lra). nra.
Qed.
Lemma cot_pos f0 fs : 0 < f0 < fs / 2 -> 0 < / tan (PI * f0 / fs).
Proof. intros H. apply Rinv_0_lt_compat. apply tan_gt_0; apply theta_pos; auto. Qed.
Lemma cot_half t : 0 < t < PI / 2 -> (/ tan t) * (/ tan t) * (1 - cos (2 * t)) = 1 + cos (2 * t).
Proof.
  intros H. pose proof PI_RGT_0. assert (0 < sin t) by (apply sin_gt_0; lra). assert (0 < cos t) by (apply cos_gt_0; lra).
  rewrite cos_2a_sin at 1. rewrite cos_2a_cos. unfold tan. field. lra.
Qed.
Definition lw k : sos * sos :=
  let g := / (1 + k) in let q := k / (1 + k) in let r := (1 - k) / (1 + k) in
  ([([g * g; 2 * (g * g); g * g], [1; 2 * r; r * r])], [([- (q * q); 2 * (q * q); - (q * q)], [1; 2 * r; r * r])]).
Lemma linkwitz_form f0 fs : 0 < f0 < fs / 2 -> linkwitz2 f0 fs = lw (/ tan (PI * f0 / fs)).
Proof.
  intros H. pose proof (cot_pos f0 fs H) as K. pose proof PI_RGT_0. set (k := / tan (PI * f0 / fs)) in *.
  unfold linkwitz2. replace (2 * (PI * f0 / tan (PI * f0 / fs))) with (2 * PI * f0 * k) by (unfold k, Rdiv; ring).
  set (w := 2 * PI * f0). assert (0 < w) by (unfold w; nra). clearbody w k. unfold bilinear2, bl, lw. cbn [map].
  assert (0 < 1 * (w * k) * (w * k) + 2 * w * (w * k) + w * w) by nra.
  lst; field; repeat split; nra.
Qed.
Definition bw k : sos * sos :=
  let n := k * k + sqrt 2 * k + 1 in let l := / n in let h := k * k / n in let a1 := (2 - 2 * (k * k)) / n in let a2 := (k * k - sqrt 2 * k + 1) / n in
  ([([l; 2 * l; l], [1; a1; a2])], [([h; -2 * h; h], [1; a1; a2])]).
Lemma butter2_form bn f0 fs : 0 < f0 < fs / 2 -> (butter bn 2 false f0 fs, butter bn 2 true f0 fs) = bw (/ tan (PI * f0 / fs)).
Proof.
  intros H. pose proof (cot_pos f0 fs H) as K. unfold butter. set (k := / tan (PI * f0 / fs)) in *. clearbody k. unfold bilinear2, bl, bw. cbn [map].
  assert (0 < sqrt 2) by (apply sqrt_lt_R0; lra). set (s := sqrt 2) in *. clearbody s. assert (0 < k * k + s * k + 1) by nra. lst; field; nra.
Qed.
Definition b1 k : sos * sos := ([([/ (k + 1); / (k + 1); 0], [1; (1 - k) / (k + 1); 0])], [([k / (k + 1); - (k / (k + 1)); 0], [1; (1 - k) / (k + 1); 0])]).
Lemma butter1_form bn f0 fs : 0 < f0 < fs / 2 -> (butter bn 1 false f0 fs, butter bn 1 true f0 fs) = b1 (/ tan (PI * f0 / fs)).
Proof.
  intros H. pose proof (cot_pos f0 fs H) as K. unfold butter. set (k := / tan (PI * f0 / fs)) in *. clearbody k. unfold bl1, b1. cbn [map]. lst; field; nra.
Qed.
Lemma bw_facts k : 0 < k -> let n := k * k + sqrt 2 * k + 1 in let l := / n in let h := k * k / n in let a1 := (2 - 2 * (k * k)) / n in let a2 := (k * k - sqrt 2 * k + 1) / n in
  0 < n /\ l * l + h * h = a2 /\ 4 * (l * l) - 4 * (h * h) = a1 * (1 + a2) /\ 6 * (l * l) + 6 * (h * h) = 1 + a1 * a1 + a2 * a2 /\ -1 < a2 < 1 /\ Rabs a1 < 1 + a2.
Proof.
  intros K. cbv zeta. assert (P : 0 < sqrt 2) by (apply sqrt_lt_R0; lra). assert (Q : sqrt 2 * sqrt 2 = 2) by (apply sqrt_sqrt; lra). set (s := sqrt 2) in *. clearbody s.
  assert (N : 0 < k * k + s * k + 1) by nra. set (n := k * k + s * k + 1) in *.
  assert (M : (k * k - s * k + 1) * n = k * k * (k * k) + 1) by (unfold n; replace ((k * k - s * k + 1) * (k * k + s * k + 1)) with (k * k * (k * k) + 2 * (k * k) + 1 - (s * s) * (k * k)) by ring; rewrite Q; ring).
  assert (N' : k * k - s * k + 1 = (k * k * (k * k) + 1) / n) by (rewrite <- M; field; lra).
  split; auto. repeat split.
  - rewrite N'. field. lra.
  - replace (1 + (k * k - s * k + 1) / n) with ((2 * (k * k) + 2) / n) by (replace (2 * (k * k) + 2) with (n + (k * k - s * k + 1)) by (unfold n; ring); field; lra). field. lra.
  - apply (Rmult_eq_reg_r (n * n)); [|nra]. transitivity (6 + 6 * (k * k * (k * k))). field; lra.
    transitivity (n * n + (2 - 2 * (k * k)) * (2 - 2 * (k * k)) + (k * k - s * k + 1) * (k * k - s * k + 1)); [|field; lra].
    unfold n. replace ((k * k + s * k + 1) * (k * k + s * k + 1) + (2 - 2 * (k * k)) * (2 - 2 * (k * k)) + (k * k - s * k + 1) * (k * k - s * k + 1)) with (6 * (k * k * (k * k)) - 4 * (k * k) + 6 + 2 * (s * s) * (k * k)) by ring. rewrite Q. ring.
  - rewrite N'. apply (Rlt_trans _ 0); [lra|]. repeat apply Rdiv_lt_0_compat; auto. nra.
  - apply (Rmult_lt_reg_r n); auto. unfold Rdiv. rewrite Rmult_assoc, Rinv_l, Rmult_1_r, Rmult_1_l by lra. unfold n. nra.
  - replace (1 + (k * k - s * k + 1) / n) with ((2 * (k * k) + 2) / n) by (replace (2 * (k * k) + 2) with (n + (k * k - s * k + 1)) by (unfold n; ring); field; lra).
    unfold Rdiv. rewrite Rabs_mult, (Rabs_right (/ n)) by (left; apply Rinv_0_lt_compat; auto). apply Rmult_lt_compat_r. apply Rinv_0_lt_compat; auto. apply Rabs_def1; nra.
Qed.
Lemma lw_both k x : 0 < k -> allpass x (both (lw k) x).
Proof.
  intros K. destruct (both_eq1 (/ (1 + k) * / (1 + k)) (2 * (/ (1 + k) * / (1 + k))) (/ (1 + k) * / (1 + k)) (- (k / (1 + k) * (k / (1 + k)))) (2 * (k / (1 + k) * (k / (1 + k)))) (- (k / (1 + k) * (k / (1 + k)))) (2 * ((1 - k) / (1 + k))) ((1 - k) / (1 + k) * ((1 - k) / (1 + k))) x) as [L E].
  apply (ap_first ((1 - k) / (1 + k))); auto.
  - split; apply (Rmult_lt_reg_r (1 + k)); try lra; replace ((1 - k) / (1 + k) * (1 + k)) with (1 - k) by (field; lra); lra.
  - apply (first_order ((1 - k) / (1 + k)) (/ (1 + k)) (k / (1 + k)) (get x)); try (field; lra). exact E.
Qed.
Lemma bw_both k x : 0 < k -> allpass x (both (fst (bw k) ++ fst (bw k), snd (bw k) ++ snd (bw k)) x).
Proof.
  intros K. destruct (bw_facts k K) as (N & E0 & E1 & E2 & A2 & A1). unfold bw. cbv zeta in *. cbn [fst snd app].
  set (n := k * k + sqrt 2 * k + 1) in *. set (a1 := (2 - 2 * (k * k)) / n) in *. set (a2 := (k * k - sqrt 2 * k + 1) / n) in *. set (l := / n) in *. set (h := k * k / n) in *.
  destruct (both_eq2 l (2 * l) l h (-2 * h) h a1 a2 x) as [L E]. cbv zeta in *. set (y := both _ x) in *.
  apply (ap_second a1 a2); auto. intros m Hm. pose proof (second_order l h a1 a2 (get x) (get y) (length x) E0 E1 E2 E m Hm) as G. unfold P3 in G. lra.
Qed.
Lemma b1_both k x : 0 < k -> both (b1 k) x = x.
Proof.
  intros K. destruct (both_eq1 (/ (k + 1)) (/ (k + 1)) 0 (k / (k + 1)) (- (k / (k + 1))) 0 ((1 - k) / (k + 1)) 0 x) as [L E]. fold (b1 k) in *.
  apply (get_ext (HA := CRing_R)); auto. intros i Hi. rewrite L in Hi. enough (get (both (b1 k) x) i - get x i = 0) by lra. revert i Hi.
  apply (P3_kernel ((1 - k) / (k + 1)) 0 (fun i => get (both (b1 k) x) i - get x i)). intros n Hn. rewrite P3_sub.
  change (both _ x) with (both (b1 k) x) in E. rewrite E by auto. unfold P3. replace (/ (k + 1) + k / (k + 1)) with 1 by (field; lra). replace (/ (k + 1) + - (k / (k + 1))) with ((1 - k) / (k + 1)) by (field; lra). ring.
Qed.
Lemma rlt_true a b {T} (u v : T) : a < b -> (if Rlt_dec a b then u else v) = u.
Proof. intros. destruct (Rlt_dec a b); [auto|contradiction]. Qed.
Lemma crossover_form bn order f0 fs : 0 < f0 < INR fs / 2 -> order = 1%nat \/ order = 2%nat \/ order = 4%nat ->
  crossover bn order f0 fs = Ok (let k := / tan (PI * f0 / INR fs) in if (order =? 1)%nat then b1 k else if (order =? 2)%nat then lw k else (fst (bw k) ++ fst (bw k), snd (bw k) ++ snd (bw k))).
Proof.
  intros H [-> | [-> | ->]]; unfold crossover; cbn [Nat.eqb].
  - cbn [Nat.even andb]. destruct H as [H1 H2]. rewrite !rlt_true by auto. cbn [negb]. f_equal. apply butter1_form; auto.
  - f_equal. apply linkwitz_form; auto.
  - change (Nat.even 4 && negb (4 mod 4 =? 0)%nat) with false. destruct H as [H1 H2]. rewrite !rlt_true by auto. cbn [negb Nat.even]. change (4 / 2)%nat with 2%nat.
    pose proof (butter2_form bn f0 (INR fs) (conj H1 H2)) as E. destruct (bw (/ tan (PI * f0 / INR fs))) as [u v]. apply pair_equal_spec in E. destruct E as [-> ->]. reflexivity.
Qed.
Lemma crossover_both bn order f0 fs p x : 0 < f0 < INR fs / 2 -> order = 1%nat \/ order = 2%nat \/ order = 4%nat -> crossover bn order f0 fs = Ok p -> allpass x (both p x).
Proof.
  intros H O. rewrite crossover_form by auto. intros E. inversion E; subst p. clear E. pose proof (cot_pos f0 (INR fs) H) as K. set (k := / tan _) in *. cbv zeta.
  destruct O as [-> | [-> | ->]]; cbn [Nat.eqb].
  rewrite b1_both by auto. constructor. now apply lw_both. now apply bw_both.
Qed.
Lemma all_ok_forall2 {T U} (f : T -> result U) l r : all_ok (map f l) = Ok r -> Forall2 (fun a b => f a = Ok b) l r.
Proof.
  revert r. induction l as [|a l IH]; intros r; cbn [map all_ok]. intros E; inversion E. constructor.
  destruct (f a) eqn:F; [|discriminate]. destruct (all_ok (map f l)); [|discriminate]. cbn [bind]. intros E; inversion E. constructor; auto.
Qed.
Lemma insert_in p q l : In p (insert_f q l) -> p = q \/ In p l.
Proof. induction l as [|a l IH]; simpl. intros [H|[]]; auto. destruct (Rle_dec (fst q) (fst a)); simpl; intros [H|H]; auto. destruct (IH H); auto. Qed.
Lemma sort_in p l : In p (sort_f l) -> In p l.
Proof. induction l as [|a l IH]; simpl; auto. intros H. apply insert_in in H. destruct H; auto. Qed.
Lemma bank_forall bn freqs orders fs bank : make_bank bn freqs orders fs = Ok bank ->
  (forall f, In f freqs -> 0 < f < INR fs / 2) -> (forall o, In o orders -> o = 1%nat \/ o = 2%nat \/ o = 4%nat) ->
  Forall (fun p => forall x, allpass x (both p x)) bank.
Proof.
  unfold make_bank. intros E HF HO. destruct (length freqs =? 0)%nat; [discriminate|]. destruct (negb (forallb _ freqs)); [discriminate|]. destruct (negb _); [discriminate|].
  apply all_ok_forall2 in E. set (o' := if (length orders =? 1)%nat then _ else _) in *.
  assert (HO' : forall o, In o o' -> o = 1%nat \/ o = 2%nat \/ o = 4%nat).
  { unfold o'. destruct (Nat.eqb_spec (length orders) 1); auto. intros o Ho. apply repeat_spec in Ho. subst o. apply HO. destruct orders; [discriminate|]. now left. }
  assert (G : forall p, In p (sort_f (combine freqs o')) -> 0 < fst p < INR fs / 2 /\ (snd p = 1%nat \/ snd p = 2%nat \/ snd p = 4%nat)).
  { intros [f o] Hp. apply sort_in in Hp. split. apply HF. eapply in_combine_l; eauto. apply HO'. eapply in_combine_r; eauto. }
  clearbody o'. induction E; constructor. intros x0. destruct (G x (or_introl eq_refl)). eapply crossover_both; eauto. apply IHE. intros; apply G; now right.
Qed.
Lemma chain_allpass bank x : Forall (fun p => forall x, allpass x (both p x)) bank -> allpass x (fold_left (fun b p => both p b) bank x).
Proof. revert x. induction bank as [|p t IH]; intros x F. constructor. inversion F; subst. cbn [fold_left]. eapply ap_chain. apply H1. apply IH; auto. Qed.
Lemma allpass_len x y : allpass x y -> length y = length x.
Proof. induction 1; auto. congruence. Qed.

(** ** C63: the bands add up to the input passed through the crossovers, each of them an allpass *)
Theorem C63_bands_add_to_the_cascade bank x : lr_summed bank x = fold_left (fun s p => vadd (rest (fst p) s) (rest (snd p) s)) bank x.
Proof. rewrite summed_chain. reflexivity. Qed.
Print Assumptions C63_bands_add_to_the_cascade.

Theorem C63_sum_of_bands_is_allpass bn freqs orders fs bank x : make_bank bn freqs orders fs = Ok bank ->
  (forall f, In f freqs -> 0 < f < INR fs / 2) -> (forall o, In o orders -> o = 1%nat \/ o = 2%nat \/ o = 4%nat) ->
  length (lr_split bank x) = S (length bank) /\ allpass x (lr_summed bank x).
Proof.
  intros E HF HO. split. clear. revert x. induction bank as [|[lo hi] t IH]; intros x; cbn [lr_split length]; auto.
  rewrite summed_chain. apply chain_allpass. eapply bank_forall; eauto.
Qed.
Print Assumptions C63_sum_of_bands_is_allpass.

(** First-order crossovers add up to the input itself. *)
Theorem C63_first_order_sum_is_input bn freqs fs bank x : make_bank bn freqs [1%nat] fs = Ok bank -> (forall f, In f freqs -> 0 < f < INR fs / 2) -> lr_summed bank x = x.
Proof.
  intros E HF. rewrite summed_chain. unfold make_bank in E. destruct (length freqs =? 0)%nat; [discriminate|]. destruct (negb (forallb _ freqs)); [discriminate|].
  destruct (negb _); [discriminate|]. apply all_ok_forall2 in E. cbn [length Nat.eqb hd] in E.
  assert (G : forall p, In p (sort_f (combine freqs (repeat 1%nat (length freqs)))) -> 0 < fst p < INR fs / 2 /\ snd p = 1%nat).
  { intros [f o] Hp. apply sort_in in Hp. split. apply HF. eapply in_combine_l; eauto. eapply repeat_spec, in_combine_r; eauto. }
  revert x. induction E as [|p b l l' Hp E IH]; intros x. reflexivity. cbn [fold_left]. destruct (G p (or_introl eq_refl)) as [Hf Ho]. rewrite Ho, crossover_form in Hp by auto.
  inversion Hp; subst b. cbn [Nat.eqb]. rewrite b1_both by (now apply cot_pos). apply IH. intros; apply G; now right.
Qed.
Print Assumptions C63_first_order_sum_is_input.

(** An allpass never puts out more energy than it has received, at any time; and its equations have magnitude one at every frequency. *)
Theorem C63_energy x y : allpass x y -> length y = length x /\ forall m, (m <= length x)%nat -> rsum m (fun k => get y k * get y k) <= rsum m (fun k => get x k * get x k).
Proof.
  intros H. split. now apply allpass_len. induction H as [x|r x y Hr L E|d1 d2 x y H2 H1 L E|x y z A1 I1 A2 I2]; intros m Hm. lra.
  - destruct m as [|m]. simpl. lra. pose proof (energy1 r (get x) (get y) (length x) Hr E m ltac:(lia)) as G.
    assert (0 <= (get x m - r * get y m) * (get x m - r * get y m) / (1 - r * r)); [|lra]. unfold Rdiv. apply Rmult_le_pos. apply Rle_0_sqr. left. apply Rinv_0_lt_compat. nra.
  - apply (energy2 d1 d2); auto. intros n Hn. unfold P3. rewrite !Rmult_1_l. now apply E.
  - apply (Rle_trans _ (rsum m (fun k => get y k * get y k))). apply I2. now rewrite (allpass_len x y). auto.
Qed.
Print Assumptions C63_energy.
Lemma poly2 c0 c1 th : poly_at [c0; c1] th = (c0 + c1 * cos th, - (c1 * sin th)).
Proof.
  unfold poly_at, get. cbn [length sum nth]. unfold cmul, rc, cis. apply c_ext; simpl; rewrite ?Rmult_0_l, ?Rmult_1_l, ?Ropp_0, ?cos_0, ?sin_0, ?cos_neg, ?sin_neg; ring.
Qed.
Lemma poly3 c0 c1 c2 th : poly_at [c0; c1; c2] th = (c0 + c1 * cos th + c2 * cos (2 * th), - (c1 * sin th + c2 * sin (2 * th))).
Proof.
  unfold poly_at, get. cbn [length sum nth]. unfold cmul, rc, cis. replace (INR 2) with 2 by (simpl; lra). apply c_ext; simpl; rewrite ?Rmult_0_l, ?Rmult_1_l, ?Ropp_0, ?cos_0, ?sin_0, ?cos_neg, ?sin_neg; ring.
Qed.
Lemma cs1 th : sin th * sin th = 1 - cos th * cos th.
Proof. pose proof (sin2_cos2 th) as H. unfold Rsqr in H. lra. Qed.
Lemma mag3 c0 c1 c2 th : cabs2 (poly_at [c0; c1; c2] th) = c0 * c0 + c1 * c1 + c2 * c2 + 2 * c1 * (c0 + c2) * cos th + 2 * c0 * c2 * (2 * cos th * cos th - 1).
Proof.
  rewrite poly3. unfold cabs2. cbn [fst snd]. rewrite cos_2a_cos, sin_2a.
  transitivity ((c0 + c1 * cos th + c2 * (2 * cos th * cos th - 1)) * (c0 + c1 * cos th + c2 * (2 * cos th * cos th - 1)) + (c1 + 2 * c2 * cos th) * (c1 + 2 * c2 * cos th) * (sin th * sin th)). ring. rewrite cs1. ring.
Qed.
Theorem C63_magnitude_one : (forall r th, -1 < r < 1 -> cabs2 (poly_at [r; 1] th) = cabs2 (poly_at [1; r] th) /\ 0 < cabs2 (poly_at [1; r] th)) /\
  (forall d1 d2 th, -1 < d2 < 1 -> Rabs d1 < 1 + d2 -> cabs2 (poly_at [d2; d1; 1] th) = cabs2 (poly_at [1; d1; d2] th) /\ 0 < cabs2 (poly_at [1; d1; d2] th)).
Proof.
  split.
  - intros r th Hr. rewrite !poly2. unfold cabs2. cbn [fst snd]. pose proof (cs1 th) as S. pose proof (COS_bound th) as B. split.
    transitivity (r * r + 2 * r * cos th + cos th * cos th + sin th * sin th). ring. transitivity (1 + 2 * r * cos th + r * r * (cos th * cos th + sin th * sin th)). rewrite S. ring. ring.
    replace ((1 + r * cos th) * (1 + r * cos th) + - (r * sin th) * - (r * sin th)) with (1 + 2 * r * cos th + r * r * (cos th * cos th + sin th * sin th)) by ring. rewrite S.
    replace (1 + 2 * r * cos th + r * r * (cos th * cos th + (1 - cos th * cos th))) with (1 + 2 * r * cos th + r * r) by ring. destruct (Rle_dec 0 r).
    assert (r * -1 <= r * cos th) by (apply Rmult_le_compat_l; lra). nra. assert (- r * cos th <= - r * 1) by (apply Rmult_le_compat_l; lra). nra.
  - intros d1 d2 th H2 H1. rewrite !mag3. pose proof (COS_bound th) as B. set (X := cos th) in *. clearbody X. split. ring.
    apply Rabs_def2 in H1.
    replace (1 * 1 + d1 * d1 + d2 * d2 + 2 * d1 * (1 + d2) * X + 2 * 1 * d2 * (2 * X * X - 1)) with ((d1 + (1 + d2) * X) * (d1 + (1 + d2) * X) + (1 - d2) * (1 - d2) * (1 - X * X)) by ring.
    destruct (Req_dec (X * X) 1) as [E|E].
    + assert (X = 1 \/ X = -1) as [-> | ->]. { assert ((X - 1) * (X + 1) = 0) as Z by nra. apply Rmult_integral in Z. destruct Z; [left|right]; lra. } nra. nra.
    + assert (X * X <= 1) by nra. assert (0 < 1 - X * X) by lra. assert (0 < (1 - d2) * (1 - d2)) by nra. assert (0 < (1 - d2) * (1 - d2) * (1 - X * X)) by (apply Rmult_lt_0_compat; lra). pose proof (Rle_0_sqr (d1 + (1 + d2) * X)) as Q. unfold Rsqr in Q. lra.
Qed.
Print Assumptions C63_magnitude_one.

(** Crossover level: at the crossover frequency both branches have a quarter of the power (orders two and four), half of it (order one). *)
Theorem C63_crossover_level bn order f0 fs lo hi : 0 < f0 < INR fs / 2 -> order = 1%nat \/ order = 2%nat \/ order = 4%nat ->
  crossover bn order f0 fs = Ok (lo, hi) ->
  let level := if (order =? 1)%nat then / 2 else / 4 in
  gain2 lo (2 * PI * f0 / INR fs) = level /\ gain2 hi (2 * PI * f0 / INR fs) = level.
Proof.
  intros H O E. rewrite crossover_form in E by auto. pose proof (cot_pos f0 (INR fs) H) as K. pose proof (theta_pos f0 (INR fs) H) as T.
  pose proof (cot_half _ T) as X. replace (2 * (PI * f0 / INR fs)) with (2 * PI * f0 / INR fs) in X by (unfold Rdiv; ring).
  assert (C1 : cos (2 * PI * f0 / INR fs) < 1). { replace (2 * PI * f0 / INR fs) with (2 * (PI * f0 / INR fs)) by (unfold Rdiv; ring). rewrite cos_2a_sin. assert (0 < sin (PI * f0 / INR fs)) by (pose proof PI_RGT_0; apply sin_gt_0; lra). nra. }
  set (k := / tan _) in *. set (th := 2 * PI * f0 / INR fs) in *. inversion E as [E']. clear E. cbv zeta in *.
  assert (P : 0 < 1 + cos th) by (rewrite <- X; nra).
  destruct O as [-> | [-> | ->]]; cbn [Nat.eqb] in *.
  - unfold b1 in E'. inversion E'. cbn [gain2]. rewrite !mag3. set (c := cos th) in *. clearbody c k.
    assert (D : 1 * 1 + (1 - k) / (k + 1) * ((1 - k) / (k + 1)) + 0 * 0 + 2 * ((1 - k) / (k + 1)) * (1 + 0) * c + 2 * 1 * 0 * (2 * c * c - 1) = 4 * (1 + c) / ((k + 1) * (k + 1))).
    { transitivity ((2 * (1 + c) + 2 * (k * k * (1 - c))) / ((k + 1) * (k + 1))). field; lra. rewrite X. field; lra. }
    rewrite D. split; field_simplify_eq; try (repeat split; nra).
  - unfold lw in E'. inversion E'. cbn [gain2]. rewrite !mag3. set (c := cos th) in *. clearbody c k.
    set (r := (1 - k) / (1 + k)). set (g := / (1 + k)). set (q := k / (1 + k)).
    replace (1 * 1 + 2 * r * (2 * r) + r * r * (r * r) + 2 * (2 * r) * (1 + r * r) * c + 2 * 1 * (r * r) * (2 * c * c - 1)) with ((1 + r * r + 2 * r * c) * (1 + r * r + 2 * r * c)) by ring.
    assert (D : 1 + r * r + 2 * r * c = 4 * (1 + c) * (g * g)). { transitivity ((2 * (1 + c) + 2 * (k * k * (1 - c))) * (g * g)). unfold r, g. field; lra. rewrite X. ring. }
    rewrite D. assert (0 < g) by (apply Rinv_0_lt_compat; lra). assert (Q : q * q * (1 - c) = g * g * (1 + c)). { rewrite <- X. unfold q, g. field. lra. }
    split.
    + field_simplify_eq; [ring|]. split; lra.
    + replace (- (q * q) * - (q * q) + 2 * (q * q) * (2 * (q * q)) + - (q * q) * - (q * q) + 2 * (2 * (q * q)) * (- (q * q) + - (q * q)) * c + 2 * - (q * q) * - (q * q) * (2 * c * c - 1)) with (4 * (q * q * (1 - c)) * (q * q * (1 - c))) by ring. rewrite Q. field. split; lra.
  - pose proof (bw_facts k K) as (N & E0 & E1 & E2 & A2 & A1). unfold bw in E'. cbv zeta in *. inversion E'. cbn [gain2 fst snd app]. rewrite !mag3. set (c := cos th) in *. clearbody c.
    set (n := k * k + sqrt 2 * k + 1) in *. set (a1 := (2 - 2 * (k * k)) / n) in *. set (a2 := (k * k - sqrt 2 * k + 1) / n) in *. set (l := / n) in *. set (h := k * k / n) in *.
    assert (L : 0 < l) by (apply Rinv_0_lt_compat; auto). assert (Q : h * (1 - c) = l * (1 + c)) by (rewrite <- X; unfold h, l; field; lra).
    assert (D : 1 * 1 + a1 * a1 + a2 * a2 + 2 * a1 * (1 + a2) * c + 2 * 1 * a2 * (2 * c * c - 1) = 8 * (l * (1 + c)) * (l * (1 + c))).
    { transitivity (6 * (l * l) + 6 * (h * h) + 2 * (4 * (l * l) - 4 * (h * h)) * c + 2 * (l * l + h * h) * (2 * c * c - 1)). rewrite E2, E1, E0. ring.
      transitivity (4 * (l * (1 + c)) * (l * (1 + c)) + 4 * (h * (1 - c)) * (h * (1 - c))). ring. rewrite Q. ring. }
    rewrite D. clearbody n a1 a2 l h. split.
    + field. split; lra.
    + replace (h * h + -2 * h * (-2 * h) + h * h + 2 * (-2 * h) * (h + h) * c + 2 * h * h * (2 * c * c - 1)) with (4 * (h * (1 - c)) * (h * (1 - c))) by ring. rewrite Q. field. split; lra.
Qed.
Print Assumptions C63_crossover_level.

(** ** Streaming *)
Lemma sosfilt_app' : forall (s : sos) (x y : list R) z, sosfilt s (x ++ y) z = let (u, z1) := sosfilt s x z in let (v, z2) := sosfilt s y z1 in (u ++ v, z2).
Proof.
  induction s as [|[b a] s IH]; intros x y z. reflexivity. cbn [sosfilt]. rewrite lfilter_app.
  destruct (lfilter b a x (hd [] z)) as [u z1] eqn:E1. cbn [fst snd]. destruct (lfilter b a y z1) as [v z2] eqn:E2. rewrite IH. destruct (sosfilt s u (tl z)) as [u' zs] eqn:E3. cbn [hd tl fst snd]. rewrite E2. cbn [fst snd].
  destruct (sosfilt s v zs) as [v' zs']. reflexivity.
Qed.
Lemma sosfilt_len' (s : sos) (x : list R) z : length (fst (sosfilt s x z)) = length x.
Proof.
  revert x z. induction s as [|[b a] s IH]; intros x z. reflexivity. cbn [sosfilt]. pose proof (lfilter_length b a x (hd [] z)) as L. destruct (lfilter b a x (hd [] z)) as [u z1]. cbn [fst] in L.
  specialize (IH u (tl z)). destruct (sosfilt s u (tl z)). cbn [fst] in *. congruence.
Qed.
Lemma vadd_app' (u v u' v' : list R) : length u = length v -> vadd (u ++ u') (v ++ v') = vadd u v ++ vadd u' v'.
Proof. revert v. induction u as [|a u IH]; intros [|b v] L; try discriminate. reflexivity. cbn [app]. rewrite !vadd_cons. cbn [app]. rewrite IH by (simpl in L; lia). reflexivity. Qed.
Ltac step s x z := let u := fresh "u" in let w := fresh "w" in let E := fresh "E" in let L := fresh "L" in
  pose proof (sosfilt_len' s x z) as L; destruct (sosfilt s x z) as [u w] eqn:E; cbn [fst] in L.
Lemma lr_zi_app bank cross row x y : (length bank <= 2)%nat -> length cross = length bank -> length row = length bank ->
  let '(b1, c1, r1) := lr_zi bank cross row x in let '(b2, c2, r2) := lr_zi bank c1 r1 y in
  let '(b3, c3, r3) := lr_zi bank cross row (x ++ y) in
  length c1 = length bank /\ length r1 = length bank /\ c3 = c2 /\ r3 = r2 /\ forall i, nth i b3 [] = nth i b1 [] ++ nth i b2 [].
Proof.
  intros HB HC HR. destruct bank as [|[lo hi] [|[lo2 hi2] [|? t]]]; [| | |simpl in HB; lia].
  - destruct cross; [|discriminate]. destruct row; [|discriminate]. cbn [lr_zi]. repeat split. intros [|[|i]]; reflexivity.
  - destruct cross as [|[zl zh] [|? ?]]; try discriminate. destruct row as [|r [|? ?]]; try discriminate. cbn [lr_zi].
    rewrite !sosfilt_app'. destruct (sosfilt lo x zl) as [u1 zl1]. destruct (sosfilt hi x zh) as [v1 zh1]. cbn [allpasses]. destruct (sosfilt lo y zl1) as [u2 zl2]. destruct (sosfilt hi y zh1) as [v2 zh2].
    repeat split. intros [|[|[|i]]]; reflexivity.
  - destruct cross as [|[zl zh] [|[zl' zh'] [|? ?]]]; try discriminate. destruct row as [|r [|[ql qh] [|? ?]]]; try discriminate. cbn [lr_zi]. rewrite !sosfilt_app'.
    destruct (sosfilt lo x zl) as [u1 zl1]. destruct (sosfilt hi x zh) as [v1 zh1]. cbn [allpasses]. step lo2 u1 ql. step hi2 u1 qh. step lo2 v1 zl'. step hi2 v1 zh'. cbn [allpasses].
    destruct (sosfilt lo y zl1) as [u2' zl2]. destruct (sosfilt hi y zh1) as [v2' zh2]. cbn [allpasses]. rewrite !sosfilt_app', E, E0.
    destruct (sosfilt lo2 u2' w) as [a1 b1']. destruct (sosfilt hi2 u2' w0) as [a2 b2']. rewrite E1, E2.
    destruct (sosfilt lo2 v2' w1) as [a3 b3']. destruct (sosfilt hi2 v2' w2) as [a4 b4']. rewrite vadd_app' by congruence. cbn [allpasses].
    repeat split. intros [|[|[|[|i]]]]; reflexivity.
Qed.
Lemma sosfilt_nil (s : sos) z : fst (sosfilt s (@nil R) z) = [].
Proof. apply length_zero_iff_nil. now rewrite sosfilt_len'. Qed.
Lemma lr_zi_nil bank cross row i : nth i (fst (fst (lr_zi bank cross row []))) [] = [].
Proof.
  revert cross row i. induction bank as [|[lo hi] t IH]; intros cross row i. cbn [lr_zi fst]. destruct i as [|[|i]]; reflexivity.
  cbn [lr_zi]. destruct cross as [|[zl zh] cross]. destruct i as [|[|i]]; reflexivity. destruct row as [|r row]. destruct i as [|[|i]]; reflexivity.
  pose proof (sosfilt_nil lo zl) as N1. pose proof (sosfilt_nil hi zh) as N2. destruct (sosfilt lo [] zl) as [u w]. destruct (sosfilt hi [] zh) as [u' w']. cbn [fst] in *. subst u u'.
  assert (A : forall t row, fst (allpasses t row []) = []).
  { clear. induction t as [|[lo hi] t IH]; intros row. reflexivity. cbn [allpasses]. destruct row as [|[zl zh] row]. reflexivity.
    pose proof (sosfilt_nil lo zl) as N1. pose proof (sosfilt_nil hi zh) as N2. destruct (sosfilt lo [] zl) as [u w]. destruct (sosfilt hi [] zh) as [u' w']. cbn [fst] in *. subst u u'.
    change (vadd [] []) with (@nil R). specialize (IH row). destruct (allpasses t row []). exact IH. }
  specialize (A t row). destruct (allpasses t row []) as [band row1]. cbn [fst] in A. subst band. specialize (IH cross row1). destruct (lr_zi t cross row1 []) as [[bs c2] r2]. cbn [fst] in *. destruct i; cbn [nth]; auto.
Qed.
(** With at most two crossovers a stream may be cut into blocks anywhere. *)
Theorem C63_streaming bank blocks i : (length bank <= 2)%nat -> joined i (lr_stream bank blocks) = joined i (lr_stream bank [concat blocks]).
Proof.
  intros HB. unfold lr_stream, init_zi. cbn [fst snd]. set (z := map _ bank). assert (HC : length z = length bank) by (unfold z; now rewrite map_length). assert (HR := HC). revert HC HR.
  generalize z at 1 3 5 as cross. generalize z as row. clear z. induction blocks as [|x t IH]; intros row cross HC HR.
  - cbn [lr_blocks concat]. pose proof (lr_zi_nil bank cross row i) as N. unfold joined. destruct (lr_zi bank cross row []) as [[b c] r]. cbn [fst map concat lr_blocks] in *. now rewrite N.
  - cbn [lr_blocks concat]. pose proof (lr_zi_app bank cross row x (concat t) HB HC HR) as G. destruct (lr_zi bank cross row x) as [[b1 c1] r1].
    destruct (lr_zi bank c1 r1 (concat t)) as [[b2 c2] r2] eqn:E2. destruct (lr_zi bank cross row (x ++ concat t)) as [[b3 c3] r3]. destruct G as (G1 & G2 & _ & _ & G).
    specialize (IH r1 c1 G1 G2). cbn [lr_blocks] in IH. rewrite E2 in IH. unfold joined in *. cbn [map concat] in *. rewrite IH, !app_nil_r. now rewrite G.
Qed.
Print Assumptions C63_streaming.
(** A bank of three crossovers at a quarter of the sampling rate: each branch is a section without feedback. *)
Definition quarter : sos * sos := ([([/ 4; / 2; / 4], [1; 0; 0])], [([- / 4; / 2; - / 4], [1; 0; 0])]).
Lemma bank_quarter bn n : make_bank bn (repeat 1 (S n)) [2%nat] 4 = Ok (repeat quarter (S n)).
Proof.
  assert (Q : crossover bn 2 1 4 = Ok quarter).
  { rewrite crossover_form by (simpl; auto; lra). cbn [Nat.eqb]. replace (PI * 1 / INR 4) with (PI / 4) by (simpl; field). rewrite tan_PI4, Rinv_1. unfold lw, quarter. cbv zeta. f_equal. lst; lra. }
  unfold make_bank. cbn [length Nat.eqb hd]. rewrite repeat_length. cbn [repeat length Nat.eqb].
  assert (F : forallb (fun f => if Rle_dec f (INR (4 / 2)) then true else false) (1 :: repeat 1 n) = true).
  { apply forallb_forall. intros f [<- | Hf]; [|apply repeat_spec in Hf; subst f]; (destruct (Rle_dec 1 (INR (4 / 2))) as [|N]; [reflexivity|exfalso; apply N; simpl; lra]). }
  rewrite F. cbn [negb length]. rewrite !repeat_length, Nat.eqb_refl. cbn [negb]. change ((1%R, 2%nat) :: combine (repeat 1 n) (repeat 2%nat n)) with (combine (repeat 1 (S n)) (repeat 2%nat (S n))).
  change (combine (1 :: repeat 1 n) (2%nat :: repeat 2%nat n)) with (combine (repeat 1 (S n)) (repeat 2%nat (S n))). change (quarter :: repeat quarter n) with (repeat quarter (S n)).
  assert (S : forall m, sort_f (combine (repeat 1 m) (repeat 2%nat m)) = repeat (1, 2%nat) m).
  { induction m as [|m IH]. reflexivity. cbn [repeat combine sort_f fold_right]. fold (sort_f (combine (repeat 1 m) (repeat 2%nat m))). rewrite IH. destruct m; cbn [repeat insert_f fst]. reflexivity. destruct (Rle_dec 1 1); [reflexivity|lra]. }
  rewrite S. generalize (Datatypes.S n). induction n0 as [|m IH]; cbn [repeat map all_ok]. reflexivity. cbn [fst snd]. rewrite Q, IH. reflexivity.
Qed.
(** Counterexample: with three crossovers, the states of the highest allpass are shared by two bands, and the block boundaries are heard. *)
Theorem C63_streaming_three_refuted bn : exists bank, make_bank bn [1; 1; 1] [2%nat] 4 = Ok bank /\
  get (joined 1 (lr_stream bank [[0]; [0]])) 0 = 1 /\ get (joined 1 (lr_stream bank [[0; 0]])) 0 = 3 / 4.
Proof.
  exists [quarter; quarter; quarter]. split. apply (bank_quarter bn 2).
  split; cbv -[Rplus Rmult Rminus Ropp Rinv Rdiv IZR]; lra.
Qed.
Print Assumptions C63_streaming_three_refuted.

(** The states start as if a constant one had always been received: silence puts a click into the bands, a constant one comes out constant. *)
Lemma lw_zi k : 0 < k -> let g := / (1 + k) in
  sosfilt_zi 1 (fst (lw k)) = [[1 - g * g; g * g - (1 - k) / (1 + k) * ((1 - k) / (1 + k))]] /\ sosfilt_zi 1 (snd (lw k)) = [[(k / (1 + k)) * (k / (1 + k)); - ((k / (1 + k)) * (k / (1 + k)))]].
Proof.
  intros K. cbv zeta. unfold lw. cbv zeta. cbn [fst snd sosfilt_zi map]. unfold section_zi, get. cbn [nth map].
  assert (1 + 2 * ((1 - k) / (1 + k)) + (1 - k) / (1 + k) * ((1 - k) / (1 + k)) <> 0).
  { replace (1 + 2 * ((1 - k) / (1 + k)) + (1 - k) / (1 + k) * ((1 - k) / (1 + k))) with (4 * (/ (1 + k) * / (1 + k))) by (field; lra). assert (0 < / (1 + k)) by (apply Rinv_0_lt_compat; lra). nra. }
  set (d := 1 + 2 * ((1 - k) / (1 + k)) + (1 - k) / (1 + k) * ((1 - k) / (1 + k))) in *.
  assert (D : d = 4 * (/ (1 + k) * / (1 + k))) by (unfold d; field; lra).
  replace ((/ (1 + k) * / (1 + k) + 2 * (/ (1 + k) * / (1 + k)) + / (1 + k) * / (1 + k)) / d) with 1 by (replace (/ (1 + k) * / (1 + k) + 2 * (/ (1 + k) * / (1 + k)) + / (1 + k) * / (1 + k)) with d by (rewrite D; ring); field; auto).
  replace ((- (k / (1 + k) * (k / (1 + k))) + 2 * (k / (1 + k) * (k / (1 + k))) + - (k / (1 + k) * (k / (1 + k)))) / d) with 0 by (field; split; lra).
  split; lst; try reflexivity; field; lra.
Qed.
Lemma steady (b a z : list R) (c y0 : R) n : lf_sample b a z c = (y0, z) -> fst (lfilter b a (repeat c n) z) = repeat y0 n.
Proof. intros H. induction n as [|n IH]. reflexivity. cbn [repeat lfilter]. rewrite H. destruct (lfilter b a (repeat c n) z). cbn [fst] in *. now rewrite IH. Qed.
Theorem C63_start_of_stream bn f0 fs p : 0 < f0 < INR fs / 2 -> crossover bn 2 f0 fs = Ok p ->
  (exists u v, 0 < u < 1 /\ 0 < v < 1 /\ lr_stream [p] [[0]] = [[[u]; [v]]]) /\
  forall n, lr_stream [p] [repeat 1 n] = [[repeat 1 n; repeat 0 n]].
Proof.
  intros H E. rewrite crossover_form in E by auto. cbn [Nat.eqb] in E. inversion E; subst p. clear E. pose proof (cot_pos f0 (INR fs) H) as K. set (k := / tan _) in *. clearbody k.
  destruct (lw_zi k K) as [Z1 Z2]. cbv zeta in *. unfold lr_stream, init_zi. cbn [map fst snd]. rewrite Z1, Z2. cbn [lr_blocks lr_zi]. unfold lw. cbv zeta. cbn [sosfilt hd tl fst snd allpasses].
  set (g := / (1 + k)) in *. set (q := k / (1 + k)) in *. set (r := (1 - k) / (1 + k)) in *.
  assert (G : 0 < g) by (apply Rinv_0_lt_compat; lra). assert (Q : 0 < q) by (apply Rdiv_lt_0_compat; lra). assert (S : g + q = 1) by (unfold g, q; field; lra). assert (D : g - q = r) by (unfold g, q, r; field; lra).
  clearbody g q r. split.
  - exists (1 - g * g), (q * q). split; [nra|]. split; [nra|]. cbn [lfilter]. unfold lf_sample, get. cbn [nth length mk map seq]. lst; simpl; ring.
  - intros n. pose proof (steady [g * g; 2 * (g * g); g * g] [1; 2 * r; r * r] [1 - g * g; g * g - r * r] 1 1 n) as A.
    pose proof (steady [- (q * q); 2 * (q * q); - (q * q)] [1; 2 * r; r * r] [q * q; - (q * q)] 1 0 n) as B.
    destruct (lfilter [g * g; 2 * (g * g); g * g] _ _ _) as [y1 z1]. destruct (lfilter [- (q * q); 2 * (q * q); - (q * q)] _ _ _) as [y2 z2]. cbn [fst] in *. rewrite A, B. reflexivity.
    + unfold lf_sample, get, mk. simpl. lst; try reflexivity; nra.
    + unfold lf_sample, get, mk. simpl. lst; try reflexivity; nra.
Qed.
Print Assumptions C63_start_of_stream.

(** ** Concrete cases *)
(** three octaves with mixed orders *)
Example C63_reachable bn : exists bank, make_bank bn [50; 12; 200] [2%nat; 1%nat; 4%nat] 800 = Ok bank /\ length bank = 3%nat /\
  allpass [1; 2; 3] (lr_summed bank [1; 2; 3]).
Proof.
  assert (I4 : INR 800 = 800) by (rewrite INR_IZR_INZ; f_equal). 
  assert (B : exists bank, make_bank bn [50; 12; 200] [2%nat; 1%nat; 4%nat] 800 = Ok bank /\ length bank = 3%nat).
  { unfold make_bank. cbn [length Nat.eqb]. assert (F : forallb (fun f => if Rle_dec f (INR (800 / 2)) then true else false) [50; 12; 200] = true).
    { replace (INR (800 / 2)) with 400 by (rewrite INR_IZR_INZ; reflexivity). cbn [forallb]. repeat (match goal with |- context [Rle_dec ?a ?b] => destruct (Rle_dec a b); [|exfalso; lra] end). reflexivity. }
    rewrite F. cbn [negb combine]. unfold sort_f. cbn [fold_right insert_f fst]. repeat (match goal with |- context [Rle_dec ?a ?b] => destruct (Rle_dec a b); try (exfalso; lra) end; cbn [insert_f fst]).
    all: cbn [map fst snd]; rewrite !crossover_form by (rewrite ?I4; auto; lra); cbn [all_ok bind]; eexists; split; reflexivity. }
  destruct B as (bank & B & L). exists bank. split; auto. split; auto.
  eapply C63_sum_of_bands_is_allpass; eauto. rewrite I4. simpl. intros f [<- | [<- | [<- | []]]]; lra. simpl. intuition.
Qed.
Example C63_stream_case bn : exists bank, make_bank bn (repeat 1 2) [2%nat] 4 = Ok bank /\ joined 0 (lr_stream bank [[1; 2]; [3]]) = joined 0 (lr_stream bank [[1; 2; 3]]).
Proof. exists [quarter; quarter]. split. apply (bank_quarter bn 1). apply (C63_streaming [quarter; quarter] [[1; 2]; [3]]). simpl. lia. Qed.
