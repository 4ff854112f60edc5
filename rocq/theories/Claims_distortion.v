(** C95: the distortion effect. *)
From Coq Require Import List Arith Lia ZArith Bool Reals Lra.
From Verif Require Import Alg Spec M_arrays M_signal M_effects P_arrays P_signal.
Import ListNotations.
Local Open Scope R_scope.

(** ** spec *)
Definition peak_of (x : list R) (p : R) : Prop := (forall v, In v x -> Rabs v <= p) /\ (exists v, In v x /\ Rabs v = p).
Definition decibels (g : option R) : R := match g with Some v => Rpower 10 (v / 20) | None => 1 end.
Definition offset_of (o : option R) : R := match o with Some v => Rpower 10 (v / 20) | None => 0 end.
(** the curves: [n] is the sample relative to the peak of its channel *)
Definition limited (b u : R) : R := if Rlt_dec u (- b) then - b else if Rlt_dec b u then b else u.
Definition cubic (u : R) : R := u - u * u * u / 3.
Definition curve (f : dist_fun) (level : R) (o : option R) (n : R) : R :=
  let L := Rpower 10 (level / 20) in
  match f with
  | FArctan => 2 / PI * atan (L * n + offset_of o)
  | FHard => limited 1 (L * n + offset_of o)
  | FSoft => limited (2 / 3) (cubic (L * (2 / 3 * n + offset_of o)))
  | FClean => n
  end.
Definition settings (d : distortion) : Prop := (length (d_mix d) = length (d_funs d) /\ length (d_levels d) = length (d_funs d) /\ length (d_offsets d) = length (d_funs d))%nat.
(** the part of function i in the output at a sample: [q] the peak of the curve over the channel *)
Definition signum (m : R) : R := if Rlt_dec m 0 then -1 else 1.
Definition part (d : distortion) (p : R) (q : nat -> R) (i : nat) (v : R) : R :=
  if Req_EM_T (nth i (d_mix d) 0) 0 then 0
  else signum (nth i (d_mix d) 0) * p * (curve (nth i (d_funs d) FClean) (nth i (d_levels d) 0) (nth i (d_offsets d) None) (v / p) / q i).

(** ** lemmas *)
Lemma peak_of_vpeak : forall x p, peak_of x p -> vpeak x = p.
Proof.
  intros x p (H1 & v & Hv & E). apply Rle_antisym.
  - destruct (vpeak_att x) as [->|(w & Hw & ->)]; [destruct Hv|]. apply H1, Hw.
  - rewrite <- E. apply vpeak_ge, Hv.
Qed.
Lemma vpeak_peak_of : forall x, x <> [] -> peak_of x (vpeak x).
Proof. intros x H. split; [intros v Hv; apply vpeak_ge, Hv|]. destruct (vpeak_att x) as [E|(v & Hv & E)]; [congruence|]. exists v. split; [exact Hv|symmetry; exact E]. Qed.
Lemma peak_of_unique : forall x p q, peak_of x p -> peak_of x q -> p = q.
Proof. intros x p q H K. apply peak_of_vpeak in H, K. congruence. Qed.
Lemma vpeak_map : forall (c : R) x, vpeak (map (fun v => v * c) x) = vpeak x * Rabs c.
Proof.
  intros c x. induction x as [|a x IH]; cbn [map vpeak fold_right]; [ring|]. unfold vpeak in IH. rewrite IH, Rabs_mult. rewrite Rmult_comm, (Rmult_comm _ (Rabs c)), (Rmult_comm (Rmax _ _)). apply RmaxRmult, Rabs_pos.
Qed.
Lemma clip_limited : forall b u, 0 < b -> clip (- b) b u = limited b u.
Proof.
  intros b u H. unfold clip, limited. destruct (Rlt_dec u (- b)); [rewrite Rmax_right by lra; apply Rmin_left; lra|]. rewrite Rmax_left by lra. destruct (Rlt_dec b u); [apply Rmin_right; lra|apply Rmin_left; lra].
Qed.
Lemma shape_curve : forall f l o n, shape_sample f (linear (Some l)) (linear o) n = curve f l o n.
Proof.
  intros f l o n. unfold shape_sample, curve. replace (linear o) with (offset_of o) by (destruct o; reflexivity). cbn [linear]. destruct f.
  - rewrite (Rmult_comm n). ring.
  - rewrite (Rmult_comm n). apply (clip_limited 1). lra.
  - rewrite clip_limited by lra. f_equal. unfold cubic. field.
  - reflexivity.
Qed.
Lemma distort_curve : forall f l o x p, peak_of x p -> p <> 0 -> exists c, c <> 0 /\ 0 < c /\ distort f l o x = Some (map (fun v => curve f l o (v / p) * c) x) /\ (f <> FClean -> c = 1).
Proof.
  intros f l o x p Hp Hz. pose proof (peak_of_vpeak _ _ Hp) as E. assert (P : 0 < p) by (destruct Hp as (_ & v & _ & K); pose proof (Rabs_pos v); lra). unfold distort. rewrite E.
  destruct f; try (exists 1; split; [lra|split; [lra|split; [|reflexivity]]]; destruct (Req_EM_T p 0); [lra|]; f_equal; apply map_ext; intro v; rewrite shape_curve; ring).
  exists p. split; [lra|split; [lra|split; [|congruence]]]. f_equal. rewrite <- (map_id x) at 1. apply map_ext. intro v. cbn [curve]. field. exact Hz.
Qed.
(** restoring the peak forgets every factor but its sign *)
Lemma restore_scale : forall p y m, m <> 0 -> restore p (map (fun v => v * m) y) = restore p (map (fun v => v * signum m) y).
Proof.
  intros p y m H. unfold restore. rewrite !vpeak_map. assert (A : 0 < Rabs m) by (apply Rabs_pos_lt, H). assert (S1 : Rabs (signum m) = 1) by (unfold signum; destruct (Rlt_dec m 0); [rewrite Rabs_left|rewrite Rabs_right]; lra).
  rewrite S1, Rmult_1_r. pose proof (vpeak_pos y) as V. destruct (Req_EM_T (vpeak y * Rabs m) 0) as [E|E], (Req_EM_T (vpeak y) 0) as [F|F]; try reflexivity.
  - exfalso. apply Rmult_integral in E. lra.
  - exfalso. apply E. rewrite F. ring.
  - f_equal. rewrite !map_map. apply map_ext. intro v. assert (Hm : m = signum m * Rabs m) by (unfold signum; destruct (Rlt_dec m 0); [rewrite Rabs_left by lra; ring|rewrite Rabs_right by lra; ring]).
    rewrite Hm at 1. field. split; lra.
Qed.
Lemma restore_some : forall p y q m, peak_of y q -> q <> 0 -> m <> 0 -> restore p (map (fun v => v * m) y) = Some (map (fun v => signum m * p * (v / q)) y).
Proof.
  intros p y q m Hq Hz Hm. rewrite restore_scale by exact Hm. apply peak_of_vpeak in Hq. unfold restore. rewrite vpeak_map, Hq. assert (S1 : Rabs (signum m) = 1) by (unfold signum; destruct (Rlt_dec m 0); [rewrite Rabs_left|rewrite Rabs_right]; lra).
  rewrite S1, Rmult_1_r. destruct (Req_EM_T q 0); [lra|]. f_equal. rewrite map_map. apply map_ext. intro v. field. exact Hz.
Qed.
Lemma nth_error_get : forall (T : Type) (l : list T) i d, (i < length l)%nat -> nth_error l i = Some (nth i l d).
Proof. intros T l i d H. apply nth_error_nth'. exact H. Qed.

Lemma peak_of_scaled : forall (c : R) (g : R -> R) x q, 0 < c -> peak_of (map g x) q -> peak_of (map (fun v => g v * c) x) (q * c).
Proof.
  intros c g x q Hc (H1 & w & Hw & E). split.
  - intros v Hv. apply in_map_iff in Hv. destruct Hv as (u & <- & Hu). rewrite Rabs_mult, (Rabs_right c) by lra. apply Rmult_le_compat_r; [lra|]. apply H1, in_map, Hu.
  - apply in_map_iff in Hw. destruct Hw as (u & <- & Hu). exists (g u * c). split; [apply (in_map (fun v => g v * c)), Hu|]. rewrite Rabs_mult, (Rabs_right c) by lra. rewrite E. reflexivity.
Qed.
(** one term of the loop *)
Lemma term_some : forall d p q x i, peak_of x p -> p <> 0 -> nth i (d_mix d) 0 <> 0 ->
  peak_of (map (fun v => curve (nth i (d_funs d) FClean) (nth i (d_levels d) 0) (nth i (d_offsets d) None) (v / p)) x) (q i) -> q i <> 0 ->
  match distort (nth i (d_funs d) FClean) (nth i (d_levels d) 0) (nth i (d_offsets d) None) x with
  | Some y => restore (vpeak x) (map (fun v => v * nth i (d_mix d) 0) y) | None => None end = Some (map (part d p q i) x).
Proof.
  intros d p q x i Hp Hz Hm Hq Hqz. destruct (distort_curve (nth i (d_funs d) FClean) (nth i (d_levels d) 0) (nth i (d_offsets d) None) x p Hp Hz) as (c & Hc & Hc' & E & _).
  rewrite E. rewrite (peak_of_vpeak _ _ Hp). rewrite (restore_some p _ (q i * c) _ (peak_of_scaled _ _ _ _ Hc' Hq)) by (try exact Hm; nra). f_equal. rewrite map_map. apply map_ext. intro v.
  unfold part. destruct (Req_EM_T (nth i (d_mix d) 0) 0); [lra|]. field. split; assumption.
Qed.
Lemma add_opt_some : forall (f g : R -> R) x, add_opt (Some (map f x)) (Some (map g x)) = Some (map (fun v => f v + g v) x).
Proof. intros f g x. unfold add_opt. f_equal. induction x as [|a x IH]; [reflexivity|]. cbn [map combine]. rewrite IH. reflexivity. Qed.
Lemma loop_law : forall d x p q, settings d -> peak_of x p -> p <> 0 ->
  (forall i, (i < length (d_funs d))%nat -> nth i (d_mix d) 0 <> 0 -> peak_of (map (fun v => curve (nth i (d_funs d) FClean) (nth i (d_levels d) 0) (nth i (d_offsets d) None) (v / p)) x) (q i) /\ q i <> 0) ->
  forall fs i (acc : R -> R), d_funs d = firstn i (d_funs d) ++ fs -> (i <= length (d_funs d))%nat ->
  mix_loop d x i fs (Some (map acc x)) = Ok (Some (map (fun v => acc v + sum (HA := CRing_R) (length fs) (fun k => part d p q (i + k) v)) x)).
Proof.
  intros d x p q (S1 & S2 & S3) Hp Hz Hq. induction fs as [|f fs IH]; intros i acc E Hi.
  - cbn [mix_loop length sum]. do 2 f_equal. apply map_ext. intro v. change (@r0 R CRing_R) with 0. ring.
  - assert (Hi' : (i < length (d_funs d))%nat).
    { apply (f_equal (@length _)) in E. rewrite app_length, firstn_length in E. cbn [length] in E. lia. }
    assert (Ef : nth i (d_funs d) FClean = f).
    { rewrite E at 1. rewrite app_nth2 by (rewrite firstn_length; lia). rewrite firstn_length, Nat.min_l, Nat.sub_diag by lia. reflexivity. }
    assert (E' : d_funs d = firstn (S i) (d_funs d) ++ fs).
    { rewrite E at 2. rewrite firstn_app, firstn_length, Nat.min_l by lia. rewrite firstn_firstn, Nat.min_r by lia. replace (S i - i)%nat with 1%nat by lia. cbn [firstn]. rewrite <- app_assoc. exact E. }
    cbn [mix_loop]. rewrite (nth_error_get _ (d_mix d) i 0) by lia. rewrite (nth_error_get _ (d_levels d) i 0) by lia. rewrite (nth_error_get _ (d_offsets d) i None) by lia.
    destruct (Req_EM_T (nth i (d_mix d) 0) 0) as [Z|Z].
    + rewrite (IH (S i) acc E') by lia. do 2 f_equal. apply map_ext. intro v. cbn [length]. rewrite (sum_S_front (HA := CRing_R)). rewrite Nat.add_0_r. unfold part at 2. destruct (Req_EM_T (nth i (d_mix d) 0) 0); [|lra].
      change (@radd R CRing_R) with Rplus. rewrite Rplus_0_l. f_equal. apply (sum_ext (HA := CRing_R)). intros k _. replace (S i + k)%nat with (i + S k)%nat by lia. reflexivity.
    + destruct (Hq i Hi' Z) as (Q1 & Q2). pose proof (term_some d p q x i Hp Hz Z Q1 Q2) as T. rewrite Ef in T. rewrite T. rewrite add_opt_some. rewrite (IH (S i) _ E') by lia. do 2 f_equal. apply map_ext. intro v. cbn [length].
      rewrite (sum_S_front (HA := CRing_R)), Nat.add_0_r. change (@radd R CRing_R) with Rplus. rewrite Rplus_assoc. do 2 f_equal. apply (sum_ext (HA := CRing_R)). intros k _. replace (S i + k)%nat with (i + S k)%nat by lia. reflexivity.
Qed.
Lemma post_gain_map : forall g (f : R -> R) x, post_gain g (map f x) = map (fun v => decibels g * f v) x.
Proof. intros [g|] f x; cbn [post_gain decibels]; [rewrite map_map|]; apply map_ext; intro v; ring. Qed.

(** The law of the effect: each function with an amount other than zero contributes its curve over the channel, brought to the peak of the channel; of
    the amounts only the sign is left. The sum gets the gain. *)
Theorem C95_law : forall d x p q, settings d -> peak_of x p -> p <> 0 ->
  (forall i, (i < length (d_funs d))%nat -> nth i (d_mix d) 0 <> 0 -> peak_of (map (fun v => curve (nth i (d_funs d) FClean) (nth i (d_levels d) 0) (nth i (d_offsets d) None) (v / p)) x) (q i) /\ q i <> 0) ->
  apply_distortion d x = Ok (Some (map (fun v => decibels (d_post d) * sum (HA := CRing_R) (length (d_funs d)) (fun i => part d p q i v)) x)).
Proof.
  intros d x p q S Hp Hz Hq. unfold apply_distortion. replace (repeat 0 (length x)) with (map (fun _ : R => 0) x) by (clear; induction x; cbn; congruence).
  rewrite (loop_law d x p q S Hp Hz Hq (d_funs d) 0%nat (fun _ => 0) eq_refl ltac:(lia)). cbn [bind option_map]. rewrite post_gain_map. do 2 f_equal. apply map_ext. intro v. rewrite Rplus_0_l. reflexivity.
Qed.
Print Assumptions C95_law.

(** ** settings *)
Definition known (t : dist_type) : Prop := t <> OtherType.
Definition fun_of (t : dist_type) : dist_fun := match t with Arctan => FArctan | HardClip => FHard | SoftClip => FSoft | _ => FClean end.
Lemma select_known : forall l, (forall t, In t l -> known t) -> select l = (map fun_of l, Ok tt).
Proof.
  induction l as [|t l IH]; intro H; [reflexivity|]. cbn [select]. rewrite IH by (intros; apply H; right; assumption). pose proof (H t ltac:(left; reflexivity)) as K. unfold known in K. destruct t; try reflexivity. congruence.
Qed.
Lemma select_unknown : forall l, In OtherType l -> snd (select l) = Err ValueError.
Proof.
  induction l as [|t l IH]; intro H; [destruct H|]. cbn [select]. destruct t; try (destruct H as [H|H]; [discriminate|]; specialize (IH H); destruct (select l); exact IH). reflexivity.
Qed.
Lemma mix_all : forall mix, forallb (fun m => if Rle_dec m 100 then true else false) mix = true <-> forall m, In m mix -> m <= 100.
Proof. intro mix. rewrite forallb_forall. split; intros H m Hm; specialize (H m Hm); destruct (Rle_dec m 100); try lra; try reflexivity; discriminate. Qed.
Definition near_one (x : R) : Prop := Rabs (x - 1) <= 1 / 10 ^ 8 + 1 / 10 ^ 5.
Lemma close_iff : forall x, close_to_one x = true <-> near_one x.
Proof. intro x. unfold close_to_one, near_one. rewrite Rmult_1_r. destruct (Rle_dec _ _); split; intro H; try reflexivity; try assumption; try discriminate. contradiction. Qed.

(** Exactly these settings are accepted, and an accepted call leaves nothing of the settings before: one function with one amount, level and offset is
    completed by the clean signal, several functions need as many amounts, levels and offsets, and amounts that add up to 100. *)
Theorem C95_accepted : forall types levels mix offsets post d,
  (snd (set_distortion types levels mix offsets post d) = Ok tt <->
    (forall t, In t types -> known t) /\ (forall m, In m mix -> m <= 100) /\ (length mix = length types /\ length levels = length types /\ length offsets = length types)%nat /\
    (length types = 1%nat \/ near_one (sum_of (map (fun m => m / 100) mix)))) /\
  (snd (set_distortion types levels mix offsets post d) = Ok tt ->
    settings (fst (set_distortion types levels mix offsets post d)) /\ forall d', set_distortion types levels mix offsets post d' = set_distortion types levels mix offsets post d).
Proof.
  intros types levels mix offsets post d. unfold set_distortion. pose proof (mix_all mix) as MA. destruct (forallb _ mix) eqn:EM; cbn [negb].
  2:{ split; [|discriminate]. split; [discriminate|]. intros (_ & K & _). apply MA in K. discriminate. }
  assert (Hm : forall m, In m mix -> m <= 100) by (apply MA; reflexivity). clear MA.
  destruct (in_dec (fun a b : dist_type => ltac:(decide equality) : {a = b} + {a <> b}) OtherType types) as [Hin|Hin].
  { pose proof (select_unknown _ Hin) as K. destruct (select types) as (fs, r). cbn [snd] in K. subst r. split; [|discriminate]. split; [discriminate|]. intros (K & _). exfalso. apply (K OtherType Hin). reflexivity. }
  assert (Hk : forall t, In t types -> known t) by (intros t Ht ->; contradiction). rewrite (select_known _ Hk). set (mx := map (fun m => m / 100) mix).
  assert (Lx : length mx = length mix) by apply map_length.
  destruct types as [|t1 [|t2 types]].
  - cbn [map length Nat.eqb d_funs d_mix d_levels d_offsets]. destruct mx as [|a mx'] eqn:EX; cbn [length Nat.eqb andb].
    + assert (C : close_to_one (sum_of []) = false).
      { destruct (close_to_one (sum_of [])) eqn:C; [|reflexivity]. apply close_iff in C. unfold near_one, sum_of in C. cbn in C. rewrite Rabs_left in C by lra. lra. }
      rewrite C. cbn [andb]. split; [|discriminate]. split; [discriminate|]. intros (_ & _ & _ & [K|K]); [discriminate|]. apply close_iff in K. congruence.
    + split; [|discriminate]. split; [discriminate|]. intros (_ & _ & (K & _) & _). exfalso. cbn [length] in K, Lx. rewrite K in Lx. discriminate.
  - cbn [map]. destruct mx as [|a mx'] eqn:EX.
    + split; [|discriminate]. split; [discriminate|]. intros (_ & _ & (K & _) & _). exfalso. cbn [length] in K, Lx. lia.
    + cbn [length Nat.eqb app d_funs d_mix d_levels d_offsets hd]. rewrite !app_length. cbn [length].
      assert (Q : ((1 + 1 =? S (length mx' + 1)) && close_to_one (sum_of (a :: mx' ++ [(1 - a)%R])) && (1 + 1 =? length levels + 1) && (1 + 1 =? length offsets + 1))%nat%bool = true <->
        (length mix = 1 /\ length levels = 1 /\ length offsets = 1)%nat).
      { rewrite !andb_true_iff, !Nat.eqb_eq. cbn [length] in Lx. split; [intros (((A & _) & B) & C); lia|]. intros (A & B & C). assert (mx' = []) as -> by (apply length_zero_iff_nil; lia).
        repeat split; try (cbn [length]; lia). apply close_iff. unfold near_one, sum_of. cbn. replace (a + (1 - a + 0) - 1) with 0 by ring. rewrite Rabs_R0. lra. }
      match goal with |- context [if ?b then _ else _] => destruct b eqn:EB end; cbn [fst snd].
      * assert (K := proj1 Q EB). split; [split; [|reflexivity]|].
        -- intros _. split; [exact Hk|]. split; [exact Hm|]. split; [exact K|]. left; reflexivity.
        -- intros _. split; [|reflexivity]. unfold settings. cbn [d_funs d_mix d_levels d_offsets app length]. rewrite !app_length. cbn [length] in *. lia.
      * split; [|discriminate]. split; [discriminate|]. intros (_ & _ & K & _). exfalso. cbn [length] in K. apply Q in K. assert (X : true = false) by (rewrite <- EB; symmetry; exact K). discriminate X.
  - cbn [map]. cbn beta iota zeta. replace (length (fun_of t1 :: fun_of t2 :: map fun_of types) =? 1)%nat with false by reflexivity. cbn [d_funs d_mix d_levels d_offsets length].
    replace (length (map fun_of types)) with (length types) by (symmetry; apply map_length).
    all: destruct ((S (S (length types)) =? length mx) && close_to_one (sum_of mx) && (S (S (length types)) =? length levels) && (S (S (length types)) =? length offsets))%nat%bool eqn:EB; cbn [fst snd].
    all: try (apply andb_true_iff in EB; destruct EB as (EB & E4); apply andb_true_iff in EB; destruct EB as (EB & E3); apply andb_true_iff in EB; destruct EB as (E1 & E2); apply Nat.eqb_eq in E1, E3, E4; apply close_iff in E2;
      split; [split; [intros _; split; [exact Hk|split; [exact Hm|split; [lia|right; exact E2]]]|reflexivity]|intros _; split; [|reflexivity]; unfold settings; cbn [d_funs d_mix d_levels d_offsets length]; rewrite map_length; lia]).
    all: split; [|discriminate]; split; [discriminate|]; intros (_ & _ & (K1 & K2 & K3) & [K|K]); [discriminate|]; exfalso; apply close_iff in K; fold mx in K; rewrite K in EB; rewrite Lx, K1, K2, K3, !Nat.eqb_refl in EB; discriminate.
Qed.
Print Assumptions C95_accepted.

(** ** the amounts *)
Definition same_sign (a b : R) : Prop := (a = 0 <-> b = 0) /\ (a < 0 <-> b < 0).
Lemma signum_same : forall a b, same_sign a b -> signum a = signum b.
Proof. intros a b (_ & H). unfold signum. destruct (Rlt_dec a 0), (Rlt_dec b 0); tauto || reflexivity. Qed.
Lemma loop_same : forall fs lv os g g' m m' x, Forall2 same_sign m m' -> forall l i acc,
  mix_loop (mkD fs m lv os g) x i l acc = mix_loop (mkD fs m' lv os g') x i l acc.
Proof.
  intros fs lv os g g' m m' x H. induction l as [|f l IH]; intros i acc; [reflexivity|]. cbn [mix_loop d_mix d_levels d_offsets].
  assert (N : match nth_error m i, nth_error m' i with Some a, Some b => same_sign a b | None, None => True | _, _ => False end).
  { clear - H. revert i. induction H as [|a b m m' S F IH]; intros [|i]; cbn; try exact I; [exact S|apply IH]. }
  destruct (nth_error m i) as [a|], (nth_error m' i) as [b|]; try contradiction; [|reflexivity]. pose proof (signum_same _ _ N) as SG. destruct N as (N & _).
  destruct (Req_EM_T a 0) as [A|A], (Req_EM_T b 0) as [B|B]; try (exfalso; tauto); [apply IH|]. destruct (nth_error lv i) as [l0|]; [|reflexivity]. destruct (nth_error os i) as [o0|]; [|reflexivity]. rewrite IH. f_equal. f_equal.
  destruct (distort f l0 o0 x) as [y|]; [|reflexivity]. rewrite (restore_scale _ _ a A), (restore_scale _ _ b B), SG. reflexivity.
Qed.
Lemma single_set : forall t l m o post d, known t -> m <= 100 ->
  set_distortion [t] [l] [m] [o] post d = (mkD [fun_of t; FClean] [m / 100; 1 - m / 100] [l; 0] [o; None] post, Ok tt).
Proof.
  intros t l m o post d Ht Hm. unfold set_distortion. cbn [forallb]. destruct (Rle_dec m 100); [|lra]. cbn [andb negb]. rewrite select_known by (intros x [<-|[]]; exact Ht). cbn -[sum_of close_to_one Rdiv].
  assert (C : close_to_one (sum_of [m / 100; 1 - m / 100]) = true).
  { apply close_iff. unfold near_one, sum_of. cbn [fold_right]. replace (m / 100 + (1 - m / 100 + 0) - 1) with 0 by lra. rewrite Rabs_R0. lra. }
  rewrite C. reflexivity.
Qed.

(** The amounts do not matter: only which are zero and which negative. With one function every amount between 0 and 100 percent gives the same sound. *)
Theorem C95_mix_refuted : 
  (forall fs lv os g m m' x, Forall2 same_sign m m' -> apply_distortion (mkD fs m lv os g) x = apply_distortion (mkD fs m' lv os g) x) /\
  (forall t l o post d x a b, known t -> 0 < a < 100 -> 0 < b < 100 ->
    apply_distortion (fst (set_distortion [t] [l] [a] [o] post d)) x = apply_distortion (fst (set_distortion [t] [l] [b] [o] post d)) x).
Proof.
  assert (A : forall fs lv os g m m' x, Forall2 same_sign m m' -> apply_distortion (mkD fs m lv os g) x = apply_distortion (mkD fs m' lv os g) x).
  { intros fs lv os g m m' x H. unfold apply_distortion. cbn [d_funs d_post]. rewrite (loop_same fs lv os g g m m' x H). reflexivity. }
  split; [exact A|]. intros t l o post d x a b Ht Ha Hb. rewrite !single_set by (try exact Ht; lra). cbn [fst]. apply A. unfold same_sign. repeat constructor; intro; lra.
Qed.
Print Assumptions C95_mix_refuted.
Example C95_mix_example : apply_distortion (fst (set_distortion [HardClip] [20] [1] [None] (Some 0) (mkD [] [] [] [] None))) [1; -2] = apply_distortion (fst (set_distortion [HardClip] [20] [99] [None] (Some 0) (mkD [] [] [] [] None))) [1; -2].
Proof. apply C95_mix_refuted; [discriminate|lra|lra]. Qed.

(** ** peaks *)
Lemma single_full : forall t l o post d x p q, known t -> peak_of x p -> p <> 0 -> peak_of (map (fun v => curve (fun_of t) l o (v / p)) x) q -> q <> 0 ->
  apply_distortion (fst (set_distortion [t] [l] [100] [o] post d)) x = Ok (Some (map (fun v => decibels post * (p * (curve (fun_of t) l o (v / p) / q))) x)).
Proof.
  intros t l o post d x p q Ht Hp Hz Hq Hqz. rewrite single_set by (try exact Ht; lra). cbn [fst]. rewrite (C95_law _ x p (fun _ => q)).
  - do 2 f_equal. apply map_ext. intro v. cbn [d_post d_funs length sum]. unfold part. cbn [d_mix d_funs d_levels d_offsets nth]. destruct (Req_EM_T (100 / 100) 0); [lra|]. destruct (Req_EM_T (1 - 100 / 100) 0); [|lra].
    unfold signum. destruct (Rlt_dec (100 / 100) 0); [lra|]. change (@radd R CRing_R) with Rplus. change (@r0 R CRing_R) with 0. ring.
  - repeat split.
  - exact Hp.
  - exact Hz.
  - cbn [d_funs length d_mix d_levels d_offsets]. intros [|[|i]] Hi Hm; [split; assumption| |lia]. cbn [nth] in Hm. lra.
Qed.
Lemma full_or_nan : forall t l o post d x p, known t -> peak_of x p -> p <> 0 -> 
  (forall v, In v x -> curve (fun_of t) l o (v / p) = 0) -> apply_distortion (fst (set_distortion [t] [l] [100] [o] post d)) x = Ok None.
Proof.
  intros t l o post d x p Ht Hp Hz H0. rewrite single_set by (try exact Ht; lra). cbn [fst]. unfold apply_distortion. cbn [d_funs mix_loop d_mix d_levels d_offsets nth_error d_post].
  destruct (Req_EM_T (100 / 100) 0); [lra|]. destruct (Req_EM_T (1 - 100 / 100) 0); [|lra]. destruct (distort_curve (fun_of t) l o x p Hp Hz) as (c & Hc & _ & E & _). rewrite E.
  assert (Z : vpeak (map (fun v => v * (100 / 100)) (map (fun v => curve (fun_of t) l o (v / p) * c) x)) = 0).
  { rewrite vpeak_map. replace (vpeak (map _ x)) with 0; [ring|]. clear - H0. induction x as [|a x IH]; [reflexivity|]. cbn [map vpeak fold_right]. rewrite H0 by (left; reflexivity). rewrite Rmult_0_l, Rabs_R0.
    unfold vpeak in IH. rewrite <- IH by (intros; apply H0; right; assumption). rewrite Rmax_left by lra. reflexivity. }
  unfold restore. destruct (Req_EM_T _ 0) as [_|K]; [|contradiction]. reflexivity.
Qed.

(** One function alone (100 percent): the output has the peak of the input times the gain, or is nan where the curve is zero for all samples. *)
Theorem C95_peak : forall t l o post d x p, known t -> peak_of x p -> p <> 0 ->
  (exists y, apply_distortion (fst (set_distortion [t] [l] [100] [o] post d)) x = Ok (Some y) /\ peak_of y (decibels post * p)) \/
  (apply_distortion (fst (set_distortion [t] [l] [100] [o] post d)) x = Ok None /\ forall v, In v x -> curve (fun_of t) l o (v / p) = 0).
Proof.
  intros t l o post d x p Ht Hp Hz. assert (Hx : x <> []) by (destruct Hp as (_ & v & Hv & _); destruct x; [destruct Hv|discriminate]).
  set (ys := map (fun v => curve (fun_of t) l o (v / p)) x). assert (Hq : peak_of ys (vpeak ys)) by (apply vpeak_peak_of; unfold ys; destruct x; [congruence|discriminate]).
  destruct (Req_EM_T (vpeak ys) 0) as [Q|Q].
  - right. assert (Z : forall v, In v x -> curve (fun_of t) l o (v / p) = 0).
    { intros v Hv. destruct Hq as (B & _). rewrite Q in B. specialize (B (curve (fun_of t) l o (v / p))). assert (B' : Rabs (curve (fun_of t) l o (v / p)) <= 0) by (apply B; unfold ys; apply (in_map (fun v => curve (fun_of t) l o (v / p))), Hv). unfold Rabs in B'. destruct (Rcase_abs _); lra. }
    split; [apply (full_or_nan t l o post d x p Ht Hp Hz Z)|exact Z].
  - left. eexists. split; [apply (single_full t l o post d x p (vpeak ys) Ht Hp Hz Hq Q)|]. assert (G : 0 < decibels post) by (destruct post; cbn; [apply exp_pos|lra]).
    assert (P : 0 < p) by (destruct Hp as (_ & v & _ & K); pose proof (Rabs_pos v); lra). assert (V : 0 < vpeak ys) by (pose proof (vpeak_pos ys); lra). set (q := vpeak ys) in *.
    assert (AB : forall v, Rabs (decibels post * (p * (curve (fun_of t) l o (v / p) / q))) = decibels post * p * (Rabs (curve (fun_of t) l o (v / p)) / q)).
    { intro v. unfold Rdiv. rewrite !Rabs_mult, (Rabs_right (decibels post)), (Rabs_right p), (Rabs_right (/ q)) by (try lra; left; apply Rinv_0_lt_compat; exact V). ring. }
    destruct Hq as (B & w & Hw & Ew). split.
    + intros u Hu. apply in_map_iff in Hu. destruct Hu as (v & <- & Hv). rewrite AB. rewrite <- (Rmult_1_r (decibels post * p)) at 2. apply Rmult_le_compat_l; [nra|]. apply Rmult_le_reg_r with q; [exact V|].
      unfold Rdiv. rewrite Rmult_assoc, Rinv_l, Rmult_1_r, Rmult_1_l by lra. apply B. unfold ys. apply (in_map (fun v => curve (fun_of t) l o (v / p))), Hv.
    + unfold ys in Hw. apply in_map_iff in Hw. destruct Hw as (v & <- & Hv). eexists. split; [apply in_map, Hv|]. rewrite AB, Ew. field. lra.
Qed.
Print Assumptions C95_peak.
Example C95_peak_example : peak_of [1; -2] 2 /\ curve FHard 0 None (1 / 2) <> 0.
Proof.
  split; [split; [intros v [<-|[<-|[]]]; [rewrite Rabs_right|rewrite Rabs_left]; lra|exists (-2); split; [right; left; reflexivity|rewrite Rabs_left; lra]]|].
  unfold curve, offset_of, limited. replace (Rpower 10 (0 / 20)) with 1 by (unfold Rdiv; rewrite Rmult_0_l, Rpower_O; lra). destruct (Rlt_dec _ _); [lra|]. destruct (Rlt_dec _ _); lra.
Qed.

(** odd increasing curves: arctan and hard clipping without offset, and the clean signal *)
Definition odd_type (t : dist_type) : Prop := t = Arctan \/ t = HardClip \/ t = NoDistortion.
Lemma curve_odd : forall t l n, odd_type t -> curve (fun_of t) l None (- n) = - curve (fun_of t) l None n.
Proof.
  intros t l n [-> | [-> | ->]]; unfold curve, fun_of, offset_of.
  - replace (Rpower 10 (l / 20) * - n + 0) with (- (Rpower 10 (l / 20) * n + 0)) by ring. rewrite atan_opp. ring.
  - unfold limited. set (u := Rpower 10 (l / 20) * n). replace (Rpower 10 (l / 20) * - n + 0) with (- u) by (unfold u; ring). replace (u + 0) with u by ring.
    destruct (Rlt_dec (- u) (- (1))), (Rlt_dec 1 (- u)), (Rlt_dec u (- (1))), (Rlt_dec 1 u); lra.
  - reflexivity.
Qed.
Lemma limited_mono : forall b u v, 0 < b -> u <= v -> limited b u <= limited b v.
Proof. intros b u v Hb H. unfold limited. destruct (Rlt_dec u (- b)), (Rlt_dec b u), (Rlt_dec v (- b)), (Rlt_dec b v); lra. Qed.
Lemma curve_mono : forall t l o n m, odd_type t -> n <= m -> curve (fun_of t) l o n <= curve (fun_of t) l o m.
Proof.
  intros t l o n m H K. assert (L : 0 < Rpower 10 (l / 20)) by apply exp_pos. assert (Q : Rpower 10 (l / 20) * n + offset_of o <= Rpower 10 (l / 20) * m + offset_of o) by nra.
  destruct H as [-> | [-> | ->]]; unfold curve, fun_of.
  - apply Rmult_le_compat_l; [left; apply Rdiv_lt_0_compat; [lra|apply PI_RGT_0]|]. destruct Q as [Q|Q]; [left; apply atan_increasing, Q|rewrite Q; lra].
  - apply limited_mono; [lra|exact Q].
  - exact K.
Qed.
Lemma curve_one : forall t l, odd_type t -> 0 < curve (fun_of t) l None 1.
Proof.
  intros t l H. assert (L : 0 < Rpower 10 (l / 20)) by apply exp_pos. destruct H as [-> | [-> | ->]]; unfold curve, fun_of, offset_of.
  - apply Rmult_lt_0_compat; [apply Rdiv_lt_0_compat; [lra|apply PI_RGT_0]|]. pose proof (atan_increasing 0 (Rpower 10 (l / 20) * 1 + 0) ltac:(lra)) as A. rewrite atan_0 in A. exact A.
  - unfold limited. destruct (Rlt_dec _ _); [lra|]. destruct (Rlt_dec _ _); lra.
  - lra.
Qed.
Lemma ratio_bound : forall x p v, peak_of x p -> 0 < p -> In v x -> -1 <= v / p <= 1.
Proof.
  intros x p v (H & _) Hp Hv. specialize (H v Hv). assert (- p <= v <= p) by (unfold Rabs in H; destruct (Rcase_abs v); lra).
  split; apply Rmult_le_reg_r with p; try exact Hp; unfold Rdiv; rewrite Rmult_assoc, Rinv_l by lra; lra.
Qed.
Lemma curve_peak : forall t l x p, odd_type t -> peak_of x p -> 0 < p -> peak_of (map (fun v => curve (fun_of t) l None (v / p)) x) (curve (fun_of t) l None 1).
Proof.
  intros t l x p Ht Hp P. split.
  - intros u Hu. apply in_map_iff in Hu. destruct Hu as (v & <- & Hv). pose proof (ratio_bound x p v Hp P Hv) as (B1 & B2). apply Rabs_le. split; [|apply curve_mono; assumption].
    rewrite <- curve_odd by exact Ht. apply curve_mono; [exact Ht|lra].
  - destruct Hp as (_ & v & Hv & E). exists (curve (fun_of t) l None (v / p)). split; [apply (in_map (fun v => curve (fun_of t) l None (v / p))), Hv|]. pose proof (curve_one t l Ht).
    unfold Rabs in E. destruct (Rcase_abs v).
    + replace (v / p) with (- (1)) by (apply Rmult_eq_reg_r with p; [|lra]; unfold Rdiv; rewrite Rmult_assoc, Rinv_l by lra; lra). rewrite curve_odd by exact Ht. rewrite Rabs_left; lra.
    + replace (v / p) with 1 by (apply Rmult_eq_reg_r with p; [|lra]; unfold Rdiv; rewrite Rmult_assoc, Rinv_l by lra; lra). apply Rabs_right. lra.
Qed.

(** With an amount between 0 and 100 percent the peak is doubled, not kept. *)
Theorem C95_peak_refuted : forall t l post d x p m, odd_type t -> peak_of x p -> p <> 0 -> 0 < m < 100 ->
  exists y, apply_distortion (fst (set_distortion [t] [l] [m] [None] post d)) x = Ok (Some y) /\ peak_of y (decibels post * (2 * p)).
Proof.
  intros t l post d x p m Ht Hp Hz Hm. assert (Kt : known t) by (destruct Ht as [-> | [-> | ->]]; discriminate). assert (P : 0 < p) by (destruct Hp as (_ & v & _ & K); pose proof (Rabs_pos v); lra).
  rewrite single_set by (try exact Kt; lra). cbn [fst]. set (q := curve (fun_of t) l None 1). assert (Q : 0 < q) by (apply curve_one, Ht).
  rewrite (C95_law _ x p (fun i => if (i =? 0)%nat then q else 1)).
  - eexists. split; [reflexivity|]. assert (G : 0 < decibels post) by (destruct post; cbn; [apply exp_pos|lra]).
    assert (E : forall v, decibels (d_post (mkD [fun_of t; FClean] [m / 100; 1 - m / 100] [l; 0] [None; None] post)) * sum (HA := CRing_R) (length (d_funs (mkD [fun_of t; FClean] [m / 100; 1 - m / 100] [l; 0] [None; None] post)))
      (fun i => part (mkD [fun_of t; FClean] [m / 100; 1 - m / 100] [l; 0] [None; None] post) p (fun i => if (i =? 0)%nat then q else 1) i v) = decibels post * (p * (curve (fun_of t) l None (v / p) / q) + v)).
    { intro v. cbn [d_post d_funs length sum]. unfold part. cbn [d_mix d_funs d_levels d_offsets nth Nat.eqb]. destruct (Req_EM_T (m / 100) 0); [lra|]. destruct (Req_EM_T (1 - m / 100) 0); [lra|].
      unfold signum. destruct (Rlt_dec (m / 100) 0); [lra|]. destruct (Rlt_dec (1 - m / 100) 0); [lra|]. change (@radd R CRing_R) with Rplus. change (@r0 R CRing_R) with 0. cbn [curve]. field. lra. }
    rewrite (map_ext _ _ E). clear E. destruct (curve_peak t l x p Ht Hp P) as (B & _). fold q in B.
    assert (BB : forall v, In v x -> - p <= p * (curve (fun_of t) l None (v / p) / q) <= p).
    { intros v Hv. specialize (B _ (in_map (fun v => curve (fun_of t) l None (v / p)) x v Hv)). cbv beta in B. assert (- q <= curve (fun_of t) l None (v / p) <= q) by (unfold Rabs in B; destruct (Rcase_abs _); lra).
      assert (-1 <= curve (fun_of t) l None (v / p) / q <= 1) by (split; apply Rmult_le_reg_r with q; try exact Q; unfold Rdiv; rewrite Rmult_assoc, Rinv_l by lra; lra). nra. }
    split.
    + intros u Hu. apply in_map_iff in Hu. destruct Hu as (v & <- & Hv). rewrite Rabs_mult, (Rabs_right (decibels post)) by lra. apply Rmult_le_compat_l; [lra|]. specialize (BB v Hv). destruct Hp as (B0 & _). specialize (B0 v Hv).
      assert (- p <= v <= p) by (unfold Rabs in B0; destruct (Rcase_abs v); lra). apply Rabs_le. lra.
    + destruct Hp as (_ & v & Hv & E). eexists. split; [apply in_map, Hv|]. rewrite Rabs_mult, (Rabs_right (decibels post)) by lra. f_equal. unfold Rabs in E. destruct (Rcase_abs v) as [N|N].
      * replace (v / p) with (- (1)) by (apply Rmult_eq_reg_r with p; [|lra]; unfold Rdiv; rewrite Rmult_assoc, Rinv_l by lra; lra). rewrite curve_odd by exact Ht. fold q. replace (p * (- q / q)) with (- p) by (field; lra). rewrite Rabs_left; lra.
      * replace (v / p) with 1 by (apply Rmult_eq_reg_r with p; [|lra]; unfold Rdiv; rewrite Rmult_assoc, Rinv_l by lra; lra). fold q. replace (p * (q / q)) with p by (field; lra). rewrite Rabs_right; lra.
  - repeat split.
  - exact Hp.
  - exact Hz.
  - cbn [d_funs length d_mix d_levels d_offsets]. intros [|[|i]] Hi _; [| |lia]; cbn [nth Nat.eqb].
    + split; [apply curve_peak; assumption|lra].
    + split; [|lra]. pose proof (curve_peak NoDistortion 0 x p ltac:(right; right; reflexivity) Hp P) as K. exact K.
Qed.
Print Assumptions C95_peak_refuted.

(** ** scale, silence *)
Lemma vpeak_times : forall c x, 0 < c -> vpeak (map (Rmult c) x) = c * vpeak x.
Proof. intros c x H. rewrite (map_ext (Rmult c) (fun v => v * c)) by (intro; ring). rewrite vpeak_map, Rabs_right by lra. ring. Qed.
Lemma restore_times : forall c p y, 0 < c -> restore (c * p) y = option_map (map (Rmult c)) (restore p y).
Proof. intros c p y H. unfold restore. destruct (Req_EM_T (vpeak y) 0); [reflexivity|]. cbn [option_map]. f_equal. rewrite map_map. apply map_ext. intro v. field. assumption. Qed.
Lemma term_times : forall c f l o m x, 0 < c -> m <> 0 ->
  match distort f l o (map (Rmult c) x) with Some y => restore (vpeak (map (Rmult c) x)) (map (fun v => v * m) y) | None => None end =
  option_map (map (Rmult c)) (match distort f l o x with Some y => restore (vpeak x) (map (fun v => v * m) y) | None => None end).
Proof.
  intros c f l o m x Hc Hm. rewrite (vpeak_times c x Hc).
  assert (G : forall f, f <> FClean -> match distort f l o (map (Rmult c) x) with Some y => restore (c * vpeak x) (map (fun v => v * m) y) | None => None end =
    option_map (map (Rmult c)) (match distort f l o x with Some y => restore (vpeak x) (map (fun v => v * m) y) | None => None end)).
  { intros g Hg. unfold distort. rewrite (vpeak_times c x Hc). destruct (Req_EM_T (c * vpeak x) 0) as [E|E], (Req_EM_T (vpeak x) 0) as [F|F].
    - destruct g; try reflexivity. congruence.
    - exfalso. apply Rmult_integral in E. lra.
    - exfalso. apply E. rewrite F. ring.
    - destruct g; try congruence; rewrite restore_times by exact Hc; do 3 f_equal; rewrite map_map; apply map_ext; intro v; f_equal; field; split; lra. }
  destruct f; try (apply G; discriminate). cbn [distort]. rewrite restore_times by exact Hc. f_equal. rewrite map_map. rewrite (map_ext _ (fun v => v * (c * m))) by (intro; ring).
  rewrite (restore_scale _ _ (c * m)) by (apply Rmult_integral_contrapositive_currified; lra). rewrite (restore_scale _ _ m Hm). do 2 f_equal. unfold signum.
  destruct (Rlt_dec (c * m) 0), (Rlt_dec m 0); try reflexivity; nra.
Qed.
Lemma add_opt_times : forall c a b, add_opt (option_map (map (Rmult c)) a) (option_map (map (Rmult c)) b) = option_map (map (Rmult c)) (add_opt a b).
Proof.
  intros c [a|] [b|]; try reflexivity. cbn [option_map add_opt]. f_equal. revert b. induction a as [|x a IH]; intros [|y b]; try reflexivity. cbn [map combine fst snd]. rewrite IH. f_equal. ring.
Qed.
(** The level of the signal does not matter for the sound: a positive factor goes through. *)
Theorem C95_scale : forall d x c, 0 < c ->
  apply_distortion d (map (Rmult c) x) = match apply_distortion d x with Ok r => Ok (option_map (map (Rmult c)) r) | Err e => Err e end.
Proof.
  intros d x c Hc. unfold apply_distortion. rewrite map_length.
  assert (L : forall fs i acc, mix_loop d (map (Rmult c) x) i fs (option_map (map (Rmult c)) acc) = match mix_loop d x i fs acc with Ok r => Ok (option_map (map (Rmult c)) r) | Err e => Err e end).
  { induction fs as [|f fs IH]; intros i acc; [reflexivity|]. cbn [mix_loop]. destruct (nth_error (d_mix d) i) as [m|]; [|reflexivity]. destruct (Req_EM_T m 0) as [_|Hm]; [apply IH|].
    destruct (nth_error (d_levels d) i) as [l|]; [|reflexivity]. destruct (nth_error (d_offsets d) i) as [o|]; [|reflexivity]. cbv zeta. rewrite (term_times c f l o m x Hc Hm), add_opt_times. apply IH. }
  assert (Z : option_map (map (Rmult c)) (Some (repeat 0 (length x))) = Some (repeat 0 (length x))).
  { cbn [option_map]. f_equal. clear. induction x as [|a x IH]; [reflexivity|]. cbn [length repeat map]. rewrite IH. f_equal. ring. }
  pose proof (L (d_funs d) 0%nat (Some (repeat 0 (length x)))) as L0. rewrite Z in L0. rewrite L0. clear L0. destruct (mix_loop d x 0 (d_funs d) (Some (repeat 0 (length x)))) as [r|e]; [|reflexivity]. cbn [bind]. f_equal. destruct r as [y|]; [|reflexivity]. cbn [option_map]. f_equal.
  destruct (d_post d) as [g|]; [|reflexivity]. cbn [post_gain]. rewrite !map_map. apply map_ext. intro v. ring.
Qed.
Print Assumptions C95_scale.

(** A silent channel becomes nan with every accepted setting. *)
Theorem C95_silence_refuted : forall types levels mix offsets post d n, snd (set_distortion types levels mix offsets post d) = Ok tt ->
  apply_distortion (fst (set_distortion types levels mix offsets post d)) (repeat 0 n) = Ok None.
Proof.
  intros types levels mix offsets post d n H. destruct (proj2 (C95_accepted types levels mix offsets post d) H) as (S & _). assert (Hsum : near_one (sum_of (d_mix (fst (set_distortion types levels mix offsets post d))))).
  { clear S. unfold set_distortion in *. destruct (negb _); [discriminate|]. destruct (select types) as (fs, [u|e]); [|discriminate]. cbv zeta in *.
    assert (G : forall dd : distortion, snd (if ((length (d_funs dd) =? length (d_mix dd)) && close_to_one (sum_of (d_mix dd)) && (length (d_funs dd) =? length (d_levels dd)) && (length (d_funs dd) =? length (d_offsets dd)))%nat%bool
      then (mkD (d_funs dd) (d_mix dd) (d_levels dd) (d_offsets dd) post, Ok tt) else (dd, Err AssertionError)) = Ok tt ->
      near_one (sum_of (d_mix (fst (if ((length (d_funs dd) =? length (d_mix dd)) && close_to_one (sum_of (d_mix dd)) && (length (d_funs dd) =? length (d_levels dd)) && (length (d_funs dd) =? length (d_offsets dd)))%nat%bool
      then (mkD (d_funs dd) (d_mix dd) (d_levels dd) (d_offsets dd) post, Ok tt) else (dd, Err AssertionError)))))).
    { intro dd. match goal with |- context [if ?b then _ else _] => destruct b eqn:E end; [|discriminate]. intros _. cbn [fst d_mix]. apply andb_true_iff in E. destruct E as (E & _). apply andb_true_iff in E. destruct E as (E & _). apply andb_true_iff in E. apply close_iff, E. }
    destruct fs as [|f [|f' fs]]; destruct (map (fun m => m / 100) mix) as [|a mx]; try discriminate; apply G, H. }
  set (dd := fst (set_distortion types levels mix offsets post d)) in *. clearbody dd. clear H. destruct S as (S1 & S2 & S3).
  assert (Z0 : vpeak (repeat 0 n) = 0) by (clear; induction n as [|n IH]; [reflexivity|]; cbn [repeat vpeak fold_right]; unfold vpeak in IH; rewrite IH, Rabs_R0; apply Rmax_left; lra).
  assert (T : forall f l o m, match distort f l o (repeat 0 n) with Some y => restore (vpeak (repeat 0 n)) (map (fun v => v * m) y) | None => None end = None).
  { intros f l o m. unfold distort. rewrite Z0. destruct (Req_EM_T 0 0) as [_|]; [|lra]. destruct f; try reflexivity. unfold restore. rewrite vpeak_map, Z0, Rmult_0_l. destruct (Req_EM_T 0 0) as [_|]; [reflexivity|lra]. }
  assert (L : forall fs i acc, (i + length fs <= length (d_funs dd))%nat -> mix_loop dd (repeat 0 n) i fs acc = Ok (if existsb (fun m => if Req_EM_T m 0 then false else true) (firstn (length fs) (skipn i (d_mix dd))) then None else acc)).
  { induction fs as [|f fs IH]; intros i acc Hi; [reflexivity|]. cbn [length] in Hi. cbn [mix_loop]. rewrite (nth_error_get _ (d_mix dd) i 0) by lia. rewrite (nth_error_get _ (d_levels dd) i 0), (nth_error_get _ (d_offsets dd) i None) by lia.
    assert (SK : skipn i (d_mix dd) = nth i (d_mix dd) 0 :: skipn (S i) (d_mix dd)).
    { assert (HH : (i < length (d_mix dd))%nat) by lia. clear - HH. revert i HH. induction (d_mix dd) as [|a l IH]; intros i HH; [cbn in HH; lia|]. destruct i; [reflexivity|]. cbn [skipn nth]. apply IH. cbn [length] in HH. lia. }
    rewrite SK. cbn [length firstn existsb]. destruct (Req_EM_T (nth i (d_mix dd) 0) 0); cbn [orb]; [apply IH; lia|]. cbv zeta. rewrite T. unfold add_opt. rewrite (IH (S i)) by lia. destruct acc; destruct (existsb _ _); reflexivity. }
  unfold apply_distortion. rewrite (L _ 0%nat) by lia. cbn [skipn]. rewrite <- S1, firstn_all.
  assert (EX : existsb (fun m => if Req_EM_T m 0 then false else true) (d_mix dd) = true).
  { destruct (existsb _ (d_mix dd)) eqn:E; [reflexivity|]. exfalso. assert (Q : sum_of (d_mix dd) = 0).
    { clear - E. induction (d_mix dd) as [|a l IH]; [reflexivity|]. cbn [existsb] in E. destruct (Req_EM_T a 0) as [->|]; [|discriminate]. cbn [orb] in E. cbn [sum_of fold_right]. unfold sum_of in IH. rewrite IH by exact E. ring. }
    unfold near_one in Hsum. rewrite Q in Hsum. rewrite Rabs_left in Hsum by lra. lra. }
  rewrite EX. reflexivity.
Qed.
Print Assumptions C95_silence_refuted.

(** ** order of the samples *)
(** Arctan and hard clipping (100 percent) keep the order of the samples, whatever level and offset. *)
Theorem C95_order : forall t l o post d x p y, odd_type t -> peak_of x p -> p <> 0 -> apply_distortion (fst (set_distortion [t] [l] [100] [o] post d)) x = Ok (Some y) ->
  forall i j, (i < length x)%nat -> (j < length x)%nat -> nth i x 0 <= nth j x 0 -> nth i y 0 <= nth j y 0.
Proof.
  intros t l o post d x p y Ht Hp Hz E i j Hi Hj H. assert (Kt : known t) by (destruct Ht as [-> | [-> | ->]]; discriminate). assert (P : 0 < p) by (destruct Hp as (_ & v & _ & K); pose proof (Rabs_pos v); lra).
  assert (Hx : x <> []) by (destruct x; [cbn in Hi; lia|discriminate]).
  set (ys := map (fun v => curve (fun_of t) l o (v / p)) x). assert (Hq : peak_of ys (vpeak ys)) by (apply vpeak_peak_of; unfold ys; destruct x; [congruence|discriminate]).
  destruct (Req_EM_T (vpeak ys) 0) as [Q|Q].
  - exfalso. rewrite (full_or_nan t l o post d x p Kt Hp Hz) in E; [discriminate|]. intros v Hv. destruct Hq as (B & _). rewrite Q in B. specialize (B (curve (fun_of t) l o (v / p)) (in_map (fun v => curve (fun_of t) l o (v / p)) _ _ Hv)). unfold Rabs in B. destruct (Rcase_abs _); lra.
  - rewrite (single_full t l o post d x p (vpeak ys) Kt Hp Hz Hq Q) in E. injection E as <-. rewrite !(nth_map' _ x _ 0 0) by assumption. assert (G : 0 < decibels post) by (destruct post; cbn; [apply exp_pos|lra]). assert (V : 0 < vpeak ys) by (pose proof (vpeak_pos ys); lra).
    apply Rmult_le_compat_l; [lra|]. apply Rmult_le_compat_l; [lra|]. apply Rmult_le_compat_r; [left; apply Rinv_0_lt_compat, V|]. apply curve_mono; [exact Ht|]. apply Rmult_le_compat_r; [left; apply Rinv_0_lt_compat, P|exact H].
Qed.
Print Assumptions C95_order.

(** Soft clipping folds over: from a level of 3 (9.5 dB; the default is 20 dB) on, the loudest samples come out with the opposite sign. *)
Theorem C95_softclip_refuted : forall l post d x p, peak_of x p -> p <> 0 -> 3 <= Rpower 10 (l / 20) ->
  exists y, apply_distortion (fst (set_distortion [SoftClip] [l] [100] [None] post d)) x = Ok (Some y) /\
  forall i, (i < length x)%nat -> Rabs (nth i x 0) = p -> nth i y 0 = - (decibels post * nth i x 0).
Proof.
  intros l post d x p Hp Hz HL. assert (P : 0 < p) by (destruct Hp as (_ & v & _ & K); pose proof (Rabs_pos v); lra).
  assert (C1 : curve FSoft l None 1 = - (2 / 3)).
  { unfold curve, offset_of. set (u := Rpower 10 (l / 20) * (2 / 3 * 1 + 0)). assert (U : 2 <= u) by (unfold u; lra). unfold limited, cubic. assert (u - u * u * u / 3 <= - (2 / 3)) by (assert (0 <= (u - 2) * ((u + 1) * (u + 1))) by (apply Rmult_le_pos; [lra|nra]); nra).
    destruct (Rlt_dec _ _); [reflexivity|]. destruct (Rlt_dec _ _); lra. }
  assert (C2 : curve FSoft l None (-1) = 2 / 3).
  { unfold curve, offset_of. set (u := Rpower 10 (l / 20) * (2 / 3 * 1 + 0)). replace (Rpower 10 (l / 20) * (2 / 3 * -1 + 0)) with (- u) by (unfold u; lra). assert (U : 2 <= u) by (unfold u; lra). unfold limited, cubic.
    assert (u - u * u * u / 3 <= - (2 / 3)) by (assert (0 <= (u - 2) * ((u + 1) * (u + 1))) by (apply Rmult_le_pos; [lra|nra]); nra).
    destruct (Rlt_dec _ _); [lra|]. destruct (Rlt_dec _ _); lra. }
  assert (B : forall n, Rabs (curve FSoft l None n) <= 2 / 3).
  { intro n. unfold curve. apply Rabs_le. unfold limited. destruct (Rlt_dec _ _); [lra|]. destruct (Rlt_dec _ _); lra. }
  assert (R1 : forall v, Rabs v = p -> v / p = 1 \/ v / p = -1).
  { intros v E. unfold Rabs in E. destruct (Rcase_abs v); [right|left]; apply Rmult_eq_reg_r with p; try lra; unfold Rdiv; rewrite Rmult_assoc, Rinv_l by lra; lra. }
  assert (Hq : peak_of (map (fun v => curve (fun_of SoftClip) l None (v / p)) x) (2 / 3)).
  { split; [intros u Hu; apply in_map_iff in Hu; destruct Hu as (v & <- & _); apply B|]. destruct Hp as (_ & v & Hv & E). exists (curve FSoft l None (v / p)). split; [apply (in_map (fun v => curve FSoft l None (v / p))), Hv|].
    destruct (R1 v E) as [-> | ->]; rewrite ?C1, ?C2; [rewrite Rabs_left|rewrite Rabs_right]; lra. }
  eexists. split; [apply (single_full SoftClip l None post d x p (2 / 3) ltac:(discriminate) Hp Hz Hq ltac:(lra))|]. intros i Hi E. rewrite (nth_map' _ x _ 0 0) by exact Hi. cbn [fun_of].
  assert (Ev : nth i x 0 = p * (nth i x 0 / p)) by (field; lra). rewrite Ev at 2. destruct (R1 _ E) as [-> | ->]; rewrite ?C1, ?C2; field.
Qed.
Print Assumptions C95_softclip_refuted.
Example C95_softclip_example : 3 <= Rpower 10 (20 / 20).
Proof. replace (20 / 20) with 1 by lra. rewrite Rpower_1 by lra. lra. Qed.

(** Up to a level of 3/2 it keeps sign and order strictly. *)
Theorem C95_softclip_guarded : forall l post d x p, peak_of x p -> p <> 0 -> Rpower 10 (l / 20) <= 3 / 2 ->
  exists y, apply_distortion (fst (set_distortion [SoftClip] [l] [100] [None] post d)) x = Ok (Some y) /\
  forall i j, (i < length x)%nat -> (j < length x)%nat -> nth i x 0 < nth j x 0 -> nth i y 0 < nth j y 0.
Proof.
  intros l post d x p Hp Hz HL. assert (P : 0 < p) by (destruct Hp as (_ & v & _ & K); pose proof (Rabs_pos v); lra). assert (L0 : 0 < Rpower 10 (l / 20)) by apply exp_pos. set (L := Rpower 10 (l / 20)) in *.
  assert (CM : forall a b, -1 <= a -> a < b -> b <= 1 -> cubic a < cubic b).
  { intros a b Ha Hab Hb. unfold cubic. assert (0 < (b - a) * (3 - (a * a + a * b + b * b))); [|nra]. apply Rmult_lt_0_compat; [lra|]. nra. }
  assert (CB : forall a, -1 <= a <= 1 -> - (2 / 3) <= cubic a <= 2 / 3).
  { intros a Ha. assert (E1 : cubic 1 = 2 / 3) by (unfold cubic; lra). assert (E2 : cubic (-1) = - (2 / 3)) by (unfold cubic; lra).
    split; [destruct (Req_EM_T a (-1)) as [->|]; [lra|]; left; rewrite <- E2; apply CM; lra|destruct (Req_EM_T a 1) as [->|]; [lra|]; left; rewrite <- E1; apply CM; lra]. }
  assert (EQ : forall n, -1 <= n <= 1 -> curve FSoft l None n = cubic (L * (2 / 3 * n))).
  { intros n Hn. unfold curve, offset_of. fold L. rewrite Rplus_0_r. assert (-1 <= L * (2 / 3 * n) <= 1) by nra. pose proof (CB _ H). unfold limited. destruct (Rlt_dec _ _); [lra|]. destruct (Rlt_dec _ _); [lra|reflexivity]. }
  assert (ST : forall n m, -1 <= n -> n < m -> m <= 1 -> curve FSoft l None n < curve FSoft l None m) by (intros n m H1 H2 H3; rewrite !EQ by lra; apply CM; nra).
  set (ys := map (fun v => curve (fun_of SoftClip) l None (v / p)) x). assert (Hx : x <> []) by (destruct Hp as (_ & v & Hv & _); destruct x; [destruct Hv|discriminate]).
  assert (Hq : peak_of ys (vpeak ys)) by (apply vpeak_peak_of; unfold ys; destruct x; [congruence|discriminate]).
  assert (V : 0 < vpeak ys).
  { destruct Hp as (B & v & Hv & E). assert (Z : curve FSoft l None 0 = 0) by (rewrite EQ by lra; unfold cubic; lra).
    assert (N : curve FSoft l None (v / p) <> 0).
    { unfold Rabs in E. destruct (Rcase_abs v).
      - replace (v / p) with (-1) by (apply Rmult_eq_reg_r with p; [|lra]; unfold Rdiv; rewrite Rmult_assoc, Rinv_l by lra; lra). pose proof (ST (-1) 0 ltac:(lra) ltac:(lra) ltac:(lra)). lra.
      - replace (v / p) with 1 by (apply Rmult_eq_reg_r with p; [|lra]; unfold Rdiv; rewrite Rmult_assoc, Rinv_l by lra; lra). pose proof (ST 0 1 ltac:(lra) ltac:(lra) ltac:(lra)). lra. }
    destruct Hq as (B2 & _). specialize (B2 _ (in_map (fun v => curve (fun_of SoftClip) l None (v / p)) _ _ Hv)). cbv beta in B2. cbn [fun_of] in B2. pose proof (Rabs_pos_lt _ N). lra. }
  eexists. split; [apply (single_full SoftClip l None post d x p (vpeak ys) ltac:(discriminate) Hp Hz Hq ltac:(lra))|]. intros i j Hi Hj H. rewrite !(nth_map' _ x _ 0 0) by assumption. cbn [fun_of].
  assert (G : 0 < decibels post) by (destruct post; cbn; [apply exp_pos|lra]). pose proof (ratio_bound x p _ Hp P (nth_In x 0 Hi)). pose proof (ratio_bound x p _ Hp P (nth_In x 0 Hj)).
  assert (Q : curve FSoft l None (nth i x 0 / p) < curve FSoft l None (nth j x 0 / p)) by (apply ST; [lra| |lra]; apply Rmult_lt_compat_r; [apply Rinv_0_lt_compat, P|exact H]).
  apply Rmult_lt_compat_l; [exact G|]. apply Rmult_lt_compat_l; [exact P|]. apply Rmult_lt_compat_r; [apply Rinv_0_lt_compat, V|exact Q].
Qed.
Print Assumptions C95_softclip_guarded.

(** ** refused settings *)
(** A refused call is not without effect: several functions with fitting lists whose amounts do not add up to 100 are used from then on, and with too few
    levels the effect cannot be applied any more. *)
Theorem C95_refused_refuted :
  (forall t1 t2 ts levels mix offsets post d x, (forall t, In t (t1 :: t2 :: ts) -> known t) -> (forall m, In m mix -> m <= 100) -> ~ near_one (sum_of (map (fun m => m / 100) mix)) ->
    snd (set_distortion (t1 :: t2 :: ts) levels mix offsets post d) = Err AssertionError /\
    apply_distortion (fst (set_distortion (t1 :: t2 :: ts) levels mix offsets post d)) x = apply_distortion (mkD (map fun_of (t1 :: t2 :: ts)) (map (fun m => m / 100) mix) levels offsets (d_post d)) x) /\
  (forall t1 t2 m1 m2 level offsets post d x, known t1 -> known t2 -> m1 <= 100 -> 0 < m2 <= 100 ->
    snd (set_distortion [t1; t2] [level] [m1; m2] offsets post d) = Err AssertionError /\
    apply_distortion (fst (set_distortion [t1; t2] [level] [m1; m2] offsets post d)) x = Err IndexError).
Proof.
  assert (G : forall t1 t2 ts levels mix offsets post d, (forall t, In t (t1 :: t2 :: ts) -> known t) -> (forall m, In m mix -> m <= 100) ->
    snd (set_distortion (t1 :: t2 :: ts) levels mix offsets post d) <> Ok tt ->
    set_distortion (t1 :: t2 :: ts) levels mix offsets post d = (mkD (map fun_of (t1 :: t2 :: ts)) (map (fun m => m / 100) mix) levels offsets (d_post d), Err AssertionError)).
  { intros t1 t2 ts levels mix offsets post d Hk Hm H. unfold set_distortion in *. apply mix_all in Hm. rewrite Hm in *. cbn [negb] in *. rewrite select_known in * by exact Hk. cbn [map] in *. cbn beta iota zeta in *.
    replace (length (fun_of t1 :: fun_of t2 :: map fun_of ts) =? 1)%nat with false in * by reflexivity. match goal with |- context [if ?b then _ else _] => destruct b end; [cbn in H; congruence|]. reflexivity. }
  split.
  - intros t1 t2 ts levels mix offsets post d x Hk Hm Hs. rewrite G; [split; reflexivity|exact Hk|exact Hm|]. intro K. apply (proj1 (C95_accepted _ _ _ _ _ _)) in K. destruct K as (_ & _ & _ & [K|K]); [discriminate|contradiction].
  - intros t1 t2 m1 m2 level offsets post d x H1 H2 M1 M2. rewrite G; [|intros t [<-|[<-|[]]]; assumption|intros m [<-|[<-|[]]]; lra|].
    + split; [reflexivity|]. unfold apply_distortion. cbn [fst d_funs map mix_loop d_mix d_levels d_offsets nth_error d_post]. destruct (Req_EM_T (m2 / 100) 0); [lra|]. destruct offsets as [|o1 [|o2 os]]; cbn [nth_error]; destruct (Req_EM_T (m1 / 100) 0); reflexivity.
    + intro K. apply (proj1 (C95_accepted _ _ _ _ _ _)) in K. destruct K as (_ & _ & (_ & K & _) & _). discriminate.
Qed.
Print Assumptions C95_refused_refuted.
