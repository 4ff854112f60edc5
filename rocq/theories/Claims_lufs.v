(** C94: integrated loudness. *)
From Coq Require Import List Arith Lia ZArith Bool Reals Lra.
From Verif Require Import Alg Spec Dft M_arrays M_signal M_filter M_coeffs M_lufs P_arrays P_signal Claims_arrays Claims_coeffs Claims_crossover Claims_fvec Claims_level.
Import ListNotations.
Local Open Scope R_scope.

(** ** spec *)

(** level of an energy in LUFS *)
Definition lufs (e : R) : R := - (691 / 1000) + 10 * (ln e / ln 10).
Definition sum_list (l : list R) : R := fold_right Rplus 0 l.
Definition average (l : list R) : R := sum_list l / INR (length l).
(** what is above a threshold in LUFS *)
Definition exceeds (t e : R) : Prop := 0 < e /\ t < lufs e.
(** energy of block j: weighted sum over the channels of the mean square of the filtered samples of the block *)
Definition weight (c : nat) : R := if (c <? 3)%nat then 1 else 141 / 100.
Definition block_energy (w step : nat) (ys : list (list R)) (j : nat) : R :=
  rsum (length ys) (fun c => weight c * (rsum w (fun t => (get (HA := CRing_R) (nth c ys []) (j * step + t))²) / INR w)).
Definition block_count (w step len : nat) : nat := ((len - w + (step - 1)) / step)%nat.
(** the energies of all blocks of a signal *)
Definition energies (k : list section) (s : signal) : list R :=
  mk (block_count (block_length (s_fs s)) (block_step (s_fs s)) (nrows (s_re s)))
     (block_energy (block_length (s_fs s)) (block_step (s_fs s)) (map (weighted k) (s_re s))).
(** signals the function is made for: one to five channels, at least one block *)
Definition proper (s : signal) : Prop :=
  (1 <= ncols (s_re s) <= 5)%nat /\ (forall x, In x (s_re s) -> length x = nrows (s_re s)) /\ (4 <= s_fs s)%Z /\ (block_length (s_fs s) <= nrows (s_re s))%nat.

(** ** lemmas *)

Lemma int_part_le : forall x, IZR (Int_part x) <= x. Proof. intro x. destruct (base_Int_part x). lra. Qed.
Lemma int_part_gt : forall x, x - 1 < IZR (Int_part x). Proof. intro x. destruct (base_Int_part x). lra. Qed.
Lemma block_length_pos : forall fs, (4 <= fs)%Z -> (2 <= block_length fs)%nat.
Proof.
  intros fs H. unfold block_length. apply IZR_le in H. assert (1 < IZR (Int_part (4 / 10 * IZR fs + 1 / 2))) by (pose proof (int_part_gt (4 / 10 * IZR fs + 1 / 2)); lra).
  apply lt_IZR in H0. lia.
Qed.
Lemma block_step_pos : forall fs, (4 <= fs)%Z -> (0 < block_step fs)%nat.
Proof.
  intros fs H. unfold block_step. pose proof (block_length_pos fs H) as L. apply le_INR in L. cbn [INR] in L. set (x := (1 - 3 / 4) * INR (block_length fs) + 1 / 2).
  assert (0 < IZR (Int_part x)) by (pose proof (int_part_gt x); unfold x in *; lra). apply lt_IZR in H0. lia.
Qed.
Lemma lfilter_len : forall (b a x z : list R), length (fst (lfilter (HA := CRing_R) b a x z)) = length x.
Proof. intros. apply P_filter.lfilter_length. Qed.
Lemma weighted_length : forall k x, length (weighted k x) = length x.
Proof.
  unfold weighted. intros k x. generalize (repeat [0; 0] (length k)). revert x. induction k as [|(b, a) k IH]; intros x z; [reflexivity|]. cbn [sosfilt].
  pose proof (lfilter_len b a x (hd [] z)) as L. destruct (lfilter b a x (hd [] z)) as (y, z1). specialize (IH y (tl z)). destruct (sosfilt k y (tl z)) as (u, zu). cbn [fst] in *. congruence.
Qed.
Lemma fold_sum : forall l, fold_right Rplus 0 l = rsum (length l) (fun i => get (HA := CRing_R) l i).
Proof.
  induction l as [|x l IH]; [reflexivity|]. cbn [fold_right length]. rewrite (sum_S_front (HA := CRing_R)), IH. reflexivity.
Qed.
Lemma dot_sum : forall r n, length r = n -> (n <= 5)%nat -> dot r channel_weights = rsum n (fun c => weight c * get (HA := CRing_R) r c).
Proof.
  intros r n <- H. unfold dot. destruct r as [|a [|b [|c [|d [|e [|f r]]]]]]; cbn [length] in *; try lia; cbn; unfold weight; cbn; try ring.
Qed.

Lemma channel_blocks_ok : forall k fs x, (4 <= fs)%Z -> (block_length fs <= length x)%nat ->
  channel_blocks k fs x = Ok (mk (block_count (block_length fs) (block_step fs) (length x))
    (fun j => rsum (block_length fs) (fun t => (get (HA := CRing_R) (weighted k x) (j * block_step fs + t))²) / INR (block_length fs))).
Proof.
  intros k fs x Hfs Hx. unfold channel_blocks. destruct (C29_unpadded_frames R CRing_R (block_length fs) (block_step fs) (map (fun v => v * v) (weighted k x)) (block_step_pos fs Hfs)) as (fr & E & L & F).
  { rewrite map_length, weighted_length. exact Hx. }
  rewrite E. cbn [bind]. f_equal. rewrite map_length, weighted_length in L. apply list_eq_nth with (d := 0).
  - rewrite map_length, mk_length. exact L.
  - intros j Hj. rewrite map_length in Hj. rewrite (nth_map' _ _ _ [] 0) by exact Hj. rewrite nth_mk by (rewrite L in Hj; exact Hj).
    destruct (F j Hj) as (Hb & Hl & Hg). rewrite fold_sum, Hl. f_equal. apply (sum_ext (HA := CRing_R)). intros t Ht. rewrite Hg by exact Ht.
    rewrite map_length, weighted_length in Hb. unfold get. rewrite (nth_map' _ _ _ (@r0 R CRing_R) (@r0 R CRing_R)) by (rewrite weighted_length; lia). reflexivity.
Qed.

Lemma blocks_ok : forall k s, proper s -> exists rows, blocks k (s_fs s) (s_re s) = Ok rows /\ map (fun r => dot r channel_weights) rows = energies k s /\
  (forall r, In r rows -> length r = ncols (s_re s)).
Proof.
  intros k s (Hn & Hl & Hfs & Hb). set (w := block_length (s_fs s)) in *. set (st := block_step (s_fs s)).
  assert (E : results (map (channel_blocks k (s_fs s)) (s_re s)) = Ok (map (fun x => mk (block_count w st (nrows (s_re s)))
    (fun j => rsum w (fun t => (get (HA := CRing_R) (weighted k x) (j * st + t))²) / INR w)) (s_re s))).
  { apply results_ok. intros x Hx. rewrite <- (Hl x Hx). apply channel_blocks_ok; [exact Hfs|rewrite (Hl x Hx); exact Hb]. }
  unfold blocks. rewrite E. cbn [bind]. eexists. split; [reflexivity|].
  assert (L0 : length (hd [] (map (fun x => mk (block_count w st (nrows (s_re s))) (fun j => rsum w (fun t => (get (HA := CRing_R) (weighted k x) (j * st + t))²) / INR w)) (s_re s))) = block_count w st (nrows (s_re s))).
  { destruct (s_re s) as [|x0 m]; [cbn in Hn; lia|]. cbn [map hd]. apply mk_length. }
  rewrite L0. split.
  - unfold energies. fold w st. apply list_eq_nth with (d := 0); [rewrite map_length, !mk_length; reflexivity|]. intros j Hj. rewrite map_length, mk_length in Hj.
    rewrite (nth_map' _ _ _ [] 0) by (rewrite mk_length; exact Hj). rewrite !nth_mk by exact Hj.
    rewrite (dot_sum _ (ncols (s_re s))) by (rewrite ?map_length; unfold ncols in *; lia). unfold block_energy. rewrite map_length.
    apply (sum_ext (HA := CRing_R)). intros c Hc. f_equal. unfold get at 1. rewrite map_map. rewrite (nth_map' _ _ _ [] (@r0 R CRing_R)) by exact Hc.
    rewrite (get_mk (HA := CRing_R)) by exact Hj. rewrite (nth_map' (weighted k) _ _ [] []) by exact Hc. reflexivity.
  - intros r Hr. apply In_nth with (d := []) in Hr. destruct Hr as (j & Hj & <-). rewrite mk_length in Hj. rewrite nth_mk by exact Hj. rewrite !map_length. reflexivity.
Qed.

Lemma dot_mean : forall n rows, (1 <= n <= 5)%nat -> rows <> [] -> (forall r, In r rows -> length r = n) ->
  dot (column_mean n rows) channel_weights = average (map (fun r => dot r channel_weights) rows).
Proof.
  intros n rows Hn Hne Hl. rewrite (dot_sum _ n) by (try (unfold column_mean; apply mk_length); lia). unfold average. rewrite map_length.
  assert (HL : 0 < INR (length rows)) by (apply lt_0_INR; destruct rows; [congruence|cbn; lia]).
  assert (E : sum_list (map (fun r => dot r channel_weights) rows) = rsum n (fun c => weight c * fold_right Rplus 0 (map (fun r => get (HA := CRing_R) r c) rows))).
  { clear Hne HL. induction rows as [|r rows IH]; cbn [map sum_list fold_right].
    - symmetry. apply (sum_zero' (HA := CRing_R)). intros c _. change (weight c * 0 = 0). ring.
    - unfold sum_list in IH. rewrite IH by (intros; apply Hl; right; assumption). rewrite (dot_sum r n) by (try (apply Hl; left; reflexivity); lia).
      change Rplus with (@radd R CRing_R) at 1. rewrite <- (sum_add (HA := CRing_R)). apply (sum_ext (HA := CRing_R)). intros c _. change (@radd R CRing_R) with Rplus. ring. }
  rewrite E. unfold Rdiv. change Rmult with (@rmul R CRing_R) at 3. rewrite <- (sum_scal_r (HA := CRing_R)). apply (sum_ext (HA := CRing_R)). intros c Hc.
  unfold column_mean. rewrite (get_mk (HA := CRing_R)) by exact Hc. change (@rmul R CRing_R) with Rmult. unfold Rdiv. ring.
Qed.

(** the gates in terms of block energies *)
Definition kept (t : R) (es : list R) : list R := filter (louder t) es.
Lemma louder_iff : forall t e, louder t e = true <-> exceeds t e.
Proof.
  intros t e. unfold louder, gated_loudness, exceeds. destruct (Rlt_dec 0 e) as [H|H].
  - fold (lufs e). destruct (Rlt_dec t (lufs e)); split; intro K; try discriminate; try tauto; lra.
  - split; [discriminate|tauto].
Qed.
Definition gated (es : list R) : option R :=
  match kept (-70) es with
  | [] => None
  | a => Some (lufs (average (kept (Rmax (lufs (average a) - 10) (-70)) es)))
  end.
Lemma kept_in : forall t es e, In e (kept t es) <-> In e es /\ exceeds t e.
Proof. intros. unfold kept. rewrite filter_In, louder_iff. reflexivity. Qed.
Lemma sum_pos : forall l, l <> [] -> (forall e, In e l -> 0 < e) -> 0 < sum_list l.
Proof.
  intros l. destruct l as [|a l]; [congruence|]. intros _ H. cbn. assert (0 <= sum_list l).
  { assert (forall e, In e l -> 0 < e) by (intros; apply H; right; assumption). clear H. induction l as [|b l IH]; cbn; [lra|].
    pose proof (H0 b ltac:(left; reflexivity)). assert (forall e, In e l -> 0 < e) by (intros; apply H0; right; assumption). specialize (IH H1). unfold sum_list in IH. lra. }
  pose proof (H a ltac:(left; reflexivity)). unfold sum_list in H0. lra.
Qed.
Lemma average_pos : forall l, l <> [] -> (forall e, In e l -> 0 < e) -> 0 < average l.
Proof. intros l H K. unfold average. apply Rdiv_lt_0_compat; [apply sum_pos; assumption|]. apply lt_0_INR. destruct l; [congruence|cbn; lia]. Qed.
Lemma average_bound : forall l a, l <> [] -> ((forall e, In e l -> a <= e) -> a <= average l) /\ ((forall e, In e l -> e <= a) -> average l <= a) /\
  ((forall e, In e l -> a < e) -> a < average l).
Proof.
  intros l a Hne. assert (HL : 0 < INR (length l)) by (apply lt_0_INR; destruct l; [congruence|cbn; lia]).
  assert (X : average l * INR (length l) = sum_list l) by (unfold average; field; lra).
  assert (S1 : forall l, (forall e, In e l -> a <= e) -> a * INR (length l) <= sum_list l).
  { clear. induction l as [|b l IH]; intro H; [cbn; lra|]. cbn [length sum_list fold_right]. rewrite S_INR. pose proof (H b ltac:(left; reflexivity)).
    assert (forall e, In e l -> a <= e) by (intros; apply H; right; assumption). specialize (IH H1). unfold sum_list in IH. lra. }
  assert (S2 : forall l, (forall e, In e l -> e <= a) -> sum_list l <= a * INR (length l)).
  { clear. induction l as [|b l IH]; intro H; [cbn; lra|]. cbn [length sum_list fold_right]. rewrite S_INR. pose proof (H b ltac:(left; reflexivity)).
    assert (forall e, In e l -> e <= a) by (intros; apply H; right; assumption). specialize (IH H1). unfold sum_list in IH. lra. }
  split; [|split]; intro H.
  - apply Rmult_le_reg_r with (INR (length l)); [exact HL|]. rewrite X. apply S1, H.
  - apply Rmult_le_reg_r with (INR (length l)); [exact HL|]. rewrite X. apply S2, H.
  - apply Rmult_lt_reg_r with (INR (length l)); [exact HL|]. rewrite X. destruct l as [|b l]; [congruence|]. cbn [length sum_list fold_right]. rewrite S_INR.
    pose proof (H b ltac:(left; reflexivity)). pose proof (S1 l (fun e He => Rlt_le _ _ (H e (or_intror He)))). unfold sum_list in H1. lra.
Qed.
Lemma ln10_pos : 0 < ln 10. Proof. rewrite <- ln_1. apply ln_increasing; lra. Qed.
Lemma lufs_lt : forall a b, 0 < a -> 0 < b -> (lufs a < lufs b <-> a < b).
Proof.
  intros a b Ha Hb. unfold lufs. pose proof ln10_pos as T. assert (K : ln a < ln b <-> a < b) by (split; intro H; [apply ln_lt_inv; assumption|apply ln_increasing; assumption]).
  rewrite <- K. split; intro H.
  - apply Rmult_lt_reg_r with (/ ln 10); [apply Rinv_0_lt_compat, T|]. unfold Rdiv in H. lra.
  - apply Rmult_lt_compat_r with (r := / ln 10) in H; [|apply Rinv_0_lt_compat, T]. unfold Rdiv. lra.
Qed.
Lemma lufs_le : forall a b, 0 < a -> 0 < b -> (lufs a <= lufs b <-> a <= b).
Proof.
  intros a b Ha Hb. pose proof (lufs_lt b a Hb Ha). split; intro H0; apply Rnot_lt_le; intro K; [apply H in K|apply H in K]; lra.
Qed.

(** the loudest block passes the relative gate *)
Lemma exists_above_average : forall l, l <> [] -> exists e, In e l /\ average l <= e.
Proof.
  intros l Hne. assert (Hmax : exists m, In m l /\ forall e, In e l -> e <= m).
  { induction l as [|a l IH]; [congruence|]. destruct l as [|b l]; [exists a; split; [left; reflexivity|]; intros e [<-|[]]; lra|].
    destruct IH as (m & Hm & HM); [discriminate|]. destruct (Rle_dec a m).
    - exists m. split; [right; exact Hm|]. intros e [<-|He]; [assumption|apply HM, He].
    - exists a. split; [left; reflexivity|]. intros e [<-|He]; [lra|]. pose proof (HM e He). lra. }
  destruct Hmax as (m & Hm & HM). exists m. split; [exact Hm|]. apply average_bound; assumption.
Qed.
Lemma kept_ne : forall es, kept (-70) es <> [] -> kept (Rmax (lufs (average (kept (-70) es)) - 10) (-70)) es <> [].
Proof.
  intros es Hne. destruct (exists_above_average _ Hne) as (e & He & Ha). apply kept_in in He. destruct He as (He & (Hp & Hl)).
  assert (P : 0 < average (kept (-70) es)) by (apply average_pos; [exact Hne|intros x Hx; apply kept_in in Hx; apply Hx]).
  intro K. assert (In e (kept (Rmax (lufs (average (kept (-70) es)) - 10) (-70)) es)); [|rewrite K in H; exact H].
  apply kept_in. split; [exact He|]. split; [exact Hp|]. apply Rmax_lub_lt; [|exact Hl]. apply lufs_le in Ha; lra.
Qed.
Lemma filter_map' : forall {T U} (f : T -> U) p l, filter p (map f l) = map f (filter (fun x => p (f x)) l).
Proof. intros T U f p l. induction l as [|x l IH]; [reflexivity|]. cbn [map filter]. rewrite IH. destruct (p (f x)); reflexivity. Qed.

Lemma integrated_gated : forall n rows, (1 <= n <= 5)%nat -> (forall r, In r rows -> length r = n) ->
  integrated n rows = gated (map (fun r => dot r channel_weights) rows).
Proof.
  intros n rows Hn Hl. unfold integrated, gated. set (es := map (fun r => dot r channel_weights) rows).
  assert (K : forall t, map (fun r => dot r channel_weights) (filter (fun r => louder t (dot r channel_weights)) rows) = kept t es) by (intro t; unfold kept, es; rewrite filter_map'; reflexivity).
  assert (M : forall t, mean_loudness n (filter (fun r => louder t (dot r channel_weights)) rows) = match kept t es with [] => None | a => Some (lufs (average a)) end).
  { intro t. rewrite <- K. destruct (filter (fun r => louder t (dot r channel_weights)) rows) as [|r rs] eqn:E; [reflexivity|]. unfold mean_loudness.
    rewrite (dot_mean n (r :: rs)) by (try lia; try discriminate; intros x Hx; rewrite <- E in Hx; apply filter_In in Hx; apply Hl, Hx).
    unfold gated_loudness. match goal with |- context [Rlt_dec 0 ?e] => destruct (Rlt_dec 0 e) as [|Hb]; [reflexivity|exfalso; apply Hb] end.
    rewrite <- E, K. apply average_pos; [rewrite <- K, E; discriminate|]. intros e He. apply kept_in in He. apply He. }
  rewrite M. destruct (kept (-70) es) as [|a A] eqn:EA; [reflexivity|]. rewrite <- EA. rewrite M.
  pose proof (kept_ne es) as Q. rewrite EA in Q. specialize (Q ltac:(discriminate)). rewrite <- EA in Q.
  destruct (kept (Rmax (lufs (average (kept (-70) es)) - 10) (-70)) es) eqn:EB; [congruence|]. reflexivity.
Qed.

Lemma lufs_gated : forall k s, proper s -> fst (lufs_integrated k s) = Ok (gated (energies k s)).
Proof.
  intros k s H. destruct (blocks_ok k s H) as (rows & E & M & L). destruct H as (Hn & _). unfold lufs_integrated. destruct (Nat.ltb_spec 5 (ncols (s_re s))); [lia|].
  cbn [fst]. rewrite E. cbn [bind]. rewrite (integrated_gated _ _ Hn L), M. reflexivity.
Qed.

(** spec: the blocks above a threshold *)
Definition exceeds_dec (t e : R) : {exceeds t e} + {~ exceeds t e}.
Proof. unfold exceeds. destruct (Rlt_dec 0 e), (Rlt_dec t (lufs e)); [left; split; assumption|right; tauto|right; tauto|right; tauto]. Defined.
Definition loud_blocks (t : R) (es : list R) : list R := filter (fun e => if exceeds_dec t e then true else false) es.
Lemma kept_loud : forall t es, kept t es = loud_blocks t es.
Proof.
  intros t es. unfold kept, loud_blocks. apply filter_ext. intro e. pose proof (louder_iff t e). destruct (exceeds_dec t e) as [H1|H1]; [tauto|].
  destruct (louder t e); [exfalso; tauto|reflexivity].
Qed.
Lemma kept_kept : forall t u es, u <= t -> kept t (kept u es) = kept t es.
Proof.
  intros t u es H. unfold kept. induction es as [|e es IH]; [reflexivity|]. cbn [filter]. destruct (louder u e) eqn:E; cbn [filter]; rewrite IH; [reflexivity|].
  destruct (louder t e) eqn:E2; [|reflexivity]. exfalso. apply louder_iff in E2. assert (louder u e = true) by (apply louder_iff; destruct E2; split; lra). congruence.
Qed.

(** The two gates: blocks above -70 LUFS give the relative threshold, 10 LU below their mean, and the blocks above both give the result. Without a
    block above -70 LUFS there is no number (nan). *)
Theorem C94_gates : forall k s, proper s -> exists r, fst (lufs_integrated k s) = Ok r /\
  (r = None <-> forall e, In e (energies k s) -> ~ exceeds (-70) e) /\
  (forall l, r = Some l -> l = lufs (average (loud_blocks (Rmax (lufs (average (loud_blocks (-70) (energies k s))) - 10) (-70)) (energies k s)))).
Proof.
  intros k s H. exists (gated (energies k s)). split; [apply lufs_gated, H|]. unfold gated. set (es := energies k s). split.
  - split.
    + intros E e He Hx. assert (In e (kept (-70) es)) by (apply kept_in; split; assumption). destruct (kept (-70) es); [exact H0|discriminate].
    + intro Hn. destruct (kept (-70) es) as [|e A] eqn:E; [reflexivity|]. exfalso. assert (In e (kept (-70) es)) by (rewrite E; left; reflexivity).
      apply kept_in in H0. apply (Hn e); apply H0.
  - intros l E. destruct (kept (-70) es) as [|e A] eqn:EA; [discriminate|]. rewrite <- EA in E. injection E as <-. rewrite !kept_loud. reflexivity.
Qed.
Print Assumptions C94_gates.

Lemma gated_some : forall es l, gated es = Some l -> kept (-70) es <> [] /\ l = lufs (average (kept (Rmax (lufs (average (kept (-70) es)) - 10) (-70)) es)).
Proof. intros es l H. unfold gated in H. destruct (kept (-70) es) as [|e A] eqn:EA; [discriminate|]. rewrite <- EA in *. injection H as <-. split; [rewrite EA; discriminate|reflexivity]. Qed.
Lemma kept_pos : forall t es e, In e (kept t es) -> 0 < e. Proof. intros t es e H. apply kept_in in H. apply H. Qed.

(** The result is above -70 LUFS, at most the loudest block and at least the loudness of the blocks above -70 LUFS together: the relative gate never
    lowers it. *)
Theorem C94_bounds : forall k s l, proper s -> fst (lufs_integrated k s) = Ok (Some l) ->
  -70 < l /\ lufs (average (loud_blocks (-70) (energies k s))) <= l /\ exists e, In e (energies k s) /\ exceeds (-70) e /\ l <= lufs e.
Proof.
  intros k s l H E. rewrite (lufs_gated k s H) in E. injection E as E. apply gated_some in E. set (es := energies k s) in *. destruct E as (Hne & ->).
  rewrite <- kept_loud. set (A := kept (-70) es) in *. set (thr := Rmax (lufs (average A) - 10) (-70)). assert (Tt : -70 <= thr) by apply Rmax_r.
  pose proof (kept_ne es Hne) as HB. fold A thr in HB. set (B := kept thr es) in *.
  assert (PA : 0 < average A) by (apply average_pos; [exact Hne|apply kept_pos]). assert (PB : 0 < average B) by (apply average_pos; [exact HB|apply kept_pos]).
  assert (Hm : average A <= average B).
  { set (m := average A) in *.
    assert (S0 : forall l t, (forall e, In e l -> 0 < e) -> t <= lufs m -> sum_list l - m * INR (length l) <= sum_list (kept t l) - m * INR (length (kept t l))).
    { clear - PA. intros l t Hp Ht. induction l as [|e l IH]; [cbn; lra|]. assert (IH' := IH (fun x Hx => Hp x (or_intror Hx))). clear IH.
      unfold kept in *. cbn [filter]. destruct (louder t e) eqn:El; cbn [length sum_list fold_right] in *; rewrite ?S_INR.
      - unfold sum_list in *. lra.
      - assert (e <= m); [|unfold sum_list in *; lra]. apply Rnot_lt_le. intro K. assert (louder t e = true); [|congruence]. apply louder_iff.
        split; [apply Hp; left; reflexivity|]. assert (lufs m < lufs e) by (apply lufs_lt; [exact PA|apply Hp; left; reflexivity|exact K]). lra. }
    assert (Tm : thr <= lufs m).
    { unfold thr. apply Rmax_lub; [lra|]. assert (-70 < lufs m); [|lra]. apply Rnot_le_lt. intro K.
      
      set (x0 := exp ((-70 + 691 / 1000) / 10 * ln 10)). assert (X0 : lufs x0 = -70) by (unfold lufs, x0; rewrite ln_exp; field; pose proof ln10_pos; lra).
      assert (x0 < m); [|assert (lufs x0 < lufs m) by (apply lufs_lt; [apply exp_pos|exact PA|assumption]); lra].
      apply average_bound; [exact Hne|]. intros y Hy. apply kept_in in Hy. destruct Hy as (_ & Py & Ly). apply lufs_lt; [apply exp_pos|exact Py|]. lra. }
    assert (EK : kept thr A = B) by (apply kept_kept; exact Tt).
    assert (QQ : sum_list A - m * INR (length A) <= sum_list B - m * INR (length B)).
    { rewrite <- EK. apply S0; [apply kept_pos|exact Tm]. }
    assert (LA : 0 < INR (length A)) by (apply lt_0_INR; destruct A; [congruence|cbn; lia]). assert (LB : 0 < INR (length B)) by (apply lt_0_INR; destruct B; [congruence|cbn; lia]).
    assert (EA : m * INR (length A) = sum_list A) by (unfold m, average; field; lra).
    apply Rmult_le_reg_r with (INR (length B)); [exact LB|]. assert (EB : average B * INR (length B) = sum_list B) by (unfold average; field; lra). lra. }
  split; [|split].
  - set (x0 := exp ((-70 + 691 / 1000) / 10 * ln 10)). assert (X0 : lufs x0 = -70) by (unfold lufs, x0; rewrite ln_exp; field; pose proof ln10_pos; lra).
    rewrite <- X0. apply lufs_lt; [apply exp_pos|exact PB|]. apply average_bound; [exact HB|]. intros y Hy. apply kept_in in Hy. destruct Hy as (_ & Py & Ly).
    apply lufs_lt; [apply exp_pos|exact Py|]. lra.
  - apply lufs_le; assumption.
  - destruct (exists_above_average B HB) as (e & He & Ha). apply kept_in in He as He'. destruct He' as (He1 & Pe & Le). exists e. split; [exact He1|]. split; [split; [exact Pe|lra]|].
    apply lufs_le; assumption.
Qed.
Print Assumptions C94_bounds.

(** Only the blocks above -70 LUFS count. *)
Theorem C94_quiet : forall k s s', proper s -> proper s' -> loud_blocks (-70) (energies k s) = loud_blocks (-70) (energies k s') ->
  fst (lufs_integrated k s) = fst (lufs_integrated k s').
Proof.
  intros k s s' H H' E. rewrite !lufs_gated by assumption. f_equal. rewrite <- !kept_loud in E. unfold gated. rewrite E. destruct (kept (-70) (energies k s')) as [|a A] eqn:EA; [reflexivity|].
  set (t := Rmax _ _). do 3 f_equal. rewrite <- (kept_kept t (-70) (energies k s)), <- (kept_kept t (-70) (energies k s')) by apply Rmax_r. rewrite E, EA. reflexivity.
Qed.
Print Assumptions C94_quiet.

(** Blocks of one energy above -70 LUFS have its loudness. *)
Theorem C94_uniform : forall k s e, proper s -> energies k s <> [] -> (forall x, In x (energies k s) -> x = e) -> exceeds (-70) e ->
  fst (lufs_integrated k s) = Ok (Some (lufs e)).
Proof.
  intros k s e H Hne Ha He. rewrite (lufs_gated k s H). f_equal. unfold gated. set (es := energies k s) in *.
  assert (AV : forall l, l <> [] -> (forall x, In x l -> x = e) -> average l = e).
  { intros l Hl Hx. apply Rle_antisym; apply average_bound; try exact Hl; intros x K; rewrite (Hx x K); lra. }
  assert (N : kept (-70) es <> []).
  { destruct es as [|a es0]; [congruence|]. intro K. assert (In a (kept (-70) (a :: es0))); [|rewrite K in H0; exact H0]. apply kept_in. split; [left; reflexivity|]. rewrite (Ha a) by (left; reflexivity). exact He. }
  pose proof (kept_ne es N) as N2. destruct (kept (-70) es) as [|a A] eqn:EA; [congruence|]. rewrite <- EA in *. f_equal. f_equal. apply AV; [exact N2|].
  intros x Hx. apply kept_in in Hx. apply Ha, Hx.
Qed.
Print Assumptions C94_uniform.

(** ** gain *)
Definition times (g : R) (s : signal) : signal := mkSig (map (map (Rmult g)) (s_re s)) (s_im s) (s_scale s) (s_constr s) (s_fs s).
Lemma get_times : forall g (l : list R) i, get (HA := CRing_R) (map (Rmult g) l) i = g * get (HA := CRing_R) l i.
Proof.
  intros g l i. unfold get. destruct (Nat.lt_ge_cases i (length l)) as [H|H].
  - rewrite (nth_map' (Rmult g) _ _ (@r0 R CRing_R) (@r0 R CRing_R)) by exact H. reflexivity.
  - rewrite !nth_overflow by (rewrite ?map_length; exact H). change (0 = g * 0). ring.
Qed.
Lemma lf_sample_in : forall g b a z v, lf_sample (HA := CRing_R) b a (map (Rmult g) z) (g * v) =
  (g * fst (lf_sample (HA := CRing_R) b a z v), map (Rmult g) (snd (lf_sample (HA := CRing_R) b a z v))).
Proof.
  intros g b a z v. unfold lf_sample. cbn [fst snd]. rewrite get_times, map_length. f_equal; [cbn; ring|]. unfold mk. rewrite map_map. apply map_ext. intro i.
  rewrite get_times. cbn. ring.
Qed.
Lemma lfilter_in : forall g b a x z, lfilter (HA := CRing_R) b a (map (Rmult g) x) (map (Rmult g) z) =
  (map (Rmult g) (fst (lfilter (HA := CRing_R) b a x z)), map (Rmult g) (snd (lfilter (HA := CRing_R) b a x z))).
Proof.
  intros g b a x. induction x as [|v x IH]; intro z; [reflexivity|]. cbn [map lfilter]. rewrite lf_sample_in. destruct (lf_sample b a z v) as (y, z1). cbn [fst snd].
  rewrite IH. destruct (lfilter b a x z1) as (ys, z2). reflexivity.
Qed.
Lemma weighted_times : forall g k x, weighted k (map (Rmult g) x) = map (Rmult g) (weighted k x).
Proof.
  intros g k x. unfold weighted.
  assert (Q : forall k x z, fst (sosfilt (HA := CRing_R) k (map (Rmult g) x) (map (map (Rmult g)) z)) = map (Rmult g) (fst (sosfilt (HA := CRing_R) k x z))).
  { clear. induction k as [|(b, a) k IH]; intros x z; [reflexivity|]. cbn [sosfilt]. replace (hd [] (map (map (Rmult g)) z)) with (map (Rmult g) (hd [] z)) by (destruct z; reflexivity).
    replace (tl (map (map (Rmult g)) z)) with (map (map (Rmult g)) (tl z)) by (destruct z; reflexivity). rewrite lfilter_in. destruct (lfilter b a x (hd [] z)) as (y, z1). cbn [fst snd].
    specialize (IH y (tl z)). destruct (sosfilt k (map (Rmult g) y) (map (map (Rmult g)) (tl z))) as (u, v). destruct (sosfilt k y (tl z)) as (u', v'). cbn [fst] in *. exact IH. }
  rewrite <- Q. f_equal. f_equal. clear. induction k as [|s k IH]; [reflexivity|]. cbn [length repeat map]. rewrite <- IH. f_equal. f_equal; [ring|]. f_equal. ring.
Qed.
Lemma nrows_times : forall g s, nrows (s_re (times g s)) = nrows (s_re s).
Proof. intros g s. cbn [times s_re]. unfold nrows. destruct (s_re s); [reflexivity|]. cbn [map hd]. apply map_length. Qed.
Lemma proper_times : forall g s, proper s -> proper (times g s).
Proof.
  intros g s (H1 & H2 & H3 & H4). split; [cbn [times s_re]; unfold ncols in *; rewrite map_length; exact H1|]. rewrite nrows_times. split; [|split; assumption].
  intros x Hx. cbn [times s_re] in Hx. apply in_map_iff in Hx. destruct Hx as (y & <- & Hy). rewrite map_length. apply H2, Hy.
Qed.
Lemma energies_times : forall g k s, energies k (times g s) = map (Rmult (g * g)) (energies k s).
Proof.
  intros g k s. unfold energies. rewrite nrows_times. change (s_fs (times g s)) with (s_fs s). unfold mk. rewrite map_map. apply map_ext. intro j. unfold block_energy.
  rewrite !map_length. cbn [times s_re]. rewrite map_length. change Rmult with (@rmul R CRing_R) at 3. rewrite <- (sum_scal_l (HA := CRing_R)). apply (sum_ext (HA := CRing_R)). intros c Hc.
  change (@rmul R CRing_R) with Rmult. rewrite map_map. rewrite (nth_map' (fun x => weighted k (map (Rmult g) x)) _ _ [] []) by exact Hc. rewrite (nth_map' (weighted k) _ _ [] []) by exact Hc.
  rewrite weighted_times. match goal with |- _ * (?a / ?n) = _ => replace a with (g * g * rsum (block_length (s_fs s)) (fun t => (get (HA := CRing_R) (weighted k (nth c (s_re s) [])) (j * block_step (s_fs s) + t))²)) end; [unfold Rdiv; ring|].
  change Rmult with (@rmul R CRing_R) at 1. rewrite <- (sum_scal_l (HA := CRing_R)). apply (sum_ext (HA := CRing_R)). intros t _. rewrite get_times. unfold Rsqr. cbn. ring.
Qed.
Lemma lufs_times : forall c e, 0 < c -> 0 < e -> lufs (c * e) = lufs e + 10 * (ln c / ln 10).
Proof. intros c e Hc He. unfold lufs. rewrite ln_mult by assumption. pose proof ln10_pos. field. lra. Qed.
Lemma average_times : forall c l, average (map (Rmult c) l) = c * average l.
Proof.
  intros c l. unfold average. rewrite map_length. replace (sum_list (map (Rmult c) l)) with (c * sum_list l); [unfold Rdiv; ring|]. unfold sum_list. induction l as [|a l IH]; [cbn; ring|].
  cbn [map fold_right]. rewrite <- IH. ring.
Qed.
Lemma gated_times : forall c es, 0 < c -> (forall e, In e es -> (exceeds (-70) (c * e) <-> exceeds (-70) e)) ->
  gated (map (Rmult c) es) = option_map (fun l => l + 10 * (ln c / ln 10)) (gated es).
Proof.
  intros c es Hc H. set (d := 10 * (ln c / ln 10)).
  assert (F : forall t u l, (forall e, In e l -> (exceeds u (c * e) <-> exceeds t e)) -> kept u (map (Rmult c) l) = map (Rmult c) (kept t l)).
  { clear. intros t u l H. unfold kept. rewrite filter_map'. f_equal. apply filter_ext_in. intros e He. specialize (H e He). rewrite <- !louder_iff in H. destruct (louder u (c * e)), (louder t e); intuition congruence. }
  unfold gated. rewrite (F (-70) (-70) es H). destruct (kept (-70) es) as [|a A] eqn:EA; [reflexivity|]. cbn [map option_map]. rewrite <- EA. change (c * a :: map (Rmult c) A) with (map (Rmult c) (a :: A)). rewrite <- EA.
  f_equal. assert (N : kept (-70) es <> []) by (rewrite EA; discriminate). assert (P : 0 < average (kept (-70) es)) by (apply average_pos; [exact N|apply kept_pos]).
  rewrite average_times, lufs_times by assumption. fold d. pose proof (kept_ne es N) as NB. set (L := lufs (average (kept (-70) es))) in *.
  rewrite (F (Rmax (L - 10) (-70)) (Rmax (L + d - 10) (-70)) es).
  - rewrite average_times. apply lufs_times; [exact Hc|]. apply average_pos; [exact NB|apply kept_pos].
  - intros e He. specialize (H e He). unfold exceeds in *. split; intros (P1 & P2).
    + pose proof (Rmax_Rle (L + d - 10) (-70) (lufs (c * e))). assert (Q : -70 < lufs (c * e)) by (pose proof (Rmax_r (L + d - 10) (-70)); lra).
      destruct (proj1 H (conj P1 Q)) as (Pe & Qe). split; [exact Pe|]. rewrite lufs_times in P2 by assumption. fold d in P2. apply Rmax_lub_lt; [|exact Qe]. pose proof (Rmax_l (L + d - 10) (-70)). lra.
    + assert (Q : -70 < lufs e) by (pose proof (Rmax_r (L - 10) (-70)); lra). destruct (proj2 H (conj P1 Q)) as (Pe & Qe). split; [exact Pe|]. apply Rmax_lub_lt; [|exact Qe].
      rewrite lufs_times by assumption. fold d. pose proof (Rmax_l (L - 10) (-70)). lra.
Qed.

(** A gain of g moves the loudness by its level, as long as no block crosses -70 LUFS. *)
Theorem C94_gain : forall k s g, proper s -> g <> 0 -> (forall e, In e (energies k s) -> (exceeds (-70) (g * g * e) <-> exceeds (-70) e)) ->
  exists r, fst (lufs_integrated k s) = Ok r /\ fst (lufs_integrated k (times g s)) = Ok (option_map (fun l => l + 20 * (ln (Rabs g) / ln 10)) r).
Proof.
  intros k s g H Hg He. exists (gated (energies k s)). split; [apply lufs_gated, H|]. rewrite lufs_gated by (apply proper_times, H). rewrite energies_times.
  assert (P : 0 < g * g) by nra. rewrite gated_times by assumption. f_equal. assert (A : 0 < Rabs g) by (apply Rabs_pos_lt, Hg).
  replace (g * g) with (Rabs g * Rabs g) by (rewrite <- Rabs_mult; apply Rabs_right; lra). rewrite ln_mult by assumption.
  destruct (gated (energies k s)); [|reflexivity]. cbn [option_map]. f_equal. field. pose proof ln10_pos. lra.
Qed.
Print Assumptions C94_gain.

(** ** channels *)
Definition with_channels (m : mat) (s : signal) : signal := mkSig m (s_im s) (s_scale s) (s_constr s) (s_fs s).

(** Left, right and centre can be exchanged; a silent channel adds nothing; the same material on left and right is 10 log10(2) LU above mono; a
    surround channel counts 1.41 times; more than five channels are refused. *)
Lemma weighted_zeros : forall k n, weighted k (repeat 0 n) = repeat 0 n.
Proof.
  intros k n. transitivity (map (Rmult 0) (weighted k (repeat 0 n))).
  - rewrite <- weighted_times. f_equal. clear. induction n as [|n IH]; [reflexivity|]. cbn [repeat map]. rewrite <- IH. f_equal. ring.
  - assert (L : length (weighted k (repeat 0 n)) = n) by (rewrite weighted_length; apply repeat_length). revert L. generalize (weighted k (repeat 0 n)). clear. induction n as [|n IH]; intros [|a l] H; try discriminate; [reflexivity|].
    cbn [map repeat]. rewrite IH by (injection H as H; exact H). f_equal. ring.
Qed.
Lemma get_zeros : forall n i, get (HA := CRing_R) (repeat 0 n) i = 0.
Proof. intros n i. unfold get. destruct (Nat.lt_ge_cases i n); [apply nth_repeat|apply nth_overflow; rewrite repeat_length; assumption]. Qed.
Theorem C94_channels : forall k s,
  (forall x y m, s_re s = x :: y :: m -> proper s -> fst (lufs_integrated k (with_channels (y :: x :: m) s)) = fst (lufs_integrated k s)) /\
  ((ncols (s_re s) < 5)%nat -> proper s -> fst (lufs_integrated k (with_channels (s_re s ++ [repeat 0 (nrows (s_re s))]) s)) = fst (lufs_integrated k s)) /\
  (forall x, s_re s = [x] -> proper s -> (forall e, In e (energies k s) -> (exceeds (-70) (2 * e) <-> exceeds (-70) e)) ->
    exists r, fst (lufs_integrated k s) = Ok r /\ fst (lufs_integrated k (with_channels [x; x] s)) = Ok (option_map (fun l => l + 10 * (ln 2 / ln 10)) r)) /\
  (forall x, s_re s = [x] -> proper s -> (forall e, In e (energies k s) -> (exceeds (-70) (141 / 100 * e) <-> exceeds (-70) e)) ->
    let z := repeat 0 (nrows (s_re s)) in
    exists r, fst (lufs_integrated k s) = Ok r /\ fst (lufs_integrated k (with_channels [z; z; z; x] s)) = Ok (option_map (fun l => l + 10 * (ln (141 / 100) / ln 10)) r)) /\
  ((5 < ncols (s_re s))%nat -> lufs_integrated k s = (Err AssertionError, s)).
Proof.
  intros k s. assert (EN : forall m c, nrows m = nrows (s_re s) ->
    (forall j, block_energy (block_length (s_fs s)) (block_step (s_fs s)) (map (weighted k) m) j = c * block_energy (block_length (s_fs s)) (block_step (s_fs s)) (map (weighted k) (s_re s)) j) ->
    energies k (with_channels m s) = map (Rmult c) (energies k s)).
  { intros m c E F. unfold energies. cbn [with_channels s_re s_fs]. rewrite E. unfold mk. rewrite map_map. apply map_ext. exact F. }
  assert (M1 : map (Rmult 1) (energies k s) = energies k s) by (rewrite (map_ext (Rmult 1) (fun x => x)) by (intro; ring); apply map_id).
  assert (Z : forall j st n, rsum n (fun t => (get (HA := CRing_R) (repeat 0 (nrows (s_re s))) (j * st + t))²) = 0).
  { intros. apply (sum_zero' (HA := CRing_R)). intros t _. rewrite get_zeros. unfold Rsqr. cbn. ring. }
  split; [|split; [|split; [|split]]].
  - intros x y m E H. assert (P' : proper (with_channels (y :: x :: m) s)).
    { destruct H as (H1 & H2 & H3 & H4). rewrite E in H1, H2, H4. cbn in H1. assert (Ly : length y = length x) by (apply (H2 y); right; left; reflexivity). unfold proper. cbn [with_channels s_re s_fs].
      unfold nrows, ncols in *. cbn [hd length] in *. rewrite Ly. split; [lia|]. split; [|split; assumption]. intros v [<-|[<-|Hv]]; [exact Ly|reflexivity|]. apply H2. right; right; exact Hv. }
    rewrite !lufs_gated by assumption. rewrite (EN _ 1), M1; [reflexivity| |].
    + rewrite E. destruct H as (_ & H2 & _). rewrite E in H2. unfold nrows in *. cbn [hd] in *. apply H2. right; left; reflexivity.
    + intro j. rewrite E. unfold block_energy. rewrite Rmult_1_l. cbn [map length]. rewrite !(sum_S_front (HA := CRing_R)). cbn [nth]. unfold weight at 1 2 4 5. cbn [Nat.ltb Nat.leb]. change (@radd R CRing_R) with Rplus. ring.
  - intros Hc H. set (n := nrows (s_re s)) in *. assert (P' : proper (with_channels (s_re s ++ [repeat 0 n]) s) /\ nrows (s_re s ++ [repeat 0 n]) = n).
    { destruct H as (H1 & H2 & H3 & H4). fold n in H2, H4. unfold proper. cbn [with_channels s_re s_fs]. assert (E : nrows (s_re s ++ [repeat 0 n]) = n).
      { unfold nrows, n. destruct (s_re s); [cbn in H1; lia|reflexivity]. }
      rewrite E. split; [|reflexivity]. unfold ncols in *. rewrite app_length. cbn [length]. split; [lia|]. split; [|split; assumption].
      intros v Hv. apply in_app_or in Hv. destruct Hv as [Hv|[<-|[]]]; [apply H2, Hv|apply repeat_length]. }
    destruct P' as (P' & En). rewrite !lufs_gated by assumption. rewrite (EN _ 1), M1; [reflexivity|exact En|].
    intro j. rewrite Rmult_1_l. unfold block_energy. rewrite map_app, app_length, !map_length. cbn [map length]. rewrite Nat.add_1_r. cbn [sum].
    rewrite app_nth2 by (rewrite map_length; lia). rewrite map_length, Nat.sub_diag. cbn [nth]. rewrite weighted_zeros. fold n in Z. rewrite Z. change (@radd R CRing_R) with Rplus.
    unfold Rdiv at 2. rewrite Rmult_0_l, Rmult_0_r, Rplus_0_r. apply (sum_ext (HA := CRing_R)). intros c Hc'. rewrite app_nth1 by (rewrite map_length; exact Hc'). reflexivity.
  - intros x E H He. assert (P' : proper (with_channels [x; x] s)).
    { destruct H as (H1 & H2 & H3 & H4). rewrite E in H4. unfold proper, ncols, nrows in *. cbn [with_channels s_re s_fs length hd] in *. split; [lia|]. split; [|split; assumption]. intros v [<-|[<-|[]]]; reflexivity. }
    exists (gated (energies k s)). split; [apply lufs_gated, H|]. rewrite (lufs_gated k _ P'), (EN _ 2).
    + rewrite gated_times by (try exact He; lra). reflexivity.
    + rewrite E. reflexivity.
    + intro j. rewrite E. unfold block_energy. cbn [map length sum nth]. unfold weight. cbn [Nat.ltb Nat.leb]. change (@radd R CRing_R) with Rplus. change (@r0 R CRing_R) with 0. ring.
  - intros x E H He z. assert (P' : proper (with_channels [z; z; z; x] s)).
    { destruct H as (H1 & H2 & H3 & H4). unfold z. rewrite E in *. unfold proper, ncols, nrows in *. cbn [with_channels s_re s_fs length hd] in *. rewrite repeat_length. split; [lia|]. split; [|split; assumption].
      intros v [<-|[<-|[<-|[<-|[]]]]]; rewrite ?repeat_length; reflexivity. }
    exists (gated (energies k s)). split; [apply lufs_gated, H|]. rewrite (lufs_gated k _ P'), (EN _ (141 / 100)).
    + rewrite gated_times by (try exact He; lra). reflexivity.
    + unfold nrows at 1. cbn [hd]. unfold z. apply repeat_length.
    + intro j. unfold block_energy. cbn [map length sum nth]. unfold z. rewrite !weighted_zeros. rewrite !Z. rewrite E. cbn [map length sum nth]. unfold weight. cbn [Nat.ltb Nat.leb]. change (@radd R CRing_R) with Rplus. change (@r0 R CRing_R) with 0.
      unfold Rdiv. ring.
  - intros H. unfold lufs_integrated. destruct (Nat.ltb_spec 5 (ncols (s_re s))); [reflexivity|lia].
Qed.
Print Assumptions C94_channels.

(** ** short signals, the end of a signal, and the caller's signal *)

(** Signals of one block, or up to a step shorter, have no number (nan), whatever their data; shorter ones are refused; so has silence of any length. *)
Theorem C94_short_refuted : forall k s, (1 <= ncols (s_re s) <= 5)%nat -> (forall x, In x (s_re s) -> length x = nrows (s_re s)) -> (4 <= s_fs s)%Z ->
  ((nrows (s_re s) <= block_length (s_fs s) < nrows (s_re s) + block_step (s_fs s))%nat -> fst (lufs_integrated k s) = Ok None) /\
  ((nrows (s_re s) + block_step (s_fs s) <= block_length (s_fs s))%nat -> fst (lufs_integrated k s) = Err ValueError) /\
  ((block_length (s_fs s) <= nrows (s_re s))%nat -> (forall x, In x (s_re s) -> x = repeat 0 (nrows (s_re s))) -> fst (lufs_integrated k s) = Ok None).
Proof.
  intros k s Hn Hl Hfs. pose proof (block_step_pos _ Hfs) as St. split; [|split].
  - intros (H1 & H2). destruct (Nat.eq_dec (nrows (s_re s)) (block_length (s_fs s))) as [E|E].
    + assert (P : proper s) by (split; [exact Hn|split; [exact Hl|split; [exact Hfs|lia]]]). rewrite (lufs_gated k s P). f_equal. unfold energies, block_count. rewrite E, Nat.sub_diag, Nat.add_0_l.
      rewrite (Nat.div_small (block_step (s_fs s) - 1)) by lia. reflexivity.
    + unfold lufs_integrated. destruct (Nat.ltb_spec 5 (ncols (s_re s))); [lia|]. cbn [fst]. unfold blocks.
      rewrite (results_ok (channel_blocks k (s_fs s)) (fun _ => [])).
      * cbn [bind]. destruct (s_re s); [cbn in Hn; lia|]. reflexivity.
      * intros x Hx. unfold channel_blocks. rewrite C29_short_signal by (try exact St; rewrite map_length, weighted_length, (Hl x Hx); lia).
        rewrite map_length, weighted_length, (Hl x Hx). destruct (Nat.ltb_spec (block_length (s_fs s) - nrows (s_re s)) (block_step (s_fs s))); [reflexivity|lia].
  - intros H1. unfold lufs_integrated. destruct (Nat.ltb_spec 5 (ncols (s_re s))); [lia|]. cbn [fst]. unfold blocks. destruct (s_re s) as [|x m]; [cbn in Hn; lia|]. cbn [map results].
    unfold channel_blocks at 1. rewrite C29_short_signal by (try exact St; rewrite map_length, weighted_length; unfold nrows in H1; cbn [hd] in H1; lia).
    rewrite map_length, weighted_length. unfold nrows in H1; cbn [hd] in H1. destruct (Nat.ltb_spec (block_length (s_fs s) - length x) (block_step (s_fs s))); [lia|reflexivity].
  - intros H1 Hz. assert (P : proper s) by (split; [exact Hn|split; [exact Hl|split; [exact Hfs|lia]]]). destruct (C94_gates k s P) as (r & E & G & _). rewrite E. f_equal. apply G.
    intros e He (K & _). unfold energies in He. apply In_nth with (d := 0) in He. destruct He as (j & Hj & He). rewrite mk_length in Hj. rewrite nth_mk in He by exact Hj.
    assert (e = 0); [|lra]. rewrite <- He. unfold block_energy. rewrite map_length. apply (sum_zero' (HA := CRing_R)). intros c Hc. rewrite (nth_map' (weighted k) _ _ [] []) by exact Hc.
    rewrite (Hz (nth c (s_re s) [])) by (apply nth_In; exact Hc). rewrite weighted_zeros. rewrite (sum_zero' (HA := CRing_R)); [change (@r0 R CRing_R) with 0; unfold Rdiv; ring|]. intros t _. rewrite get_zeros. unfold Rsqr. cbn. ring.
Qed.
Print Assumptions C94_short_refuted.

(** The samples after the last counted block have no influence. When the step divides what follows the first block, these are the last step of the
    signal: its last full block is not counted. *)
Definition counted (s : signal) : nat :=
  ((block_count (block_length (s_fs s)) (block_step (s_fs s)) (nrows (s_re s)) - 1) * block_step (s_fs s) + block_length (s_fs s))%nat.
Lemma weighted_causal : forall k x x' n i, firstn n x = firstn n x' -> (i < n)%nat -> get (HA := CRing_R) (weighted k x) i = get (HA := CRing_R) (weighted k x') i.
Proof.
  intros k x x' n i E H. assert (Q : forall x, get (HA := CRing_R) (weighted k x) i = get (HA := CRing_R) (weighted k (firstn n x)) i).
  { clear x x' E. intro x. unfold weighted. rewrite <- (firstn_skipn n x) at 1. rewrite Claims_crossover.sosfilt_app'. pose proof (Claims_crossover.sosfilt_len' k (firstn n x) (repeat [0; 0] (length k))) as L.
    pose proof (Claims_crossover.sosfilt_len' k (skipn n x)) as L2.
    destruct (sosfilt k (firstn n x) (repeat [0; 0] (length k))) as (u, z). specialize (L2 z). destruct (sosfilt k (skipn n x) z) as (v, z2). cbn [fst] in *. unfold get. rewrite firstn_length in L. destruct (Nat.lt_ge_cases i (length u)).
    - apply app_nth1. assumption.
    - rewrite !nth_overflow; [reflexivity|lia|]. rewrite app_length, L2, skipn_length. lia. }
  rewrite (Q x), (Q x'), E. reflexivity.
Qed.
Theorem C94_tail_ignored_refuted : forall k s m, proper s -> proper (with_channels m s) -> nrows m = nrows (s_re s) -> map (firstn (counted s)) m = map (firstn (counted s)) (s_re s) ->
  fst (lufs_integrated k (with_channels m s)) = fst (lufs_integrated k s) /\
  (((nrows (s_re s) - block_length (s_fs s)) mod block_step (s_fs s) = 0)%nat -> (block_length (s_fs s) < nrows (s_re s))%nat -> (counted s + block_step (s_fs s) = nrows (s_re s))%nat).
Proof.
  intros k s m H H' En E. pose proof (block_step_pos _ (proj1 (proj2 (proj2 H)))) as St. split.
  - rewrite !lufs_gated by assumption. do 2 f_equal. unfold energies. cbn [with_channels s_re s_fs]. rewrite En. apply list_eq_nth with (d := 0); [rewrite !mk_length; reflexivity|]. intros j Hj. rewrite mk_length in Hj.
    rewrite !nth_mk by exact Hj. unfold block_energy. rewrite !map_length. assert (L : length m = length (s_re s)) by (apply (f_equal (@length _)) in E; rewrite !map_length in E; exact E). rewrite L.
    apply (sum_ext (HA := CRing_R)). intros c Hc. f_equal. f_equal. apply (sum_ext (HA := CRing_R)). intros t Ht. f_equal. rewrite !(nth_map' (weighted k) _ _ [] []) by lia.
    apply weighted_causal with (n := counted s).
    + apply (f_equal (fun l => nth c l [])) in E. rewrite !(nth_map' (firstn (counted s)) _ _ [] []) in E by lia. exact E.
    + unfold counted. nia.
  - intros Hm Hlt. unfold counted, block_count. set (st := block_step (s_fs s)) in *. set (w := block_length (s_fs s)) in *. set (n := nrows (s_re s)) in *.
    pose proof (Nat.div_mod (n - w) st ltac:(lia)) as D. rewrite Hm in D. set (q := ((n - w) / st)%nat) in *. rewrite D. replace (st * q + 0 + (st - 1))%nat with (st - 1 + q * st)%nat by lia. rewrite Nat.div_add by lia.
    rewrite (Nat.div_small (st - 1)) by lia. destruct q; nia.
Qed.
Print Assumptions C94_tail_ignored_refuted.

(** The signal handed in is not left alone: with the amplitude constraint on it loses its imaginary part and its scale factor becomes 1, however it
    was scaled before. Without the constraint it stays. *)
Theorem C94_caller_refuted : forall k s, (ncols (s_re s) <= 5)%nat -> (ncols (s_re s) <= nrows (s_re s))%nat -> (1 < nrows (s_re s))%nat -> (forall x v, In x (s_re s) -> In v x -> Rabs v <= 1) ->
  (s_constr s = true -> snd (lufs_integrated k s) = mkSig (s_re s) None 1 true (s_fs s)) /\
  (s_constr s = false -> snd (lufs_integrated k s) = s).
Proof.
  intros k s H5 Hc H1 Hp. assert (PK : peak (s_re s) <= 1).
  { assert (V : forall x, (forall v, In v x -> Rabs v <= 1) -> vpeak x <= 1).
    { clear. induction x as [|a x IH]; intro H; cbn; [lra|]. apply Rmax_lub; [apply H; left; reflexivity|]. apply IH. intros v Hv. apply H. right; exact Hv. }
    clear - Hp V. induction (s_re s) as [|x m IH]; cbn; [lra|]. apply Rmax_lub; [apply V; intros v Hv; apply (Hp x); [left; reflexivity|exact Hv]|]. apply IH. intros y v Hy. apply Hp. right; exact Hy. }
  split; intro E; unfold lufs_integrated; destruct (Nat.ltb_spec 5 (ncols (s_re s))); try lia; cbn [snd]; rewrite E; cbn [set_constrain bind].
  - unfold set_constrain, set_time_data. cbn [s_re s_fs i_re i_im i_int option_map]. destruct (Nat.eqb_spec (nrows (s_re s)) 1); [lia|]. cbn [andb]. destruct (Nat.ltb_spec (nrows (s_re s)) (ncols (s_re s))); [lia|].
    destruct (Rlt_dec 1 (peak (s_re s))); [lra|]. reflexivity.
  - cbn [s_re s_im s_scale s_fs]. destruct s. cbn in *. rewrite <- E. reflexivity.
Qed.
Print Assumptions C94_caller_refuted.

(** ** the hypotheses are met: ten samples of ones at 10 Hz (a block of 4 samples, a step of one), weighted by a gain of two *)
Definition ten : signal := mkSig [repeat 1 10] None 1 false 10.
Lemma ten_len : block_length 10 = 4%nat.
Proof. unfold block_length. rewrite (Claims_fvec.Int_part_unique _ 4) by (cbn [IZR]; lra). reflexivity. Qed.
Lemma ten_step : block_step 10 = 1%nat.
Proof. unfold block_step. rewrite ten_len. cbn [INR]. rewrite (Claims_fvec.Int_part_unique _ 1) by lra. reflexivity. Qed.
Example ten_proper : proper ten.
Proof. unfold proper, ten. cbn [s_re s_fs]. rewrite ten_len. cbn. repeat split; try lia. intros x [<-|[]]. reflexivity. Qed.
Lemma ten_gain : forall x, lfilter (HA := CRing_R) [2; 0; 0] [1; 0; 0] x [0; 0] = (map (Rmult 2) x, [0; 0]).
Proof.
  induction x as [|v x IH]; [reflexivity|]. cbn [lfilter]. replace (lf_sample (HA := CRing_R) [2; 0; 0] [1; 0; 0] [0; 0] v) with (2 * v, [0; 0]).
  - rewrite IH. reflexivity.
  - unfold lf_sample. cbn. f_equal; [ring|]. repeat f_equal; ring.
Qed.
Lemma nth_repeat_lt : forall (T : Type) (a d : T) n i, (i < n)%nat -> nth i (repeat a n) d = a.
Proof. intros T a d n. induction n as [|n IH]; intros i H; [lia|]. destruct i; [reflexivity|]. cbn. apply IH. lia. Qed.
Example ten_loudness : fst (lufs_integrated [([2; 0; 0], [1; 0; 0])] ten) = Ok (Some (lufs 4)).
Proof.
  assert (W : weighted [([2; 0; 0], [1; 0; 0])] (repeat 1 10) = repeat 2 10).
  { unfold weighted. cbn [length repeat]. rewrite Claims_level.fst_sosfilt. cbn [hd tl sosfilt]. rewrite ten_gain. cbn [fst map sosfilt]. rewrite Rmult_1_r. reflexivity. }
  assert (E : energies [([2; 0; 0], [1; 0; 0])] ten = repeat 4 6).
  { unfold energies, ten. cbn [s_re s_fs map]. rewrite ten_len, ten_step, W. replace (block_count 4 1 (nrows [repeat 1 10])) with 6%nat by reflexivity. apply list_eq_nth with (d := 0); [reflexivity|].
    intros j Hj. rewrite mk_length in Hj. rewrite nth_mk by exact Hj. rewrite nth_repeat_lt by exact Hj. unfold block_energy, weight. cbn [length sum nth Nat.ltb Nat.leb].
    unfold get. rewrite !nth_repeat_lt by lia. unfold Rsqr. cbn [INR]. change (@radd R CRing_R) with Rplus. change (@r0 R CRing_R) with 0. field. }
  apply C94_uniform; [apply ten_proper|rewrite E; discriminate| |].
  - intros x Hx. rewrite E in Hx. apply repeat_spec in Hx. exact Hx.
  - split; [lra|]. unfold lufs. assert (0 <= ln 4 / ln 10); [|lra]. apply Rmult_le_pos; [rewrite <- ln_1; left; apply ln_increasing; lra|]. left. apply Rinv_0_lt_compat, ln10_pos.
Qed.
