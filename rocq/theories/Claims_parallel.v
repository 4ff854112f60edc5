(** C98: parallel filter, whole signals and sample by sample. *)
From Coq Require Import List Arith Lia ZArith Bool Reals Lra.
From Verif Require Import Alg Spec M_realtime P_realtime P_conv M_filter P_filter M_coeffs M_parallel P_arrays P_kautz.
From Verif Require Claims_fvec.
Import ListNotations.
Local Open Scope R_scope.

(** ** spec *)
Definition before (d : nat) (x : list R) (n : nat) : R := if (d <=? n)%nat then get x (n - d) else 0.
Definition later (d : nat) (x : list R) : list R := mk (length x) (before d x).
Definition total (l : list R) : R := fold_right Rplus 0 l.
(** [ys] are the responses of the sections to the signal x delayed by d *)
Definition section_outputs (d : nat) (x : list R) (sos : list section) (ys : list (list R)) : Prop := Forall2 (fun (s : section) y => diff_eq (fst s) (snd s) (later d x) y) sos ys.
(** what the least-squares problem is stated for: coefficient k of the FIR part acts k * off samples later *)
Definition design (off : nat) (f : list R) (ys : list (list R)) (x : list R) (n : nat) : R := sum (length f) (fun k => get f k * before (k * off) x n) + total (map (fun y => get y n) ys).
Definition fitted_sections (dens : list (R * R)) (sol : list R) : list section :=
  mk (length dens) (fun s => ([get sol (3 * s); get sol (3 * s + 1); get sol (3 * s + 2)], [1; fst (nth s dens (0, 0)); snd (nth s dens (0, 0))])).

(** ** lemmas *)
Lemma delayed_later : forall d x, delayed d x = later d x.
Proof.
  intros d x. unfold delayed, later. apply list_eq_nth with (d := 0); [rewrite firstn_length, app_length, repeat_length, mk_length; lia|]. intros i Hi. rewrite firstn_length, app_length, repeat_length in Hi.
  rewrite nth_firstn by lia. rewrite nth_mk by lia. unfold before. destruct (Nat.leb_spec d i).
  - rewrite app_nth2 by (rewrite repeat_length; lia). rewrite repeat_length. reflexivity.
  - rewrite app_nth1 by (rewrite repeat_length; lia). apply nth_repeat.
Qed.
Lemma later_length : forall d x, length (later d x) = length x.
Proof. intros. apply mk_length. Qed.
Lemma later_snoc : forall d h x, later d (h ++ [x]) = later d h ++ [before d (h ++ [x]) (length h)].
Proof.
  intros d h x. unfold later at 1. rewrite app_length. cbn [length]. rewrite Nat.add_1_r, mk_S. f_equal. apply mk_ext. intros i Hi. unfold before. destruct (d <=? i)%nat; [|reflexivity]. apply get_app_l. lia.
Qed.
Lemma sec_diff : forall (s : section) x, get (snd s) 0 = 1 -> length (fst s) = 3%nat -> length (snd s) = 3%nat -> diff_eq (fst s) (snd s) x (fst (sosfilt [s] x [[0; 0]])).
Proof.
  intros [b a] x H Lb La. cbn [fst snd] in *. cbn [sosfilt hd tl]. destruct (lfilter b a x [0; 0]) as [y z] eqn:E. cbn [fst].
  destruct (lfilter_diff (HA := CRing_R) b a x [0; 0]) as [L D]; [exact H|rewrite Lb; cbn; lia|rewrite La; cbn; lia|]. rewrite E in L, D. cbn [fst] in L, D. split; [exact L|]. intros n Hn. rewrite (D n Hn).
  change [0; 0] with (repeat 0 2). change 0 with (@r0 R CRing_R) at 1. rewrite (get_repeat0 (HA := CRing_R)). cbn. lra.
Qed.
Lemma get_add : forall a b n, length a = length b -> get (add a b) n = get a n + get b n.
Proof.
  intros a b n L. unfold add. destruct (Nat.lt_ge_cases n (length a)) as [H|H].
  - unfold get. rewrite (nth_map' _ _ n (0, 0) r0) by (rewrite combine_length; lia). change (@r0 R CRing_R) with 0. rewrite combine_nth by exact L. reflexivity.
  - rewrite !(get_out (HA := CRing_R)); [cbn; lra| | |rewrite map_length, combine_length]; lia.
Qed.
Lemma add_length : forall a b, length a = length b -> length (add a b) = length a.
Proof. intros a b L. unfold add. rewrite map_length, combine_length. lia. Qed.
Definition sound (s : section) : Prop := length (fst s) = 3%nat /\ length (snd s) = 3%nat /\ get (snd s) 0 = 1.
Lemma fold_add : forall sos xd y0 ys n, Forall sound sos -> Forall2 (fun (s : section) y => diff_eq (fst s) (snd s) xd y) sos ys -> length y0 = length xd ->
  length (fold_left (fun y s => add y (fst (sosfilt [s] xd [[0; 0]]))) sos y0) = length xd /\ get (fold_left (fun y s => add y (fst (sosfilt [s] xd [[0; 0]]))) sos y0) n = get y0 n + total (map (fun y => get y n) ys).
Proof.
  intros sos xd y0 ys n S H. revert y0. induction H as [|s y sos ys E H IH]; intros y0 L; cbn [fold_left map total fold_right]; [split; [exact L|ring]|].
  inversion S as [|? ? (L1 & L2 & A0) S']; subst. pose proof (sec_diff s xd A0 L1 L2) as D. assert (Ey : y = fst (sosfilt [s] xd [[0; 0]])) by (apply (diff_eq_unique (HA := CRing_R) (fst s) (snd s) xd); [exact A0|exact E|exact D]). rewrite <- Ey in D. match goal with |- context [add y0 ?w] => replace w with y by exact Ey end.
  assert (Ly : length y0 = length y) by (destruct D as [K _]; rewrite L; symmetry; exact K). destruct (IH S' (add y0 y)) as (I1 & I2); [rewrite add_length by exact Ly; exact L|]. split; [exact I1|]. rewrite I2, get_add by exact Ly. unfold total. ring.
Qed.
Lemma fitted_sound : forall dens sol, Forall sound (fitted_sections dens sol).
Proof. intros. apply Forall_forall. intros s Hs. unfold fitted_sections, mk in Hs. apply in_map_iff in Hs. destruct Hs as (i & <- & _). repeat split. Qed.
Lemma conv_before : forall f x n, (n < length x)%nat -> conv f x n = sum (length f) (fun k => get f k * before k x n).
Proof.
  intros f x n Hn. unfold conv. transitivity (sum (S n + length f) (fun k => get f k * before k x n)).
  - rewrite (sum_split (S n) (length f)). rewrite (sum_zero' (length f)) by (intros i Hi; unfold before; destruct (Nat.leb_spec (S n + i) n); [lia|cbn; ring]).
    change (@radd R CRing_R) with Rplus. change (@r0 R CRing_R) with 0. rewrite Rplus_0_r. apply sum_ext. intros k Hk. unfold before. destruct (Nat.leb_spec k n); [reflexivity|lia].
  - rewrite Nat.add_comm, (sum_split (length f) (S n)). rewrite (sum_zero' (S n)) by (intros i Hi; rewrite (get_out (HA := CRing_R) f) by lia; cbn; ring). change (@radd R CRing_R) with Rplus. change (@r0 R CRing_R) with 0. ring.
Qed.
Lemma expand_near : forall off f, (off <= 1)%nat \/ (length f <= 1)%nat -> expand off f = Ok f.
Proof. intros off f H. unfold expand. destruct (Nat.ltb_spec 1 off), (Nat.ltb_spec 1 (length f)); cbn [andb]; try reflexivity; lia. Qed.
Lemma expand_two : forall off a b, (1 < off)%nat -> expand off [a; b] = Ok (a :: repeat 0 (off - 1) ++ [b]).
Proof.
  intros off a b H. unfold expand. cbn [length]. destruct (Nat.ltb_spec 1 off); [|lia]. cbn [andb Nat.ltb Nat.leb Nat.sub]. replace ((off * 1 + 1 + off) / (off + 1))%nat with 1%nat by (apply (Nat.div_unique _ _ 1 off); lia). cbn [Nat.eqb]. f_equal.
  apply list_eq_nth with (d := 0); [rewrite mk_length; cbn [length]; rewrite app_length, repeat_length; cbn [length]; lia|]. intros i Hi. rewrite mk_length in Hi. rewrite nth_mk by exact Hi. destruct (Nat.eqb_spec i (off * 1 + 1 - 1)) as [->|Ni].
  - replace (off * 1 + 1 - 1)%nat with (S (off - 1)) by lia. cbn [nth]. rewrite app_nth2 by (rewrite repeat_length; lia). rewrite repeat_length, Nat.sub_diag. reflexivity.
  - rewrite Nat.mod_small by lia. rewrite Nat.div_small by lia. destruct i as [|i]; [reflexivity|]. cbn [Nat.eqb nth]. rewrite app_nth1 by (rewrite repeat_length; lia). rewrite nth_repeat. reflexivity.
Qed.

(** After a fit the whole-signal filter is what was fitted, as long as there are at most two FIR coefficients or no offset between them. *)
Theorem C98_realised : forall dens sol p x ys n, length sol = (3 * length dens + p_nfir p)%nat -> (1 <= p_off p)%nat -> (p_off p = 1%nat \/ (p_nfir p <= 2)%nat) ->
  section_outputs (p_delay p) x (fitted_sections dens sol) ys -> (n < length x)%nat ->
  exists p' y, fit dens sol p = (p', Ok tt) /\ filter_signal p' x = Ok y /\ length y = length x /\ get y n = design (p_off p) (skipn (3 * length dens) sol) ys x n.
Proof.
  intros dens sol p x ys n Ls O1 Ho Hy Hn. unfold fit. set (f := skipn (3 * length dens) sol). assert (Lf : length f = p_nfir p) by (unfold f; rewrite skipn_length; lia). fold (fitted_sections dens sol).
  assert (EX : exists ff, expand (p_off p) f = Ok ff /\ (f = [] -> ff = []) /\ forall n, (n < length x)%nat -> conv ff x n = sum (length f) (fun k => get f k * before (k * p_off p) x n)).
  { destruct (Nat.le_gt_cases (p_off p) 1) as [P1|P1]; [|destruct (Nat.le_gt_cases (length f) 1) as [F1|F1]].
    - exists f. split; [apply expand_near; auto|]. split; [auto|]. intros m Hm. rewrite conv_before by exact Hm. apply sum_ext. intros k Hk. replace (k * p_off p)%nat with k by (replace (p_off p) with 1%nat by lia; lia). reflexivity.
    - exists f. split; [apply expand_near; auto|]. split; [auto|]. intros m Hm. rewrite conv_before by exact Hm. apply sum_ext. intros k Hk. replace k with 0%nat by lia. reflexivity.
    - destruct f as [|a [|b [|c f']]] eqn:Ef; try (cbn in F1; lia); [|cbn in Lf; lia]. exists (a :: repeat 0 (p_off p - 1) ++ [b]). split; [apply expand_two; exact P1|]. split; [discriminate|]. intros m Hm. rewrite conv_before by exact Hm.
      assert (L : length (a :: repeat 0 (p_off p - 1) ++ [b]) = (1 + (p_off p - 1) + 1)%nat) by (cbn [length]; rewrite app_length, repeat_length; cbn; lia). rewrite L, !sum_split.
      assert (Z : sum (HA := CRing_R) (p_off p - 1) (fun i => get (a :: repeat 0 (p_off p - 1) ++ [b]) (1 + i) * before (1 + i) x m) = 0).
      { apply (sum_zero' (HA := CRing_R)). intros i Hi. change (@r0 R CRing_R) with 0. replace (get (a :: repeat 0 (p_off p - 1) ++ [b]) (1 + i)) with 0; [ring|]. unfold get. cbn [nth Nat.add]. rewrite app_nth1 by (rewrite repeat_length; exact Hi). symmetry. apply (nth_repeat 0). }
      rewrite Z. assert (G : get (a :: repeat 0 (p_off p - 1) ++ [b]) (1 + (p_off p - 1) + 0) = b).
      { unfold get. cbn [nth Nat.add]. rewrite app_nth2 by (rewrite repeat_length; lia). rewrite repeat_length. replace (p_off p - 1 + 0 - (p_off p - 1))%nat with 0%nat by lia. reflexivity. }
      cbn [sum length]. rewrite G. replace (1 + (p_off p - 1) + 0)%nat with (1 * p_off p)%nat by lia. unfold get. cbn. ring. }
  destruct EX as (ff & E & Enil & Ec). rewrite E. eexists. eexists. split; [reflexivity|]. unfold filter_signal. cbn [p_sos p_nfir p_fir p_delay]. split; [reflexivity|]. rewrite delayed_later.
  set (y0 := if (0 <? p_nfir p)%nat then mk (length x) (conv ff x) else repeat 0 (length x)). destruct (fold_add (fitted_sections dens sol) (later (p_delay p) x) y0 ys n) as (A & B); [apply fitted_sound|exact Hy|unfold y0; destruct (_ <? _)%nat; [rewrite mk_length|rewrite repeat_length]; rewrite later_length; reflexivity|].
  split; [rewrite A; apply later_length|]. rewrite B. unfold design. f_equal. unfold y0. destruct (Nat.ltb_spec 0 (p_nfir p)).
  - rewrite (get_mk (HA := CRing_R)) by exact Hn. apply Ec, Hn.
  - rewrite (get_repeat0 (HA := CRing_R)). replace (length f) with 0%nat by lia. reflexivity.
Qed.
Print Assumptions C98_realised.
Example C98_realised_example : exists ys, section_outputs 1 [1; 0; 0] (fitted_sections [(-1 / 2, 0)] [1; 0; 0; 3]) ys.
Proof.
  exists [fst (sosfilt [([1; 0; 0], [1; -1 / 2; 0])] (later 1 [1; 0; 0]) [[0; 0]])]. constructor; [|constructor]. apply (sec_diff ([1; 0; 0], [1; -1 / 2; 0])); reflexivity.
Qed.

(** With an offset and three or more FIR coefficients it is not: they are put k (off + 1) samples apart, except for the last; with more than off + 2 of them the fit raises
    after it has replaced the coefficients, while the filters for single samples stay the old ones. *)
Theorem C98_spacing_refuted : forall dens sol p, length sol = (3 * length dens + p_nfir p)%nat -> (2 <= p_off p)%nat -> (3 <= p_nfir p)%nat ->
  let f := skipn (3 * length dens) sol in
  ((p_off p + 2 < p_nfir p)%nat -> exists p', fit dens sol p = (p', Err ValueError) /\ p_sos p' = Some (fitted_sections dens sol) /\ p_fir p' = f /\ p_rt p' = p_rt p) /\
  ((p_nfir p <= p_off p + 2)%nat -> exists p', fit dens sol p = (p', Ok tt) /\ length (p_fir p') = (p_off p * (p_nfir p - 1) + 1)%nat /\
     get (p_fir p') (p_off p) = 0 /\ (forall k, (k < p_nfir p - 1)%nat -> (k * (p_off p + 1) < p_off p * (p_nfir p - 1))%nat -> get (p_fir p') (k * (p_off p + 1)) = get f k) /\
     (forall i, (i < p_off p * (p_nfir p - 1))%nat -> (i mod (p_off p + 1) <> 0)%nat -> get (p_fir p') i = 0) /\
     get (p_fir p') (p_off p * (p_nfir p - 1)) = get f (p_nfir p - 1)).
Proof.
  intros dens sol p Ls Ho Hn f. assert (Lf : length f = p_nfir p) by (unfold f; rewrite skipn_length; lia). unfold fit. fold f. fold (fitted_sections dens sol). unfold expand. rewrite Lf. destruct (Nat.ltb_spec 1 (p_off p)); [|lia]. destruct (Nat.ltb_spec 1 (p_nfir p)); [|lia]. cbn [andb].
  set (o := p_off p) in *. set (m := p_nfir p) in *. split; intro K.
  - assert (P : ((o * (m - 1) + 1 + o) / (o + 1) < m - 1)%nat) by (apply Nat.div_lt_upper_bound; nia). destruct (Nat.eqb_spec ((o * (m - 1) + 1 + o) / (o + 1)) (m - 1)); [lia|]. eexists. split; [reflexivity|]. split; [reflexivity|]. split; reflexivity.
  - assert (P : ((o * (m - 1) + 1 + o) / (o + 1) = m - 1)%nat) by (symmetry; apply (Nat.div_unique _ _ (m - 1) (o + 2 - m)); nia). rewrite P, Nat.eqb_refl. eexists. split; [reflexivity|]. cbn [p_fir]. set (L := (o * (m - 1) + 1)%nat). split; [apply mk_length|].
    assert (G : forall i, (i < o * (m - 1))%nat -> get (mk L (fun i => if (i =? L - 1)%nat then get f (m - 1) else if (i mod (o + 1) =? 0)%nat then get f (i / (o + 1)) else 0)) i = if (i mod (o + 1) =? 0)%nat then get f (i / (o + 1)) else 0).
    { intros i Hi. rewrite (get_mk (HA := CRing_R)) by (unfold L; lia). destruct (Nat.eqb_spec i (L - 1)); [unfold L in *; lia|reflexivity]. }
    split; [rewrite G by nia; rewrite Nat.mod_small by lia; destruct (Nat.eqb_spec o 0); [lia|reflexivity]|]. split; [|split].
    + intros k Hk Hi. rewrite G by exact Hi. rewrite Nat.mod_mul, Nat.div_mul by lia. reflexivity.
    + intros i Hi Hm. rewrite G by exact Hi. destruct (Nat.eqb_spec (i mod (o + 1)) 0); [contradiction|reflexivity].
    + rewrite (get_mk (HA := CRing_R)) by (unfold L; lia). replace (L - 1)%nat with (o * (m - 1))%nat by (symmetry; apply Nat.add_sub). rewrite Nat.eqb_refl. reflexivity.
Qed.
Print Assumptions C98_spacing_refuted.

(** ** sample by sample *)
Definition simulates {A S} (f : rtf A A S) (F : list A -> A) (Inv : S -> list A -> Prop) : Prop :=
  Inv (rt_fresh f) [] /\ (forall s h, Inv s h -> Inv (rt_reset f s) []) /\ (forall s h x, Inv s h -> exists s', rt_proc f s x = Ok (F (h ++ [x]), s') /\ Inv s' (h ++ [x])).
Lemma fir_sim : forall b : list R, (2 <= length b)%nat -> simulates (fir_filter b) (fun h => conv b h (length h - 1)) (fir_inv (length b - 1)).
Proof.
  intros b Hb. set (o := (length b - 1)%nat). assert (Ho : (0 < o)%nat) by (unfold o; lia). split; [|split].
  - unfold fir_inv; cbn [fir_filter rt_fresh fst snd]. fold o. rewrite repeat_length. repeat split; auto. intros. rewrite get_repeat0. symmetry. unfold get. destruct i; auto.
  - intros [buf w] h (H1 & H2 & H3). unfold fir_inv; cbn [fir_filter rt_reset fst snd] in *. rewrite map_length. repeat split; auto. intros i Hi. transitivity (@r0 R CRing_R).
    + unfold get. destruct (le_lt_dec (length buf) (fir_read_index o w i)); [apply nth_overflow; rewrite map_length; assumption|]. rewrite nth_map' with (d := r0); auto.
    + unfold get. destruct i; auto.
  - intros [buf w] h x (H1 & H2 & H3). cbn [fst snd] in H1, H2, H3. cbn [fir_filter rt_proc]. unfold fir_proc. fold o. destruct (Nat.eqb_spec o 0); try lia. eexists. split.
    + rewrite (fold_left_sum (fun i => get buf (fir_read_index o w i) *! get b (i + 1))%alg). replace (length (h ++ [x]) - 1)%nat with (length h) by (rewrite app_length; cbn; lia). rewrite conv_rev_trunc. fold o.
      replace (sum o (fun i => get b (S i) *! get (rev h) i)%alg) with (sum o (fun i => get buf (fir_read_index o w i) *! get b (i + 1))%alg); [reflexivity|]. apply sum_ext. intros i Hi. rewrite H3 by auto. replace (i + 1)%nat with (S i) by lia. cbn. ring.
    + unfold fir_inv; cbn [fst snd]. assert (Hw : ((w + 1) mod o < o)%nat) by (apply Nat.mod_upper_bound; lia). rewrite upd_length. repeat split; auto. intros i Hi. rewrite get_upd by lia. rewrite rev_app_distr. cbn [rev app]. destruct i as [|i].
      * rewrite fir_read_0 by auto. rewrite Nat.eqb_refl. reflexivity.
      * rewrite <- (fir_read_0 o ((w + 1) mod o)) at 2 by auto. destruct (Nat.eqb_spec (fir_read_index o ((w + 1) mod o) (S i)) (fir_read_index o ((w + 1) mod o) 0)) as [E|_]; [apply fir_read_inj in E; lia|].
        rewrite fir_read_S by auto. rewrite H3 by lia. reflexivity.
Qed.
Section IirCol.
Context {A : Type} {HF : CField A}.
Definition iir_col (b a : list A) (s : list A) (h : list A) : Prop :=
  let n := Nat.max (length b) (length a) in let bn := pad_to n (map (fun c => c /! get a 0)%alg b) in let an := pad_to n (map (fun c => c /! get a 0)%alg a) in
  length s = (n - 1)%nat /\ s = col_final (iir_p bn an) (repeat r0 (n - 1)) h.
Lemma iir_sim : forall b a : list A, (2 <= Nat.max (length b) (length a))%nat -> simulates (iir_filter b a) (iir_F b a) (iir_col b a).
Proof.
  intros b a H. set (n := Nat.max (length b) (length a)) in *. set (bn := pad_to n (map (fun c => c /! get a 0)%alg b)). set (an := pad_to n (map (fun c => c /! get a 0)%alg a)).
  assert (E : length bn = n) by (apply pad_to_length; rewrite map_length; lia). unfold iir_filter. fold n. fold bn. fold an. split; [|split].
  - unfold iir_col. fold n. fold bn. fold an. cbn [iir_filter_norm rt_fresh]. rewrite E, repeat_length. split; reflexivity.
  - unfold iir_col. fold n. fold bn. fold an. intros s h (L & _). cbn [iir_filter_norm rt_reset col_final]. rewrite map_const_repeat, L, repeat_length. split; reflexivity.
  - unfold iir_col. fold n. fold bn. fold an. intros s h x (L & ->). cbn [iir_filter_norm rt_proc]. rewrite iir_proc_eq by lia. unfold iir_F. fold n. fold bn. fold an. cbv zeta. rewrite col_F_snoc. eexists. split; [unfold iir_p; cbn [fst]; reflexivity|].
    split; [unfold iir_next; rewrite mk_length; exact L|]. rewrite col_final_app. reflexivity.
Qed.
End IirCol.
Section Steps.
Context {S : Type} (f : rtf R R S) (F : list R -> R) (Inv : S -> list R -> Prop) (SIM : simulates f F Inv) (OKN : forall n, rt_okn f n = true).
Lemma step_proc : forall cols hs x ch c, Forall2 Inv cols hs -> py_index (length hs) ch = Some c ->
  exists cols', rt_step f cols (Proc x ch) = (cols', Val (F (nth c hs [] ++ [x]))) /\ Forall2 Inv cols' (upd hs c (nth c hs [] ++ [x])).
Proof.
  intros cols hs x ch c H E. destruct SIM as (_ & _ & P). cbn [rt_step]. rewrite (Forall2_len _ _ _ H), E. apply py_index_lt in E. pose proof (Forall2_len _ _ _ H) as L. destruct (P _ _ x (Forall2_nth Inv cols hs c (rt_fresh f) [] H ltac:(lia))) as (s' & E1 & E2). rewrite E1. eexists. split; [reflexivity|]. apply Forall2_upd; assumption.
Qed.
Lemma step_bad : forall cols hs x ch, Forall2 Inv cols hs -> py_index (length hs) ch = None -> rt_step f cols (Proc x ch) = (cols, Raise IndexError).
Proof. intros cols hs x ch H E. cbn [rt_step]. rewrite (Forall2_len _ _ _ H), E. reflexivity. Qed.
Lemma step_reset : forall cols (hs : list (list R)), Forall2 Inv cols hs -> exists cols', rt_step f cols Reset = (cols', Done) /\ Forall2 Inv cols' (map (fun _ => []) hs).
Proof. intros cols hs H. eexists. split; [reflexivity|]. destruct SIM as (_ & Q & _). eapply Forall2_map_same; [|exact H]. intros a b K. exact (Q a b K). Qed.
Lemma step_set : forall cols n, exists cols', rt_step f cols (SetN n) = (cols', Done) /\ Forall2 Inv cols' (repeat [] n).
Proof. intros cols n. cbn [rt_step]. rewrite OKN. eexists. split; [reflexivity|]. apply Forall2_repeat. apply SIM. Qed.
End Steps.

(** the sections as filters of single samples *)
Definition section_F (s : section) : list R -> R := iir_F (fst s) (snd s).
Definition tracks (d : nat) (hs : list (list R)) (e : (list R * list R) * list (list R)) (s : section) : Prop := fst e = s /\ Forall2 (iir_col (fst s) (snd s)) (snd e) (map (later d) hs).
Lemma later_nil : forall d, later d [] = [].
Proof. reflexivity. Qed.
Lemma map_upd : forall (T U : Type) (g : T -> U) l i v, map g (upd l i v) = upd (map g l) i (g v).
Proof. intros T U g l. induction l as [|a l IH]; intros [|i] v; cbn; [reflexivity|reflexivity|reflexivity|]. f_equal. apply IH. Qed.
Lemma iir_all_proc : forall d hs x ch c sos l y, Forall sound sos -> Forall2 (tracks d hs) l sos -> py_index (length hs) ch = Some c ->
  exists l', iir_ops (Proc (before d (nth c hs [] ++ [x]) (length (nth c hs []))) ch) l y = (l', Val (y + total (map (fun s => section_F s (later d (nth c hs [] ++ [x]))) sos))) /\ Forall2 (tracks d (upd hs c (nth c hs [] ++ [x]))) l' sos.
Proof.
  intros d hs x ch c sos l y Sd H E. revert y. induction H as [|[ba cols] s l sos (Eb & Hc) H IH]; intro y.
  - exists []. cbn. split; [f_equal; f_equal; ring|constructor].
  - cbn [fst snd] in Eb, Hc. subst ba. inversion Sd as [|? ? (L1 & L2 & A0) Sd']; subst. cbn [iir_ops]. assert (M2 : (2 <= Nat.max (length (fst s)) (length (snd s)))%nat) by lia.
    destruct (step_proc _ _ _ (iir_sim (fst s) (snd s) M2) cols (map (later d) hs) (before d (nth c hs [] ++ [x]) (length (nth c hs []))) ch c Hc) as (cols' & E1 & E2); [rewrite map_length; exact E|].
    pose proof E as Lt. apply py_index_lt in Lt. rewrite (nth_map' (later d) hs c [] []) in E1, E2 by exact Lt. rewrite <- later_snoc in E1, E2. rewrite E1.
    destruct (IH Sd' (y + section_F s (later d (nth c hs [] ++ [x])))) as (l' & I1 & I2). unfold section_F in I1 at 1. rewrite I1. eexists. split; [cbn [map total fold_right]; unfold section_F; f_equal; f_equal; unfold total; ring|].
    constructor; [|exact I2]. split; [reflexivity|]. cbn [fst snd]. rewrite map_upd. exact E2.
Qed.
Lemma iir_all_bad : forall d hs v ch s sos l y, Forall2 (tracks d hs) l (s :: sos) -> sound s -> py_index (length hs) ch = None -> iir_ops (Proc v ch) l y = (l, Raise IndexError).
Proof.
  intros d hs v ch s sos l y H (L1 & L2 & _) E. inversion H as [|[ba cols] ? l' ? (Eb & Hc) H' E1 E2]. subst l. cbn [fst snd] in Eb, Hc. subst ba. cbn [iir_ops].
  rewrite (step_bad _ (iir_col (fst s) (snd s)) cols (map (later d) hs) v ch Hc) by (rewrite map_length; exact E). reflexivity.
Qed.
Lemma iir_all_reset : forall d hs sos l y, Forall sound sos -> Forall2 (tracks d hs) l sos -> exists l', iir_ops Reset l y = (l', Val y) /\ Forall2 (tracks d (map (fun _ => []) hs)) l' sos.
Proof.
  intros d hs sos l y Sd H. revert y. induction H as [|[ba cols] s l sos (Eb & Hc) H IH]; intro y; [exists []; split; [reflexivity|constructor]|].
  cbn [fst snd] in Eb, Hc. subst ba. inversion Sd as [|? ? (L1 & L2 & A0) Sd']; subst. cbn [iir_ops]. assert (M2 : (2 <= Nat.max (length (fst s)) (length (snd s)))%nat) by lia. destruct (step_reset _ _ _ (iir_sim (fst s) (snd s) M2) cols _ Hc) as (cols' & E1 & E2). rewrite E1.
  destruct (IH Sd' y) as (l' & I1 & I2). rewrite I1. eexists. split; [reflexivity|]. constructor; [|exact I2]. split; [reflexivity|]. cbn [fst snd]. rewrite map_map in *. exact E2.
Qed.
Lemma iir_all_set : forall d hs n sos l y, Forall sound sos -> Forall2 (tracks d hs) l sos -> exists l', iir_ops (SetN n) l y = (l', Val y) /\ Forall2 (tracks d (repeat [] n)) l' sos.
Proof.
  intros d hs n sos l y Sd H. revert y. induction H as [|[ba cols] s l sos (Eb & Hc) H IH]; intro y; [exists []; split; [reflexivity|constructor]|].
  cbn [fst snd] in Eb, Hc. subst ba. inversion Sd as [|? ? (L1 & L2 & A0) Sd']; subst. cbn [iir_ops]. assert (M2 : (2 <= Nat.max (length (fst s)) (length (snd s)))%nat) by lia. destruct (step_set _ _ _ (iir_sim (fst s) (snd s) M2) (fun _ => eq_refl) cols n) as (cols' & E1 & E2). rewrite E1.
  destruct (IH Sd' y) as (l' & I1 & I2). rewrite I1. eexists. split; [reflexivity|]. constructor; [|exact I2]. split; [reflexivity|]. cbn [fst snd]. replace (map (later d) (repeat [] n)) with (repeat (@nil R) n); [exact E2|]. clear. induction n as [|n IH]; [reflexivity|]. cbn [repeat map]. rewrite <- IH. reflexivity.
Qed.
Definition delay_taps (d : nat) : list R := repeat 0 d ++ [1].
Lemma delay_conv : forall d h, (0 < length h)%nat -> conv (delay_taps d) h (length h - 1) = before d h (length h - 1).
Proof.
  intros d h H. rewrite conv_before by lia. unfold delay_taps. rewrite app_length, repeat_length. cbn [length]. rewrite sum_split. rewrite (sum_zero' (HA := CRing_R) d).
  - cbn [sum]. unfold get at 1. rewrite Nat.add_0_r, app_nth2 by (rewrite repeat_length; lia). rewrite repeat_length, Nat.sub_diag. cbn. ring.
  - intros i Hi. unfold get at 1. rewrite app_nth1 by (rewrite repeat_length; exact Hi). rewrite (nth_indep _ _ 0) by (rewrite repeat_length; exact Hi). rewrite nth_repeat. cbn. ring.
Qed.

(** state of the object against the samples each channel has received *)
Definition follows (p : pf) (sos : list section) (r : rts) (hs : list (list R)) : Prop :=
  Forall2 (tracks (p_delay p) hs) (r_iir r) sos /\
  ((2 <= p_nfir p)%nat -> exists cols, r_fir r = Some (p_fir p, cols) /\ Forall2 (fir_inv (length (p_fir p) - 1)) cols hs) /\
  ((1 <= p_nfir p)%nat -> exists b cols, r_fir r = Some (b, cols)) /\
  ((0 < p_delay p)%nat -> exists cols, r_dly r = Some (delay_taps (p_delay p), cols) /\ Forall2 (fir_inv (p_delay p)) cols hs).
Definition answer (p : pf) (sos : list section) (h : list R) : R :=
  (if (0 <? p_nfir p)%nat then conv (p_fir p) h (length h - 1) else 0) + total (map (fun s => section_F s (later (p_delay p) h)) sos).
Lemma step_follows : forall p sos r hs o, p_rt p = Some r -> sos <> [] -> Forall sound sos -> ((2 <= p_nfir p)%nat -> (2 <= length (p_fir p))%nat) -> (p_nfir p = 1%nat -> length (p_fir p) = 1%nat) -> follows p sos r hs ->
  exists r', pf_step p o = (with_rt p r', snd (ref_step (fun _ => true) (answer p sos) hs o)) /\ follows p sos r' (fst (ref_step (fun _ => true) (answer p sos) hs o)).
Proof.
  intros p sos r hs o Er Ns Sd F2 F1 (Fi & Ff & Fe & Fd). assert (DT : length (delay_taps (p_delay p)) = S (p_delay p)) by (unfold delay_taps; rewrite app_length, repeat_length; cbn; lia).
  assert (DS : (0 < p_delay p)%nat -> simulates (fir_filter (delay_taps (p_delay p))) (fun h => conv (delay_taps (p_delay p)) h (length h - 1)) (fir_inv (p_delay p))) by (intro K; pose proof (fir_sim (delay_taps (p_delay p)) ltac:(lia)) as G; rewrite DT in G; replace (S (p_delay p) - 1)%nat with (p_delay p) in G by lia; exact G).
  unfold pf_step. rewrite Er. destruct o as [n| |x ch].
  - destruct (iir_all_set (p_delay p) hs n sos (r_iir r) 0 Sd Fi) as (i' & E1 & E2). rewrite E1. cbn [ref_step fst snd].
    assert (A : exists f', (if (0 <? p_nfir p)%nat then fir_op (SetN n) (r_fir r) else (r_fir r, Done)) = (f', Done) /\ ((2 <= p_nfir p)%nat -> exists cols, f' = Some (p_fir p, cols) /\ Forall2 (fir_inv (length (p_fir p) - 1)) cols (repeat [] n)) /\ ((1 <= p_nfir p)%nat -> exists b cols, f' = Some (b, cols))).
    { destruct (Nat.ltb_spec 0 (p_nfir p)) as [K|K]; [|eexists; split; [reflexivity|]; split; intro; lia]. destruct (Nat.le_gt_cases 2 (p_nfir p)) as [K2|K2].
      - destruct (Ff K2) as (cols & Ec & Hc). rewrite Ec. cbn [fir_op]. destruct (step_set _ _ _ (fir_sim (p_fir p) (F2 K2)) (fun _ => eq_refl) cols n) as (c' & E3 & E4). rewrite E3. eexists. split; [reflexivity|]. split; [intros _; exists c'; split; [reflexivity|exact E4]|intros _; exists (p_fir p), c'; reflexivity].
      - destruct (Fe K) as (b & cols & Ec). rewrite Ec. cbn [fir_op rt_step fir_filter rt_okn]. eexists. split; [reflexivity|]. split; [intro; lia|intros _; eexists; eexists; reflexivity]. }
    destruct A as (f' & Ea & A2 & A1). rewrite Ea. assert (B : exists d', (if (0 <? p_delay p)%nat then fir_op (SetN n) (r_dly r) else (r_dly r, Done)) = (d', Done) /\ ((0 < p_delay p)%nat -> exists cols, d' = Some (delay_taps (p_delay p), cols) /\ Forall2 (fir_inv (p_delay p)) cols (repeat [] n))).
    { destruct (Nat.ltb_spec 0 (p_delay p)) as [K|K]; [|eexists; split; [reflexivity|]; intro; lia]. destruct (Fd K) as (cols & Ec & Hc). rewrite Ec. cbn [fir_op]. destruct (step_set _ _ _ (DS K) (fun _ => eq_refl) cols n) as (c' & E3 & E4). rewrite E3. eexists. split; [reflexivity|]. intros _. exists c'. split; [reflexivity|exact E4]. }
    destruct B as (d' & Eb & B1). rewrite Eb. eexists. split; [reflexivity|]. split; [exact E2|]. split; [exact A2|]. split; [exact A1|exact B1].
  - destruct (iir_all_reset (p_delay p) hs sos (r_iir r) 0 Sd Fi) as (i' & E1 & E2). rewrite E1. cbn [ref_step fst snd].
    assert (A : exists f', (if (1 <? p_nfir p)%nat then fir_op Reset (r_fir r) else (r_fir r, Done)) = (f', Done) /\ ((2 <= p_nfir p)%nat -> exists cols, f' = Some (p_fir p, cols) /\ Forall2 (fir_inv (length (p_fir p) - 1)) cols (map (fun _ => []) hs)) /\ ((1 <= p_nfir p)%nat -> exists b cols, f' = Some (b, cols))).
    { destruct (Nat.ltb_spec 1 (p_nfir p)) as [K|K]; [|eexists; split; [reflexivity|]; split; [intro; lia|exact Fe]]. destruct (Ff K) as (cols & Ec & Hc). rewrite Ec. cbn [fir_op]. destruct (step_reset _ _ _ (fir_sim (p_fir p) (F2 K)) cols hs Hc) as (c' & E3 & E4). rewrite E3.
      eexists. split; [reflexivity|]. split; [intros _; exists c'; split; [reflexivity|exact E4]|intros _; exists (p_fir p), c'; reflexivity]. }
    destruct A as (f' & Ea & A2 & A1). rewrite Ea. assert (B : exists d', (if (0 <? p_delay p)%nat then fir_op Reset (r_dly r) else (r_dly r, Done)) = (d', Done) /\ ((0 < p_delay p)%nat -> exists cols, d' = Some (delay_taps (p_delay p), cols) /\ Forall2 (fir_inv (p_delay p)) cols (map (fun _ => []) hs))).
    { destruct (Nat.ltb_spec 0 (p_delay p)) as [K|K]; [|eexists; split; [reflexivity|]; intro; lia]. destruct (Fd K) as (cols & Ec & Hc). rewrite Ec. cbn [fir_op]. destruct (step_reset _ _ _ (DS K) cols hs Hc) as (c' & E3 & E4). rewrite E3. eexists. split; [reflexivity|]. intros _. exists c'. split; [reflexivity|exact E4]. }
    destruct B as (d' & Eb & B1). rewrite Eb. eexists. split; [reflexivity|]. split; [exact E2|]. split; [exact A2|]. split; [exact A1|exact B1].
  - cbn [ref_step]. destruct (py_index (length hs) ch) as [c|] eqn:Ei; cbn [fst snd].
    + set (h := nth c hs []) in *. assert (Lh : (length (h ++ [x]) - 1 = length h)%nat) by (rewrite app_length; cbn; lia).
      assert (A : exists f', (if (1 <? p_nfir p)%nat then fir_op (Proc x ch) (r_fir r) else (r_fir r, Val (if (p_nfir p =? 1)%nat then get (p_fir p) 0 * x else 0))) = (f', Val (if (0 <? p_nfir p)%nat then conv (p_fir p) (h ++ [x]) (length (h ++ [x]) - 1) else 0)) /\
        ((2 <= p_nfir p)%nat -> exists cols, f' = Some (p_fir p, cols) /\ Forall2 (fir_inv (length (p_fir p) - 1)) cols (upd hs c (h ++ [x]))) /\ ((1 <= p_nfir p)%nat -> exists b cols, f' = Some (b, cols))).
      { destruct (Nat.ltb_spec 1 (p_nfir p)) as [K|K].
        - destruct (Nat.ltb_spec 0 (p_nfir p)); [|lia]. destruct (Ff K) as (cols & Ec & Hc). rewrite Ec. cbn [fir_op]. destruct (step_proc _ _ _ (fir_sim (p_fir p) (F2 K)) cols hs x ch c Hc Ei) as (c' & E3 & E4). rewrite E3. eexists. split; [reflexivity|]. split; [intros _; exists c'; split; [reflexivity|exact E4]|intros _; exists (p_fir p), c'; reflexivity].
        - eexists. split; [|split; [intro; lia|exact Fe]]. f_equal. f_equal. destruct (Nat.eqb_spec (p_nfir p) 1) as [K1|K1]; destruct (Nat.ltb_spec 0 (p_nfir p)); try lia; [|reflexivity]. rewrite Lh, (conv_rev (HA := CRing_R)). rewrite (sum_zero' (HA := CRing_R)); [cbn; ring|]. intros i Hi. rewrite (get_out (HA := CRing_R) (p_fir p)) by (rewrite (F1 K1); lia). cbn. ring. }
      destruct A as (f' & Ea & A2 & A1). rewrite Ea. assert (B : exists d', (if (0 <? p_delay p)%nat then fir_op (Proc x ch) (r_dly r) else (r_dly r, Val x)) = (d', Val (before (p_delay p) (h ++ [x]) (length h))) /\ ((0 < p_delay p)%nat -> exists cols, d' = Some (delay_taps (p_delay p), cols) /\ Forall2 (fir_inv (p_delay p)) cols (upd hs c (h ++ [x])))).
      { destruct (Nat.ltb_spec 0 (p_delay p)) as [K|K].
        - destruct (Fd K) as (cols & Ec & Hc). rewrite Ec. cbn [fir_op]. destruct (step_proc _ _ _ (DS K) cols hs x ch c Hc Ei) as (c' & E3 & E4). fold h in E3, E4. rewrite delay_conv, Lh in E3 by (rewrite app_length; cbn; lia). rewrite E3. eexists. split; [reflexivity|]. intros _. exists c'. split; [reflexivity|exact E4].
        - eexists. split; [|intro; lia]. f_equal. f_equal. replace (p_delay p) with 0%nat by lia. unfold before. cbn [Nat.leb]. rewrite Nat.sub_0_r. symmetry. apply get_snoc. }
      destruct B as (d' & Eb & B1). rewrite Eb. destruct (iir_all_proc (p_delay p) hs x ch c sos (r_iir r) (if (0 <? p_nfir p)%nat then conv (p_fir p) (h ++ [x]) (length (h ++ [x]) - 1) else 0) Sd Fi Ei) as (i' & E1 & E2). fold h in E1, E2. rewrite E1.
      eexists. split; [reflexivity|]. split; [exact E2|]. split; [exact A2|]. split; [exact A1|exact B1].
    + destruct sos as [|s sos]; [congruence|]. inversion Sd as [|? ? S1 Sd']; subst. assert (A : exists y, (if (1 <? p_nfir p)%nat then fir_op (Proc x ch) (r_fir r) else (r_fir r, Val (if (p_nfir p =? 1)%nat then get (p_fir p) 0 * x else 0))) = (r_fir r, y) /\ (y = Raise IndexError \/ exists v, y = Val v)).
      { destruct (Nat.ltb_spec 1 (p_nfir p)) as [K|K]; [|eexists; split; [reflexivity|right; eexists; reflexivity]]. destruct (Ff K) as (cols & Ec & Hc). rewrite Ec. cbn [fir_op]. rewrite (step_bad _ (fir_inv (length (p_fir p) - 1)) cols hs x ch Hc Ei). eexists. split; [reflexivity|left; reflexivity]. }
      destruct A as (y & Ea & Hy). rewrite Ea. exists r. destruct r as [ri rf rd]. cbn [r_iir r_fir r_dly] in *. split; [|split; [exact Fi|split; [exact Ff|split; [exact Fe|exact Fd]]]].
      destruct Hy as [-> | (v & ->)]; [reflexivity|]. assert (B : exists y, (if (0 <? p_delay p)%nat then fir_op (Proc x ch) rd else (rd, Val x)) = (rd, y) /\ (y = Raise IndexError \/ exists v, y = Val v)).
      { destruct (Nat.ltb_spec 0 (p_delay p)) as [K|K]; [|eexists; split; [reflexivity|right; eexists; reflexivity]]. destruct (Fd K) as (cols & Ec & Hc). rewrite Ec. cbn [fir_op]. rewrite (step_bad _ (fir_inv (p_delay p)) cols hs x ch Hc Ei). eexists. split; [reflexivity|left; reflexivity]. }
      destruct B as (y & Eb & Hy). rewrite Eb. destruct Hy as [-> | (v' & ->)]; [reflexivity|]. rewrite (iir_all_bad (p_delay p) hs v' ch s sos ri v Fi S1 Ei). reflexivity.
Qed.
Lemma run_follows : forall p sos ops r hs, sos <> [] -> Forall sound sos -> ((2 <= p_nfir p)%nat -> (2 <= length (p_fir p))%nat) -> (p_nfir p = 1%nat -> length (p_fir p) = 1%nat) -> follows p sos r hs ->
  run pf_step (with_rt p r) ops = run (ref_step (fun _ => true) (answer p sos)) hs ops.
Proof.
  intros p sos ops. induction ops as [|o ops IH]; intros r hs Ns Sd F2 F1 H; [reflexivity|]. cbn [run]. destruct (step_follows (with_rt p r) sos r hs o eq_refl Ns Sd F2 F1 H) as (r' & E1 & E2). rewrite E1.
  change (answer (with_rt p r) sos) with (answer p sos) in *. destruct (ref_step (fun _ => true) (answer p sos) hs o) as [hs' out]. cbn [fst snd] in *. f_equal. change (with_rt (with_rt p r) r') with (with_rt p r'). apply IH; assumption.
Qed.
Lemma section_last : forall s h, sound s -> (0 < length h)%nat -> get (fst (sosfilt [s] h [[0; 0]])) (length h - 1) = section_F s h.
Proof.
  intros s h (L1 & L2 & A0) Lh. assert (E : fst (sosfilt [s] h [[0; 0]]) = outputs (section_F s) h).
  { apply (diff_eq_unique (HA := CRing_R) (fst s) (snd s) h); [exact A0|apply sec_diff; assumption|]. refine (iir_diff_eq (HF := CField_R) (fst s) (snd s) h _ _); [lia|]. intro K. apply R1_neq_R0. rewrite <- A0. exact K. }
  rewrite E. unfold outputs. rewrite (get_mk (HA := CRing_R)) by lia. f_equal. replace (S (length h - 1)) with (length h) by lia. apply firstn_all.
Qed.
Lemma answer_filter : forall p sos h y, p_sos p = Some sos -> Forall sound sos -> (0 < length h)%nat -> filter_signal p h = Ok y -> answer p sos h = get y (length h - 1).
Proof.
  intros p sos h y Es Sd Lh E. unfold filter_signal in E. rewrite Es in E. injection E as <-. rewrite delayed_later.
  destruct (fold_add sos (later (p_delay p) h) (if (0 <? p_nfir p)%nat then mk (length h) (conv (p_fir p) h) else repeat 0 (length h)) (map (fun s => fst (sosfilt [s] (later (p_delay p) h) [[0; 0]])) sos) (length h - 1)) as (_ & B).
  - exact Sd.
  - clear -Sd. induction Sd as [|s sos (L1 & L2 & A0) Sd IH]; cbn [map]; [constructor|]. constructor; [|exact IH]. apply sec_diff; assumption.
  - destruct (_ <? _)%nat; [rewrite mk_length|rewrite repeat_length]; rewrite later_length; reflexivity.
  - etransitivity; [|symmetry; exact B]. unfold answer. f_equal.
    + destruct (_ <? _)%nat; [rewrite (get_mk (HA := CRing_R)) by lia; reflexivity|rewrite (get_repeat0 (HA := CRing_R)); reflexivity].
    + rewrite map_map. f_equal. apply map_ext_in. intros s Hs. rewrite Forall_forall in Sd. rewrite <- (section_last s (later (p_delay p) h)) by (try apply Sd; try exact Hs; rewrite later_length; exact Lh). rewrite later_length. reflexivity.
Qed.
Lemma section_ba_same : forall dens sol s, (forall k, (k < length dens)%nat -> get sol (3 * k) <> 0) -> In s (fitted_sections dens sol) -> section_ba s = s.
Proof.
  intros dens sol s H Hs. unfold fitted_sections, mk in Hs. apply in_map_iff in Hs. destruct Hs as (k & <- & Hk). apply in_seq in Hk. unfold section_ba. cbn [fst snd drop_zeros]. destruct (Req_EM_T (get sol (3 * k)) 0) as [Z|_]; [exfalso; apply (H k); [lia|exact Z]|reflexivity].
Qed.
Lemma expand_len : forall off f ff, expand off f = Ok ff -> ((2 <= length f)%nat -> (2 <= length ff)%nat) /\ (length f = 1%nat -> length ff = 1%nat) /\ (f = [] <-> ff = []).
Proof.
  intros off f ff E. unfold expand in E. destruct (Nat.ltb_spec 1 off) as [H1|H1]; [destruct (Nat.ltb_spec 1 (length f)) as [H2|H2]|]; cbn [andb] in E.
  - destruct (_ =? _)%nat; [|discriminate]. injection E as <-. rewrite mk_length. split; [intro; nia|]. split; [lia|]. split; intro K; [subst f; cbn in H2; lia|]. exfalso. apply (f_equal (@length _)) in K. rewrite mk_length in K. cbn [length] in K. rewrite Nat.add_1_r in K. discriminate.
  - injection E as <-. repeat split; auto.
  - injection E as <-. repeat split; auto.
Qed.

(** Sample by sample: after a fit, whatever the calls of set_n_channels, reset_state and process_sample, each sample of a channel is the one the whole-signal filter gives for the
    samples of that channel so far. The first coefficient of each section must not be zero. *)
Theorem C98_streaming : forall dens sol p p' ops, length sol = (3 * length dens + p_nfir p)%nat -> dens <> [] -> (forall s, (s < length dens)%nat -> get sol (3 * s) <> 0) -> fit dens sol p = (p', Ok tt) ->
  exists F, (forall h x y, filter_signal p' (h ++ [x]) = Ok y -> F (h ++ [x]) = get y (length h)) /\ run pf_step p' ops = ref_run (fun _ => true) F ops.
Proof.
  intros dens sol p p' ops Ls Nd Nz E. unfold fit in E. fold (fitted_sections dens sol) in E. set (f := skipn (3 * length dens) sol) in *. assert (Lf : length f = p_nfir p) by (unfold f; rewrite skipn_length; lia).
  destruct (expand (p_off p) f) as [ff|e] eqn:Ex; [|discriminate]. injection E as <-. set (sos := fitted_sections dens sol) in *. destruct (expand_len _ _ _ Ex) as (X2 & X1 & X0). set (p0 := mkPf (p_nfir p) (p_off p) (p_delay p) (Some sos) ff None).
  exists (answer p0 sos). split.
  - intros h x y Ey. replace (length h) with (length (h ++ [x]) - 1)%nat by (rewrite app_length; cbn; lia). apply (answer_filter p0 sos (h ++ [x]) y eq_refl (fitted_sound dens sol)); [rewrite app_length; cbn; lia|exact Ey].
  - set (r := realtime (p_delay p) sos ff (p_rt p)). change (run pf_step (with_rt p0 r) ops = run (ref_step (fun _ => true) (answer p0 sos)) [[]] ops). apply run_follows.
    + unfold sos, fitted_sections. destruct dens; [congruence|]. discriminate.
    + apply fitted_sound.
    + cbn [p0 p_nfir p_fir]. rewrite <- Lf. exact X2.
    + cbn [p0 p_nfir p_fir]. rewrite <- Lf. exact X1.
    + unfold follows, r, realtime. cbn [p0 p_nfir p_fir p_delay r_iir r_fir r_dly]. split; [|split; [|split]].
      * assert (G : forall l, (forall s, In s l -> section_ba s = s /\ sound s) -> Forall2 (tracks (p_delay p) [[]]) (map (fun s => (section_ba s, [rt_fresh (iir_filter (fst (section_ba s)) (snd (section_ba s)))])) l) l).
        { intros l. induction l as [|s l IH]; intro H; cbn [map]; [constructor|]. constructor; [|apply IH; intros u Hu; apply H; right; exact Hu]. destruct (H s (or_introl eq_refl)) as (Eb & L1 & L2 & _). rewrite Eb. split; [reflexivity|]. cbn [fst snd map]. rewrite later_nil. constructor; [|constructor]. apply (iir_sim (fst s) (snd s)). lia. }
        apply G. intros s Hs. split; [apply (section_ba_same dens sol s Nz Hs)|]. pose proof (fitted_sound dens sol) as Q. rewrite Forall_forall in Q. apply Q, Hs.
      * intro K. assert (K2 : (2 <= length ff)%nat) by (apply X2; lia). destruct ff as [|a ff']; [cbn in K2; lia|]. eexists. split; [reflexivity|]. constructor; [|constructor]. apply (fir_sim (a :: ff') K2).
      * intro K. destruct ff as [|a ff']; [|eexists; eexists; reflexivity]. exfalso. rewrite (proj2 X0 eq_refl) in Lf. cbn in Lf. lia.
      * intro K. destruct (Nat.ltb_spec 0 (p_delay p)); [|lia]. eexists. split; [reflexivity|]. constructor; [|constructor]. assert (DT : length (delay_taps (p_delay p)) = S (p_delay p)) by (unfold delay_taps; rewrite app_length, repeat_length; cbn; lia).
        pose proof (fir_sim (delay_taps (p_delay p)) ltac:(lia)) as (G & _). rewrite DT in G. replace (S (p_delay p) - 1)%nat with (p_delay p) in G by lia. exact G.
Qed.
Print Assumptions C98_streaming.
Example C98_streaming_example : exists p', fit [(-1 / 2, 0)] [1; 0; 0; 3; 4] (new_parallel 2 48000) = (p', Ok tt) /\ length [1; 0; 0; 3; 4] = (3 * 1 + p_nfir (new_parallel 2 48000))%nat.
Proof. eexists. split; [|reflexivity]. unfold fit. cbn [length Nat.mul skipn Nat.add]. rewrite expand_near; [reflexivity|]. left. unfold new_parallel, set_parameters, offset_samples. cbn [fst p_off Z.ltb]. replace (48000 * 0 / 1000 + 1 / 2) with (1 / 2) by field. rewrite (Claims_fvec.Int_part_unique (1 / 2) 0) by lra. cbn. lia. Qed.

(** ** coefficients and parameters that go stale *)
(** set_coefficients does not reach the filters for single samples, and leaves the third coefficient of each section as it was fitted. *)
Theorem C98_coefficients_refuted : forall p sos r iir f, p_sos p = Some sos -> p_rt p = Some r -> length iir = length sos -> (2 <= p_nfir p)%nat -> (2 <= length f)%nat ->
  exists p', set_coefficients iir (Some f) p = (p', Ok tt) /\ p_fir p' = f /\ (forall ops, run pf_step p' ops = run pf_step p ops) /\
    exists sos', p_sos p' = Some sos' /\ length sos' = length sos /\ forall s, (s < length sos)%nat -> nth s sos' ([], []) = ([fst (nth s iir (0, 0)); snd (nth s iir (0, 0)); get (fst (nth s sos ([], []))) 2], snd (nth s sos ([], []))).
Proof.
  intros p sos r iir f Es Er Li N1 N2. unfold set_coefficients. rewrite Es, Li, Nat.eqb_refl. cbn [negb]. eexists. split; [reflexivity|]. split; [reflexivity|]. split.
  - intro ops. set (q := mkPf _ _ _ _ _ _). assert (G : forall ops p q, (2 <= p_nfir p)%nat -> (2 <= p_nfir q)%nat -> p_delay p = p_delay q -> p_rt p = p_rt q -> run pf_step q ops = run pf_step p ops).
    { clear. intro ops. induction ops as [|o ops IH]; intros p q H1 H2 Hd Hr; [reflexivity|]. cbn [run].
      assert (S1 : snd (pf_step q o) = snd (pf_step p o) /\ p_rt (fst (pf_step p o)) = p_rt (fst (pf_step q o)) /\ p_delay (fst (pf_step p o)) = p_delay (fst (pf_step q o)) /\ (2 <= p_nfir (fst (pf_step p o)))%nat /\ (2 <= p_nfir (fst (pf_step q o)))%nat).
      { unfold pf_step. rewrite <- Hr, <- Hd. destruct (p_rt p) as [r|] eqn:Er; [|cbn [fst snd]; repeat split; congruence || assumption]. destruct (Nat.ltb_spec 1 (p_nfir p)); [|lia]. destruct (Nat.ltb_spec 1 (p_nfir q)); [|lia]. destruct (Nat.ltb_spec 0 (p_nfir p)); [|lia]. destruct (Nat.ltb_spec 0 (p_nfir q)); [|lia].
        destruct o as [n| |x ch].
        - destruct (iir_ops _ _ _) as [i u]. destruct (fir_op _ (r_fir r)) as [f' e]. destruct e; [destruct (if (0 <? p_delay p)%nat then _ else _) as [d' e']|destruct (if (0 <? p_delay p)%nat then _ else _) as [d' e']|]; cbn [fst snd with_rt p_rt p_delay p_nfir]; repeat split; assumption.
        - destruct (iir_ops _ _ _) as [i u]. destruct (fir_op _ (r_fir r)) as [f' e]. destruct e; [destruct (if (0 <? p_delay p)%nat then _ else _) as [d' e']|destruct (if (0 <? p_delay p)%nat then _ else _) as [d' e']|]; cbn [fst snd with_rt p_rt p_delay p_nfir]; repeat split; assumption.
        - destruct (fir_op _ (r_fir r)) as [f' e]. destruct e as [|y|e]; [|destruct (if (0 <? p_delay p)%nat then _ else _) as [d' e']; destruct e' as [|x'|e']; [|destruct (iir_ops _ _ _) as [i u]|]|]; cbn [fst snd with_rt p_rt p_delay p_nfir]; repeat split; assumption. }
      destruct S1 as (A1 & A2 & A3 & A4 & A5). destruct (pf_step q o) as [q' oq], (pf_step p o) as [p' op]. cbn [fst snd] in *. rewrite A1. f_equal. apply IH; assumption. }
    apply G; [exact N1|exact N2|reflexivity|reflexivity].
  - eexists. split; [reflexivity|]. split; [rewrite map_length, combine_length; lia|]. intros s Hs. unfold section in *. rewrite (nth_map' _ _ s ((0, 0), ([], [])) ([], [])) by (rewrite combine_length; lia). rewrite combine_nth by exact Li. destruct (nth s iir (0, 0)) as [u v], (nth s sos ([], [])) as [b a]. reflexivity.
Qed.
Print Assumptions C98_coefficients_refuted.

(** Before a fit there are no coefficients to set, no filter and no sample to be had. *)
Theorem C98_unfitted : forall n fs iir f x o, let p := new_parallel n fs in
  set_coefficients iir f p = (p, Err AttributeError) /\ filter_signal p x = Err AttributeError /\ pf_step p o = (p, Raise AttributeError).
Proof. intros. repeat split. Qed.
Print Assumptions C98_unfitted.

(** A delay set after a fit without one: whole signals get it, samples raise. The automatic delay asked for with None is not to be had. *)
Theorem C98_parameters_refuted : forall fs dens sol n p' d ms x ch y, length sol = (3 * length dens + n)%nat -> (n <= 1)%nat -> fit dens sol (new_parallel n fs) = (p', Ok tt) -> (0 < d)%Z ->
  set_parameters fs None ms p' = (p', Err TypeError) /\
  exists p'', set_parameters fs (Some d) ms p' = (p'', Ok tt) /\ p_delay p'' = Z.to_nat d /\ snd (pf_step p'' (Proc x ch)) = Raise AttributeError /\ (filter_signal p'' y = Err AttributeError -> False).
Proof.
  intros fs dens sol n p' d ms x ch y Ls Hn E Hd. split; [reflexivity|]. unfold fit, new_parallel, set_parameters in E. cbn [fst Z.ltb Z.compare p_off p_nfir p_delay p_rt Z.to_nat] in E. destruct (expand _ _) as [ff|e]; [|discriminate]. injection E as <-. unfold set_parameters. destruct (Z.ltb_spec d 0); [lia|].
  eexists. split; [reflexivity|]. split; [reflexivity|]. split; [|discriminate]. unfold pf_step. cbn [p_rt p_nfir p_delay]. destruct (Nat.ltb_spec 1 n); [lia|]. destruct (Nat.ltb_spec 0 (Z.to_nat d)); [|lia]. unfold realtime. cbn [r_dly Nat.ltb Nat.leb fir_op snd]. reflexivity.
Qed.
Print Assumptions C98_parameters_refuted.

(** A new spacing of the FIR coefficients alone changes nothing that has been fitted: whole signals and single samples come out as before. *)
Theorem C98_spacing_only : forall fs ms p, exists p', set_parameters fs (Some (Z.of_nat (p_delay p))) ms p = (p', Ok tt) /\
  (forall x, filter_signal p' x = filter_signal p x) /\ (forall o, snd (pf_step p' o) = snd (pf_step p o)) /\
  (forall iir f, snd (set_coefficients iir f p') = snd (set_coefficients iir f p)).
Proof.
  intros fs ms p. unfold set_parameters. destruct (Z.ltb_spec (Z.of_nat (p_delay p)) 0); [lia|]. rewrite Nat2Z.id. eexists. split; [reflexivity|]. split; [reflexivity|]. split.
  - intros o. unfold pf_step. cbn [p_rt p_nfir p_fir p_delay]. destruct (p_rt p) as [r|]; [|reflexivity]. destruct o; repeat match goal with |- context [match ?t with _ => _ end] => destruct t end; reflexivity.
  - intros iir f. unfold set_coefficients. cbn [p_sos]. destruct (p_sos p); [|reflexivity]. destruct (negb _); reflexivity.
Qed.
Print Assumptions C98_spacing_only.

(** The condition on the first coefficient is needed: with a zero there the section answers one sample earlier than in the whole-signal filter. *)
Theorem C98_leading_zero_refuted : forall fs a1 a2 c1 c2 x, c1 <> 0 -> x <> 0 ->
  exists p' y v, fit [(a1, a2)] [0; c1; c2] (new_parallel 0 fs) = (p', Ok tt) /\ filter_signal p' [x] = Ok y /\ get y 0 = 0 /\ snd (pf_step p' (Proc x 0)) = Val v /\ v = c1 * x /\ v <> 0.
Proof.
  intros fs a1 a2 c1 c2 x Hc Hx. assert (FE : fit [(a1, a2)] [0; c1; c2] (new_parallel 0 fs) = (mkPf 0 (p_off (new_parallel 0 fs)) 0 (Some [([0; c1; c2], [1; a1; a2])]) [] (Some (realtime 0 [([0; c1; c2], [1; a1; a2])] [] None)), Ok tt)).
  { unfold fit. cbn [length Nat.mul Nat.add skipn]. rewrite expand_near by (right; cbn; lia). reflexivity. }
  eexists. eexists. eexists. split; [exact FE|]. split; [reflexivity|]. split.
  - unfold delayed. cbn. ring.
  - assert (EB : section_ba ([0; c1; c2], [1; a1; a2]) = ([c1; c2], [1; a1; a2])).
    { unfold section_ba. cbn [fst snd drop_zeros]. destruct (Req_EM_T 0 0) as [_|K]; [|congruence]. destruct (Req_EM_T c1 0) as [K|_]; [contradiction|reflexivity]. }
    unfold pf_step, realtime. cbn [p_rt p_nfir p_delay r_iir r_fir r_dly Nat.ltb Nat.leb Nat.eqb map]. rewrite EB.
    cbn [fst snd iir_ops rt_step length]. change (py_index 1 0) with (Some 0%nat). cbv iota. unfold iir_filter. cbn [length Nat.max iir_filter_norm rt_proc rt_fresh nth]. rewrite (iir_proc_eq (HA := CRing_R)) by (cbn; lia). cbn [upd snd].
    split; [reflexivity|]. assert (V : 0 + (get (HA := CRing_R) (pad_to 3 (map (fun c => c * / 1) [c1; c2])) 0 * x + get (HA := CRing_R) [0; 0] 0) = c1 * x) by (cbn; field). split; [exact V|]. intro K. change (0 + (get (HA := CRing_R) (pad_to 3 (map (fun c => c * / 1) [c1; c2])) 0 * x + get (HA := CRing_R) [0; 0] 0) = 0) in K. rewrite V in K. apply Rmult_integral in K. tauto.
Qed.
Print Assumptions C98_leading_zero_refuted.

(** the hypotheses of the refutations above are met *)
Example C98_spacing_example : length [1; 0; 0; 1; 2; 3] = (3 * length [(0, 0)] + p_nfir (mkPf 3 2 0 None [] None))%nat /\ (2 <= p_off (mkPf 3 2 0 None [] None))%nat /\ (p_nfir (mkPf 3 2 0 None [] None) <= 2 + 2)%nat.
Proof. cbn. lia. Qed.
Example C98_offset_example : p_off (fst (set_parameters 1000 (Some 0%Z) 2 (new_parallel 3 1000))) = 2%nat.
Proof. unfold set_parameters, offset_samples. cbn [Z.ltb Z.compare fst p_off]. replace (1000 * 2 / 1000 + 1 / 2) with (5 / 2) by field. rewrite (Claims_fvec.Int_part_unique (5 / 2) 2) by lra. reflexivity. Qed.
Example C98_coefficients_example : exists p' sos r, fit [(-1 / 2, 0)] [1; 0; 0; 3; 4] (mkPf 2 1 0 None [] None) = (p', Ok tt) /\ p_sos p' = Some sos /\ p_rt p' = Some r /\ length [(7, 8)] = length sos /\ (2 <= p_nfir p')%nat.
Proof. eexists. eexists. eexists. split; [reflexivity|]. split; [reflexivity|]. split; [reflexivity|]. split; [reflexivity|]. cbn. lia. Qed.
