(** Proofs about the Signal model. *)
From Coq Require Import List Arith Lia ZArith Bool Reals Lra Permutation.
From Verif Require Import Alg Spec M_arrays M_signal P_realtime P_arrays P_arrays2.
Import ListNotations.
Local Open Scope nat_scope.

(** entry of a (rows, columns) array *)
Definition entry (m : mat) (i c : nat) : R := nth i (nth c m []) 0%R.
Definition shape (m : mat) (n k : nat) : Prop := length m = k /\ Forall (fun col => length col = n) m.

Lemma shape_nrows m n k : shape m n k -> 0 < k -> nrows m = n.
Proof. intros [H1 H2] Hk. unfold nrows. destruct m; simpl in *; [lia|]. now inversion H2. Qed.
Lemma shape_ncols m n k : shape m n k -> ncols m = k.
Proof. now intros [H1 _]. Qed.
Lemma shape_col m n k c : shape m n k -> c < k -> length (nth c m []) = n.
Proof. intros [H1 H2] Hc. rewrite Forall_forall in H2. apply H2, nth_In. lia. Qed.

Lemma mat_ext m m' n k : shape m n k -> shape m' n k ->
  (forall i c, i < n -> c < k -> entry m i c = entry m' i c) -> m = m'.
Proof.
  intros H H' E. apply (list_eq_nth []). destruct H, H'; lia.
  intros c Hc. assert (c < k) by (destruct H; lia). apply (list_eq_nth 0%R).
  - now rewrite (shape_col m n k), (shape_col m' n k).
  - intros i Hi. rewrite (shape_col m n k) in Hi by auto. now apply E.
Qed.

Lemma shape_transpose m n k : shape m n k -> 0 < k -> shape (transpose m) k n.
Proof.
  intros H Hk. unfold transpose. rewrite (shape_nrows m n k) by auto. split. apply mk_length.
  apply Forall_forall. intros col Hc. apply (In_nth _ _ []) in Hc. destruct Hc as [i [Hi E]].
  rewrite mk_length in Hi. rewrite nth_mk in E by auto. subst. rewrite map_length. apply H.
Qed.

Lemma entry_transpose m n k i c : shape m n k -> c < k -> i < n -> entry (transpose m) c i = entry m i c.
Proof.
  intros H Hc Hi. unfold entry, transpose. rewrite (shape_nrows m n k) by (auto; lia).
  rewrite nth_mk by auto. rewrite (nth_map' _ m c []) by (destruct H; lia). reflexivity.
Qed.

(** peak *)
Lemma vpeak_ge v x : In x v -> (Rabs x <= vpeak v)%R.
Proof.
  induction v; simpl; [easy|]. intros [->|H]. apply Rmax_l.
  eapply Rle_trans; [apply IHv; auto|apply Rmax_r].
Qed.
Lemma vpeak_pos v : (0 <= vpeak v)%R.
Proof. induction v; simpl. lra. eapply Rle_trans; [apply IHv|apply Rmax_r]. Qed.
Lemma vpeak_att v : v = [] \/ exists x, In x v /\ vpeak v = Rabs x.
Proof.
  induction v as [|a v IH]; auto. right. simpl.
  destruct (Rle_dec (Rabs a) (vpeak v)).
  - rewrite Rmax_right by auto. destruct IH as [->|[x [H1 H2]]].
    + simpl in *. exists a. split; auto. pose proof (Rabs_pos a). lra.
    + exists x. auto.
  - rewrite Rmax_left by lra. exists a. auto.
Qed.
Lemma peak_pos m : (0 <= peak m)%R.
Proof. induction m; simpl. lra. eapply Rle_trans; [apply IHm|apply Rmax_r]. Qed.
Lemma peak_ge m col x : In col m -> In x col -> (Rabs x <= peak m)%R.
Proof.
  induction m; simpl; [easy|]. intros [->|H] Hx.
  - eapply Rle_trans; [apply vpeak_ge; eauto|apply Rmax_l].
  - eapply Rle_trans; [apply IHm; auto|apply Rmax_r].
Qed.
Lemma peak_entry m n k i c : shape m n k -> i < n -> c < k -> (Rabs (entry m i c) <= peak m)%R.
Proof.
  intros H Hi Hc. apply (peak_ge m (nth c m [])). apply nth_In. destruct H; lia.
  unfold entry. apply nth_In. now rewrite (shape_col m n k).
Qed.
Lemma peak_att m n k : shape m n k -> 0 < n -> 0 < k ->
  exists i c, i < n /\ c < k /\ peak m = Rabs (entry m i c).
Proof.
  revert k. induction m as [|col m IH]; intros k H Hn Hk.
  { destruct H. simpl in *. lia. }
  assert (Hcol : length col = n) by (destruct H as [_ H]; now inversion H).
  simpl. destruct (Rle_dec (vpeak col) (peak m)).
  - rewrite Rmax_right by auto. destruct m as [|col' m'].
    + simpl in *. destruct (vpeak_att col) as [->|[x [H1 H2]]]; [simpl in *; lia|].
      pose proof (vpeak_pos col). apply (In_nth _ _ 0%R) in H1. destruct H1 as [i [Hi E]].
      exists i, 0. split; [lia|]. split; [auto|]. unfold entry. simpl. rewrite E. lra.
    + destruct (IH (k - 1)) as [i [c [H1 [H2 H3]]]].
      * destruct H as [Ha Hb]. inversion Hb; subst. split; auto; simpl in *; lia.
      * auto.
      * destruct H; simpl in *; lia.
      * exists i, (S c). split; auto. split; [lia|]. exact H3.
  - rewrite Rmax_left by lra.
    destruct (vpeak_att col) as [->|[x [H1 H2]]]; [simpl in *; lia|].
    apply (In_nth _ _ 0%R) in H1. destruct H1 as [i [Hi E]].
    exists i, 0. split; [lia|]. split; [auto|]. unfold entry. simpl. now rewrite E.
Qed.

Lemma shape_mdiv m n k c : shape m n k -> shape (mdiv m c) n k.
Proof.
  intros [H1 H2]. split. unfold mdiv. now rewrite map_length.
  unfold mdiv. apply Forall_map. eapply Forall_impl; [|exact H2]. intros. now rewrite map_length.
Qed.
Lemma entry_mdiv m n k q i c : shape m n k -> i < n -> c < k -> entry (mdiv m q) i c = (entry m i c / q)%R.
Proof.
  intros H Hi Hc. unfold entry, mdiv. rewrite (nth_map' _ m c []) by (destruct H; lia).
  rewrite (nth_map' _ _ i 0%R) by (rewrite (shape_col m n k); auto). reflexivity.
Qed.

(** ** the setter *)
(** samples of the stored signal: rows are time *)
Definition in_shape (x : input) (n k : nat) : Prop :=
  shape (i_re x) n k /\ (forall im, i_im x = Some im -> shape im n k).
Definition oriented (m : mat) (n k : nat) (i c : nat) : R := if n <? k then entry m c i else entry m i c.
(** largest absolute value of the real and imaginary samples is p *)
Definition is_peak (x : input) (n k : nat) (p : R) : Prop :=
  (forall i c, i < n -> c < k -> (Rabs (entry (i_re x) i c) <= p)%R /\
     forall im, i_im x = Some im -> (Rabs (entry im i c) <= p)%R) /\
  (exists i c, i < n /\ c < k /\ (p = Rabs (entry (i_re x) i c) \/ exists im, i_im x = Some im /\ p = Rabs (entry im i c))).

Lemma set_time_data_spec constr fs (x : input) n k p :
  in_shape x n k -> 0 < n -> 0 < k -> n * k <> 1 -> is_peak x n k p ->
  (constr = true -> (1 < p)%R -> i_int x = false) ->
  exists s, set_time_data constr fs x = Ok s /\
    s_constr s = constr /\ s_fs s = fs /\
    s_scale s = (if constr then if Rlt_dec 1 p then 1 / p else 1 else 1)%R /\
    shape (s_re s) (max n k) (min n k) /\
    (forall i c, i < max n k -> c < min n k -> entry (s_re s) i c = (s_scale s * oriented (i_re x) n k i c)%R) /\
    match i_im x with
    | None => s_im s = None
    | Some im => exists im', s_im s = Some im' /\ shape im' (max n k) (min n k) /\
        forall i c, i < max n k -> c < min n k -> entry im' i c = (s_scale s * oriented im n k i c)%R
    end.
Proof.
  intros [HR HI] Hn Hk H1 [Hp1 Hp2] Hint. unfold set_time_data.
  rewrite (shape_nrows _ n k), (shape_ncols _ n k) by auto.
  assert (E11 : (n =? 1) && (k =? 1) = false).
  { destruct (Nat.eqb_spec n 1), (Nat.eqb_spec k 1); auto. subst. lia. }
  rewrite E11. set (t := if n <? k then transpose else fun m => m).
  assert (Ht : forall m, shape m n k -> shape (t m) (max n k) (min n k) /\
            forall i c, i < max n k -> c < min n k -> entry (t m) i c = oriented m n k i c).
  { intros m Hm. unfold t, oriented. destruct (Nat.ltb_spec n k).
    - rewrite Nat.max_r, Nat.min_l by lia. split. now apply shape_transpose. intros. now apply (entry_transpose m n k).
    - rewrite Nat.max_l, Nat.min_r by lia. split; auto. }
  assert (Htb : forall m i c, shape m n k -> i < n -> c < k -> exists i' c', i' < max n k /\ c' < min n k /\ entry (t m) i' c' = entry m i c).
  { intros m i c Hm Hi Hc. destruct (Ht m Hm) as [_ G]. unfold oriented in G. destruct (Nat.ltb_spec n k).
    - exists c, i. split; [lia|]. split; [lia|]. apply G; lia.
    - exists i, c. split; [lia|]. split; [lia|]. apply G; lia. }
  set (pp := match option_map t (i_im x) with None => peak (t (i_re x)) | Some i => Rmax (peak (t (i_re x))) (peak i) end).
  assert (Hbound : forall m, shape m n k -> (forall i c, i < n -> c < k -> (Rabs (entry m i c) <= p)%R) -> (peak (t m) <= p)%R).
  { intros m Hm Hb. destruct (Ht m Hm) as [Sh G].
    destruct (peak_att (t m) _ _ Sh) as [i [c [Hi [Hc E]]]]; try lia.
    rewrite E, G by auto. unfold oriented. destruct (Nat.ltb_spec n k); apply Hb; lia. }
  assert (Hattain : forall m i c, shape m n k -> i < n -> c < k -> (Rabs (entry m i c) <= peak (t m))%R).
  { intros m i c Hm Hi Hc. destruct (Htb m i c Hm Hi Hc) as [i' [c' [A1 [A2 A3]]]]. rewrite <- A3.
    destruct (Ht m Hm) as [Sh _]. now apply (peak_entry _ (max n k) (min n k)). }
  assert (Epp : pp = p).
  { apply Rle_antisym.
    - unfold pp. destruct (i_im x) as [im|] eqn:Eim; simpl.
      + apply Rmax_lub; apply Hbound; auto; intros; destruct (Hp1 i c); auto.
      + apply Hbound; auto; intros; destruct (Hp1 i c); auto.
    - destruct Hp2 as [i [c [Hi [Hc [->|[im [Eim ->]]]]]]].
      + unfold pp. destruct (i_im x) as [im|] eqn:Eim; simpl.
        * eapply Rle_trans; [now apply (Hattain (i_re x) i c)|apply Rmax_l].
        * now apply Hattain.
      + unfold pp. rewrite Eim. simpl. eapply Rle_trans; [apply (Hattain im i c); auto|apply Rmax_r]. }
  fold pp. rewrite Epp.
  destruct (Ht (i_re x) HR) as [ShR GR].
  assert (Plain : exists s, Ok (mkSig (t (i_re x)) (option_map t (i_im x)) 1%R constr fs) = Ok s /\
    s_constr s = constr /\ s_fs s = fs /\ s_scale s = 1%R /\
    shape (s_re s) (max n k) (min n k) /\
    (forall i c, i < max n k -> c < min n k -> entry (s_re s) i c = (s_scale s * oriented (i_re x) n k i c)%R) /\
    match i_im x with
    | None => s_im s = None
    | Some im => exists im', s_im s = Some im' /\ shape im' (max n k) (min n k) /\
        forall i c, i < max n k -> c < min n k -> entry im' i c = (s_scale s * oriented im n k i c)%R
    end).
  { eexists. split; [reflexivity|]. simpl. do 3 (split; [reflexivity|]). split; auto.
    split. intros. rewrite GR by auto. now rewrite Rmult_1_l.
    destruct (i_im x) as [im|] eqn:Eim; simpl; auto.
    destruct (Ht im (HI im eq_refl)) as [ShI GI]. exists (t im). split; auto. split; auto.
    intros. rewrite GI by auto. now rewrite Rmult_1_l. }
  destruct constr; [destruct (Rlt_dec 1 p) as [Hlt|Hle]|]; auto.
  rewrite Hint by auto. eexists. split; [reflexivity|]. simpl. do 3 (split; [reflexivity|]).
  split. now apply shape_mdiv. split.
  { intros. rewrite (entry_mdiv _ (max n k) (min n k)) by auto. rewrite GR by auto. field. lra. }
  destruct (i_im x) as [im|] eqn:Eim; simpl; auto.
  destruct (Ht im (HI im eq_refl)) as [ShI GI]. eexists. split; [reflexivity|]. split. now apply shape_mdiv.
  intros. rewrite (entry_mdiv _ (max n k) (min n k)) by auto. rewrite GI by auto. field. lra.
Qed.

Lemma is_peak_exists x n k : in_shape x n k -> 0 < n -> 0 < k -> exists p, is_peak x n k p.
Proof.
  intros [HR HI] Hn Hk. destruct (i_im x) as [im|] eqn:Eim.
  - exists (Rmax (peak (i_re x)) (peak im)). specialize (HI im eq_refl). split.
    + intros i c Hi Hc. split.
      * eapply Rle_trans; [now apply (peak_entry _ n k)|apply Rmax_l].
      * intros im' E. rewrite Eim in E. inversion E; subst.
        eapply Rle_trans; [now apply (peak_entry _ n k)|apply Rmax_r].
    + destruct (Rle_dec (peak (i_re x)) (peak im)).
      * rewrite Rmax_right by auto. destruct (peak_att im n k HI Hn Hk) as [i [c [A [B C]]]].
        exists i, c. split; auto. split; auto. right. exists im. auto.
      * rewrite Rmax_left by lra. destruct (peak_att (i_re x) n k HR Hn Hk) as [i [c [A [B C]]]].
        exists i, c. auto.
  - exists (peak (i_re x)). split.
    + intros. split. now apply (peak_entry _ n k). intros im E. congruence.
    + destruct (peak_att (i_re x) n k HR Hn Hk) as [i [c [A [B C]]]]. exists i, c. auto.
Qed.

(** ** invariant and channel operations *)
Definition bounded (m : mat) (n k : nat) : Prop := forall i c, i < n -> c < k -> (Rabs (entry m i c) <= 1)%R.
Record sig_ok (s : signal) (n k : nat) : Prop := {
  ok_k : 0 < k; ok_kn : k <= n; ok_n : 2 <= n;
  ok_re : shape (s_re s) n k;
  ok_im : forall im, s_im s = Some im -> shape im n k;
  ok_bre : s_constr s = true -> bounded (s_re s) n k;
  ok_bim : s_constr s = true -> forall im, s_im s = Some im -> bounded im n k
}.

Lemma set_identity constr fs (x : input) n k :
  in_shape x n k -> 0 < k -> k <= n -> 2 <= n ->
  (constr = true -> bounded (i_re x) n k /\ forall im, i_im x = Some im -> bounded im n k) ->
  set_time_data constr fs x = Ok (mkSig (i_re x) (i_im x) 1%R constr fs).
Proof.
  intros [HR HI] Hk Hkn Hn Hb. unfold set_time_data.
  rewrite (shape_nrows _ n k), (shape_ncols _ n k) by auto.
  destruct (Nat.eqb_spec n 1); try lia. cbn [andb].
  destruct (Nat.ltb_spec n k); try lia.
  replace (option_map (fun m => m) (i_im x)) with (i_im x) by (destruct (i_im x); reflexivity).
  destruct constr; auto. destruct (Hb eq_refl) as [B1 B2].
  assert (P1 : (peak (i_re x) <= 1)%R).
  { destruct (peak_att (i_re x) n k HR) as [i [c [A [B C]]]]; try lia. rewrite C. now apply B1. }
  destruct (Rlt_dec 1 _) as [L|]; auto. exfalso.
  destruct (i_im x) as [im|] eqn:E.
  - assert (P2 : (peak im <= 1)%R).
    { destruct (peak_att im n k (HI im eq_refl)) as [i [c [A [B C]]]]; try lia. rewrite C. now apply (B2 im). }
    pose proof (Rmax_lub _ _ _ P1 P2). lra.
  - lra.
Qed.

Lemma set_ok constr fs (x : input) n k s : in_shape x n k -> 0 < n -> 0 < k ->
  set_time_data constr fs x = Ok s -> sig_ok s (max n k) (min n k) /\ s_constr s = constr /\ s_fs s = fs.
Proof.
  intros Hs Hn Hk E.
  assert (H1 : n * k <> 1).
  { intros C. assert (n = 1 /\ k = 1) as [-> ->] by nia. unfold set_time_data in E.
    destruct Hs as [HR _]. rewrite (shape_nrows _ 1 1), (shape_ncols _ 1 1) in E by auto. discriminate. }
  destruct (is_peak_exists x n k Hs Hn Hk) as [p Hp].
  assert (Hint : constr = true -> (1 < p)%R -> i_int x = false).
  { intros -> Hlt. destruct (i_int x) eqn:Ei; auto. exfalso.
    (* the float version of the same input normalises, so the integer one raises *)
    destruct (set_time_data_spec true fs (mkIn (i_re x) (i_im x) false) n k p) as [s' [E' [_ [_ [Sc _]]]]]; auto.
    unfold set_time_data in E, E'. cbn [i_re i_im i_int] in *. rewrite Ei in E.
    destruct (_ && _); [discriminate|].
    destruct (Rlt_dec 1 p) as [_|]; [|lra].
    destruct (Rlt_dec 1 _) in E'.
    - destruct (Rlt_dec 1 _) in E; [discriminate|]. contradiction.
    - inversion E'; subst s'. simpl in Sc. clear - Sc Hlt.
      assert (p * (1 / p) = p * 1)%R by (now rewrite <- Sc). replace (p * (1 / p))%R with 1%R in H by (field; lra). lra. }
  destruct (set_time_data_spec constr fs x n k p Hs Hn Hk H1 Hp Hint) as [s' [E' [C1 [C2 [C3 [C4 [C5 C6]]]]]]].
  rewrite E in E'. inversion E'; subst s'. split; [|auto].
  destruct Hp as [Hp1 Hp2].
  assert (Hsc : constr = true -> (0 <= s_scale s)%R /\ forall v, (Rabs v <= p)%R -> (Rabs (s_scale s * v) <= 1)%R).
  { intros ->. rewrite C3. destruct (Rlt_dec 1 p).
    - assert (0 < 1 / p)%R by (apply Rdiv_lt_0_compat; lra). split; [lra|]. intros v Hv.
      rewrite Rabs_mult, Rabs_pos_eq by lra. apply (Rmult_le_reg_l p); [lra|].
      replace (p * (1 / p * Rabs v))%R with (Rabs v) by (field; lra). lra.
    - split; [lra|]. intros v Hv. rewrite Rmult_1_l. lra. }
  assert (Hor : forall m, (forall i c, i < n -> c < k -> (Rabs (entry m i c) <= p)%R) ->
     forall i c, i < max n k -> c < min n k -> (Rabs (oriented m n k i c) <= p)%R).
  { intros m Hm i c Hi Hc. unfold oriented. destruct (Nat.ltb_spec n k); apply Hm; lia. }
  constructor; try lia.
  - destruct (Nat.eq_dec n 1), (Nat.eq_dec k 1); subst; lia.
  - auto.
  - intros im Eim. destruct (i_im x) as [imx|] eqn:Ex.
    + destruct C6 as [im' [E1 [E2 _]]]. rewrite Eim in E1. now inversion E1.
    + rewrite Eim in C6. discriminate.
  - intros Hc i c Hi Hcc. rewrite C1 in Hc. destruct (Hsc Hc) as [_ G]. rewrite C5 by auto. apply G.
    apply Hor; auto. intros i0 c0 Hi0 Hc0. now destruct (Hp1 i0 c0 Hi0 Hc0).
  - intros Hc im Eim i c Hi Hcc. rewrite C1 in Hc. destruct (Hsc Hc) as [_ G].
    destruct (i_im x) as [imx|] eqn:Ex.
    + destruct C6 as [im' [E1 [_ E2]]]. rewrite Eim in E1. inversion E1; subst.
      rewrite E2 by auto. apply G. apply Hor; auto. intros. now apply Hp1.
    + rewrite Eim in C6. discriminate.
Qed.

Lemma shape_select m n k ks : shape m n k -> (forall q, In q ks -> q < k) -> shape (select ks [] m) n (length ks).
Proof.
  intros H Hq. split. apply map_length. apply Forall_map, Forall_forall. intros q Hin. apply (shape_col m n k); auto.
Qed.
Lemma entry_select m ks i c : c < length ks -> entry (select ks [] m) i c = entry m i (nth c ks 0).
Proof. intros. unfold entry, select. now rewrite (nth_map' _ ks c 0) by auto. Qed.

Lemma delete_at_length {T} k (l : list T) : k < length l -> length (delete_at k l) = length l - 1.
Proof. intros. unfold delete_at. rewrite app_length, firstn_length, skipn_length. lia. Qed.
Lemma nth_delete_at {T} k (l : list T) c d : k < length l ->
  nth c (delete_at k l) d = nth (if c <? k then c else S c) l d.
Proof.
  intros. unfold delete_at. destruct (Nat.ltb_spec c k).
  - rewrite app_nth1 by (rewrite firstn_length; lia). now apply nth_firstn.
  - rewrite app_nth2 by (rewrite firstn_length; lia). rewrite firstn_length, nth_skipn. f_equal. lia.
Qed.
Lemma Forall_skipn' {T} (P : T -> Prop) n l : Forall P l -> Forall P (skipn n l).
Proof. revert l. induction n; intros l H; auto. destruct l; auto. inversion H; simpl; auto. Qed.
Lemma Forall_firstn' {T} (P : T -> Prop) n l : Forall P l -> Forall P (firstn n l).
Proof. revert l. induction n; intros l H; simpl; auto. destruct l; auto. inversion H; simpl; auto. Qed.
Lemma shape_delete m n k q : shape m n k -> q < k -> shape (delete_at q m) n (k - 1).
Proof.
  intros [H1 H2] Hq. split. rewrite delete_at_length; lia.
  unfold delete_at. apply Forall_app. split; [now apply Forall_firstn'|now apply Forall_skipn'].
Qed.

Section Ops.
Variable s : signal.
Variables n k : nat.
Hypothesis Hok : sig_ok s n k.

Lemma data_shape : in_shape (get_data s) n k.
Proof. destruct Hok. split; auto. Qed.

Lemma nc : ncols (s_re s) = k.
Proof. destruct Hok. now apply (shape_ncols _ n). Qed.
Lemma nr : nrows (s_re s) = n.
Proof. destruct Hok. now apply (shape_nrows _ n k). Qed.

(** a channel selection applied to both parts *)
Lemma set_select ks : ks <> [] -> (forall q, In q ks -> q < k) -> length ks <= n ->
  set_data s (map_data (select ks []) (get_data s)) =
  Ok (mkSig (select ks [] (s_re s)) (option_map (select ks []) (s_im s)) 1%R (s_constr s) (s_fs s)).
Proof.
  intros Hne Hq Hl. unfold set_data. destruct Hok as [h1 h2 h3 h4 h5 h6 h7].
  assert (0 < length ks) by (destruct ks; [easy|simpl; lia]).
  rewrite (set_identity _ _ _ n (length ks)); auto.
  - split.
    + simpl. apply (shape_select _ n k); auto.
    + simpl. intros im E. destruct (s_im s) as [i|] eqn:Ei; [|discriminate]. inversion E; subst.
      apply (shape_select _ n k); auto.
  - intros Hc. simpl. split.
    + intros i c Hi Hcc. rewrite entry_select by auto. apply h6; auto. apply Hq, nth_In; auto.
    + intros im E. destruct (s_im s) as [im0|] eqn:Ei; [|discriminate]. inversion E; subst.
      intros i c Hi Hcc. rewrite entry_select by auto. apply h7; auto. apply Hq, nth_In; auto.
Qed.

Lemma delete_select {T} (d : T) q (l : list T) : q < length l ->
  delete_at q l = select (seq 0 q ++ seq (S q) (length l - 1 - q)) d l.
Proof.
  intros Hq. apply (list_eq_nth d).
  - rewrite delete_at_length by auto. unfold select. rewrite map_length, app_length, !seq_length. lia.
  - intros c Hc. rewrite delete_at_length in Hc by auto. rewrite nth_delete_at by auto.
    unfold select. rewrite (nth_map' _ _ c 0) by (rewrite app_length, !seq_length; lia).
    f_equal. destruct (Nat.ltb_spec c q).
    + rewrite app_nth1, seq_nth by (rewrite ?seq_length; lia). reflexivity.
    + rewrite app_nth2, seq_length, seq_nth by (rewrite ?seq_length; lia). lia.
Qed.

Lemma remove_eq ch q : 2 <= k -> py_index k ch = Some q ->
  remove_channel ch s = Ok (mkSig (delete_at q (s_re s)) (option_map (delete_at q) (s_im s)) 1%R (s_constr s) (s_fs s)).
Proof.
  intros Hk E. unfold remove_channel. rewrite nc.
  pose proof (py_index_lt _ _ _ E) as Hq.
  assert (Ech : py_index k (if (ch =? -1)%Z then (Z.of_nat k - 1)%Z else ch) = Some q).
  { destruct (Z.eqb_spec ch (-1)); auto. subst. rewrite <- E. unfold py_index.
    destruct (Z.leb_spec 0 (Z.of_nat k - 1)); try lia. destruct (Z.ltb_spec (Z.of_nat k - 1) (Z.of_nat k)); try lia.
    simpl (0 <=? -1)%Z. cbv iota. destruct (Z.leb_spec (- Z.of_nat k) (-1)); try lia. apply f_equal. lia. }
  set (c := if (ch =? -1)%Z then _ else _) in *. clearbody c.
  destruct (Nat.ltb_spec 1 k); try lia. cbn [negb].
  assert (Hc : (c <= Z.of_nat k - 1)%Z).
  { unfold py_index in Ech. destruct (Z.leb_spec 0 c); [|lia]. destruct (Z.ltb_spec c (Z.of_nat k)); [lia|discriminate]. }
  destruct (Z.leb_spec c (Z.of_nat k - 1)); try lia. cbn [negb]. rewrite Ech.
  assert (Ed : forall m, shape m n k -> delete_at q m = select (seq 0 q ++ seq (S q) (k - 1 - q)) [] m).
  { intros m [L _]. rewrite (delete_select [] q m) by lia. now rewrite L. }
  assert (E1 : map_data (delete_at q) (get_data s) = map_data (select (seq 0 q ++ seq (S q) (k - 1 - q)) []) (get_data s)).
  { unfold map_data. simpl. destruct Hok. rewrite Ed by auto. f_equal.
    destruct (s_im s) eqn:Ei; simpl; auto. f_equal. apply Ed. auto. }
  rewrite E1, set_select.
  - destruct Hok. rewrite Ed by auto. f_equal. f_equal.
    destruct (s_im s) eqn:Ei; simpl; auto. f_equal. symmetry. apply Ed. auto.
  - intros C. apply (f_equal (@length nat)) in C. rewrite app_length, !seq_length in C. simpl in C. lia.
  - intros p Hp. apply in_app_or in Hp. destruct Hp as [Hp|Hp]; apply in_seq in Hp; lia.
  - rewrite app_length, !seq_length. destruct Hok. lia.
Qed.

Lemma swap_eq order : length order = k -> NoDup order -> (forall z, In z order -> (0 <= z < Z.of_nat k)%Z) ->
  swap_channels order s = Ok (mkSig (select (map Z.to_nat order) [] (s_re s))
     (option_map (select (map Z.to_nat order) []) (s_im s)) 1%R (s_constr s) (s_fs s)).
Proof.
  intros HL HN HR. unfold swap_channels. rewrite nc, HL, Nat.eqb_refl. cbn [negb].
  assert (E1 : forallb (fun z => ((z <? Z.of_nat k) && (0 <=? z))%Z) order = true).
  { apply forallb_forall. intros z Hz. apply HR in Hz. apply andb_true_iff. split; [apply Z.ltb_lt|apply Z.leb_le]; lia. }
  rewrite E1. cbn [negb]. assert (E2 : znodup order = true) by now apply znodup_spec. rewrite E2. cbn [negb].
  apply set_select.
  - destruct Hok. destruct order; simpl in *; [lia|easy].
  - intros q Hq. apply in_map_iff in Hq. destruct Hq as [z [<- Hz]]. apply HR in Hz. lia.
  - rewrite map_length. destruct Hok. lia.
Qed.

Lemma swap_err order : (length order <> k \/ ~ NoDup order \/ exists z, In z order /\ ~ (0 <= z < Z.of_nat k)%Z) ->
  swap_channels order s = Err AssertionError.
Proof.
  intros H. unfold swap_channels. rewrite nc.
  destruct (Nat.eqb_spec k (length order)); cbn [negb]; auto.
  destruct (forallb _ order) eqn:E1; cbn [negb]; auto.
  destruct (znodup order) eqn:E2; cbn [negb]; auto. exfalso.
  destruct H as [H|[H|[z [Hz H]]]]. lia. apply H. now apply znodup_spec.
  rewrite forallb_forall in E1. apply E1 in Hz. apply andb_true_iff in Hz. rewrite Z.ltb_lt, Z.leb_le in Hz. lia.
Qed.

Lemma get_channels_eq chs ks : chs <> [] -> Forall2 (fun z q => py_index k z = Some q) chs ks -> length chs <= n ->
  get_channels chs s = Ok (mkSig (select ks [] (s_re s)) (option_map (select ks []) (s_im s)) 1%R (s_constr s) (s_fs s)).
Proof.
  intros Hne HF Hl. unfold get_channels. rewrite nc.
  assert (ER : resolve_all k chs = Some ks).
  { clear - HF. induction HF as [|z q zs ks E HF IH]; auto. simpl. now rewrite E, IH. }
  destruct chs as [|z zs]; [easy|]. rewrite ER. apply set_select.
  - inversion HF; easy.
  - intros q Hq. clear - HF Hq. induction HF as [|z' q' zs' ks' E HF IH]; [easy|]. destruct Hq as [<-|Hq]; auto. now apply py_index_lt in E.
  - apply Forall2_len in HF. lia.
Qed.

Lemma get_channels_err chs : (exists z, In z chs /\ py_index k z = None) -> get_channels chs s = Err IndexError.
Proof.
  intros [z [Hz E]]. unfold get_channels. rewrite nc.
  destruct chs as [|z0 zs]; auto.
  assert (ER : resolve_all k (z0 :: zs) = None).
  { revert Hz. generalize (z0 :: zs). clear - E. induction l as [|y l IH]; [easy|]. simpl. intros [->|Hz].
    - now rewrite E. - destruct (py_index k y); auto. now rewrite IH. }
  now rewrite ER.
Qed.

Lemma shape_sum_cols m : shape m n k -> shape (sum_cols m) n 1.
Proof.
  intros H. split; auto. constructor; auto. rewrite mk_length. destruct Hok. now apply (shape_nrows _ n k).
Qed.
Lemma entry_sum_cols m i : shape m n k -> i < n -> entry (sum_cols m) i 0 = sum k (fun c => entry m i c).
Proof.
  intros H Hi. unfold entry, sum_cols. simpl. destruct Hok. rewrite (shape_nrows _ n k), (shape_ncols _ n k) by auto.
  rewrite nth_mk by auto. reflexivity.
Qed.

Lemma add_eq new fs allow : shape new n 1 \/ (exists k', shape new n k' /\ 0 < k' /\ k' <= n) -> k + ncols new <= n ->
  fs = s_fs s -> (s_constr s = true -> bounded new n (ncols new)) ->
  add_channel new fs allow s = Ok (mkSig (s_re s ++ new) None 1%R (s_constr s) (s_fs s)).
Proof.
  intros Hs Hle -> Hb.
  assert (exists k', shape new n k' /\ 0 < k' /\ k' <= n) as [k' [Hs' [Hk1 Hk2]]].
  { destruct Hs as [Hs|Hs]; auto. exists 1. destruct Hok. split; auto. lia. }
  clear Hs. rewrite (shape_ncols _ n k') in * by auto.
  unfold add_channel. rewrite Z.eqb_refl. cbn [negb]. rewrite nr.
  rewrite (shape_nrows new n k'), (shape_ncols new n k') by auto.
  destruct (Nat.ltb_spec n k'); try lia.
  rewrite (shape_nrows new n k') by auto. rewrite Nat.eqb_refl. cbn [negb andb].
  assert (E : map (pad_trim_col n true) new = new).
  { rewrite <- (map_id new) at 2. apply map_ext_in. intros col Hc. destruct Hs' as [_ F].
    rewrite Forall_forall in F. unfold pad_trim_col. rewrite (F col Hc), Nat.eqb_refl. reflexivity. }
  rewrite E. unfold set_data. destruct Hok as [h1 h2 h3 h4 h5 h6 h7].
  assert (Sh : shape (s_re s ++ new) n (k + k')).
  { destruct h4 as [a1 a2], Hs' as [b1 b2]. split. rewrite app_length. lia. apply Forall_app; auto. }
  rewrite (set_identity _ _ _ n (k + k')); auto; try lia.
  - split; auto. simpl. discriminate.
  - intros Hc. split; [|discriminate]. intros i c Hi Hcc. simpl. unfold entry.
    destruct h4 as [a1 a2]. destruct (Nat.lt_ge_cases c k).
    + rewrite app_nth1 by lia. now apply h6.
    + rewrite app_nth2 by lia. apply (Hb Hc i (c - length (s_re s))); auto. lia.
Qed.
End Ops.

(** every call keeps the invariant *)
Definition op_shaped (o : sig_op) : Prop :=
  match o with
  | SetTimeData x => exists n k, in_shape x n k /\ 0 < n /\ 0 < k
  | AddCh new _ _ => exists n k, shape new n k /\ 0 < n /\ 0 < k
  | _ => True
  end.

Lemma sig_step_ok s o : (exists n k, sig_ok s n k) -> op_shaped o -> exists n k, sig_ok (sig_step s o) n k.
Proof.
  intros [n [k Hok]] Hsh. unfold sig_step. destruct (sig_apply o s) as [s'|e] eqn:E; [|now exists n, k].
  pose proof Hok as [h1 h2 h3 h4 h5 h6 h7].
  assert (Sel : forall ks, ks <> [] -> (forall q, In q ks -> q < k) ->
     set_data s (map_data (select ks []) (get_data s)) = Ok s' -> exists n k, sig_ok s' n k).
  { intros ks Hne Hq E'. unfold set_data in E'. eapply set_ok in E'.
    - destruct E' as [G _]. eexists _, _. exact G.
    - split; simpl. apply (shape_select _ n k); eauto.
      intros im Ei. destruct (s_im s) eqn:Em; [|discriminate]. inversion Ei. apply (shape_select _ n k); auto.
    - lia.
    - destruct ks; [easy|simpl; lia]. }
  destruct o; simpl in E.
  - destruct Hsh as [n' [k' [S1 [S2 S3]]]]. unfold set_data in E. eapply set_ok in E; eauto. destruct E as [G _]. eauto.
  - unfold remove_channel in E. destruct (negb (1 <? _)) eqn:E1; [discriminate|].
    apply negb_false_iff, Nat.ltb_lt in E1.
    destruct (negb _) eqn:E2; [discriminate|].
    destruct (py_index _ _) as [q|] eqn:E3; [|discriminate].
    rewrite (nc s n k Hok) in *.
    pose proof (py_index_lt _ _ _ E3) as Hq.
    eapply (Sel (seq 0 q ++ seq (S q) (k - 1 - q))).
    + intros C. apply (f_equal (@length nat)) in C. rewrite app_length, !seq_length in C. simpl in C. lia.
    + intros p Hp. apply in_app_or in Hp. destruct Hp as [Hp|Hp]; apply in_seq in Hp; lia.
    + rewrite <- E. f_equal. unfold map_data. simpl.
      rewrite (delete_select [] q (s_re s)) by (destruct h4; lia).
      replace (length (s_re s)) with k by (destruct h4; lia). f_equal.
      destruct (s_im s) as [im|] eqn:Ei; simpl; auto. f_equal.
      specialize (h5 im eq_refl). rewrite (delete_select [] q im) by (destruct h5; lia).
      now replace (length im) with k by (destruct h5; lia).
  - unfold swap_channels in E. rewrite (nc s n k Hok) in *.
    destruct (Nat.eqb_spec k (length o)); [|discriminate]. cbn [negb] in E.
    destruct (forallb _ o) eqn:E1; [|discriminate]. destruct (znodup o) eqn:E2; [|discriminate]. cbn [negb] in E.
    eapply (Sel (map Z.to_nat o)); eauto.
    + destruct o; simpl in *; [lia|easy].
    + intros q Hq. apply in_map_iff in Hq. destruct Hq as [z [<- Hz]]. rewrite forallb_forall in E1. apply E1 in Hz.
      apply andb_true_iff in Hz. rewrite Z.ltb_lt, Z.leb_le in Hz. lia.
  - unfold add_channel in E. destruct (negb (fs =? s_fs s)%Z); [discriminate|].
    set (new' := if nrows new <? ncols new then transpose new else new) in *.
    destruct (negb _ && negb allow); [discriminate|].
    destruct Hsh as [n' [k' [S1 [S2 S3]]]].
    assert (Hnew : exists q, shape (map (pad_trim_col (nrows (s_re s)) true) new') n q).
    { exists (length new'). split. now rewrite map_length. apply Forall_map, Forall_forall. intros.
      rewrite pad_trim_length. now rewrite (nr s n k). }
    destruct Hnew as [q Hnew]. unfold set_data in E.
    eapply (set_ok _ _ _ n (k + q)) in E.
    + destruct E as [G _]. eauto.
    + split; simpl; [|discriminate]. destruct h4, Hnew. split. rewrite app_length. lia. apply Forall_app; auto.
    + lia.
    + lia.
  - unfold set_constrain in E. destruct b.
    + eapply (set_ok _ _ _ n k) in E. destruct E as [G _]. eauto. split; simpl; auto. discriminate. lia. lia.
    + inversion E; subst. exists n, k. constructor; simpl; auto; discriminate.
  - unfold get_channels in E. destruct chs as [|z zs]; [discriminate|].
    destruct (resolve_all _ _) as [ks|] eqn:ER; [|discriminate].
    rewrite (nc s n k Hok) in *. apply resolve_all_spec in ER. eapply (Sel ks); eauto.
    + inversion ER; easy.
    + intros q Hq. clear - ER Hq. induction ER as [|z' q' zs' ks' E HF IH]; [easy|].
      destruct Hq as [<-|Hq]; auto. now apply py_index_lt in E.
  - unfold sum_channels, set_data in E. eapply (set_ok _ _ _ n 1) in E.
    + destruct E as [G _]. eauto.
    + split; simpl. apply (shape_sum_cols s n k); auto.
      intros im Ei. destruct (s_im s) eqn:Em; [|discriminate]. inversion Ei. apply (shape_sum_cols s n k); auto.
    + lia.
    + lia.
Qed.

Lemma sig_run_ok ops s : (exists n k, sig_ok s n k) -> Forall op_shaped ops ->
  exists n k, sig_ok (fold_left sig_step ops s) n k.
Proof.
  revert s. induction ops as [|o ops IH]; intros s Hs HF; auto. inversion HF; subst. simpl.
  apply IH; auto. now apply sig_step_ok.
Qed.
