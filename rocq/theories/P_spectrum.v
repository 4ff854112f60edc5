(** Lemmas about the Spectrum model. *)
From Coq Require Import List Arith Lia ZArith Bool Reals Lra Psatz.
From Verif Require Import Alg Spec M_arrays M_signal M_spectrum.
Import ListNotations.
Local Open Scope R_scope.

(** Strictly ascending vectors. *)
Definition asc (f : list R) : Prop := forall i j, (i < j)%nat -> (j < length f)%nat -> nth i f 0 < nth j f 0.
Lemma asc_tl a f : asc (a :: f) -> asc f.
Proof. intros H i j Hij Hj. apply (H (S i) (S j)). lia. simpl; lia. Qed.
Lemma asc_iff f : ascending f = true <-> asc f.
Proof.
  induction f as [|a [|b t] IH].
  - split; auto. intros _ i j ? Hj. simpl in Hj; lia.
  - split; auto. intros _ i j ? Hj. simpl in Hj; lia.
  - change (ascending (a :: b :: t)) with ((if Rlt_dec a b then true else false) && ascending (b :: t)).
    split.
    + intros H. apply andb_true_iff in H as [H1 H2]. destruct (Rlt_dec a b); [|discriminate]. apply IH in H2.
      intros [|i] [|j] Hij Hj; try lia.
      * cbn [nth]. destruct j; [exact r|]. eapply Rlt_trans; [exact r|]. apply (H2 0%nat (S j)). lia. simpl in *; lia.
      * apply (H2 i j). lia. simpl in *; lia.
    + intros H. apply andb_true_iff. split. destruct (Rlt_dec a b); auto. exfalso. apply n, (H 0%nat 1%nat). lia. simpl; lia. apply IH. eapply asc_tl; eauto.
Qed.
Lemma nonneg_iff f : nonneg f = true <-> forall v, In v f -> 0 <= v.
Proof.
  unfold nonneg. rewrite forallb_forall. split; intros H v Hv; specialize (H v Hv); destruct (Rle_dec 0 v); auto; discriminate.
Qed.
Lemma asc_le f i j : asc f -> (i <= j)%nat -> (j < length f)%nat -> nth i f 0 <= nth j f 0.
Proof. intros H Hij Hj. destruct (Nat.eq_dec i j) as [->|]. lra. left. apply H; lia. Qed.
Lemma asc_inj f i j : asc f -> (i < length f)%nat -> (j < length f)%nat -> nth i f 0 = nth j f 0 -> i = j.
Proof.
  intros H Hi Hj E. destruct (Nat.lt_trichotomy i j) as [L|[L|L]]; auto; apply (H _ _ L) in Hi || apply (H _ _ L) in Hj; lra.
Qed.
Lemma asc_lt_idx f i j : asc f -> (i < length f)%nat -> (j < length f)%nat -> nth i f 0 < nth j f 0 -> (i < j)%nat.
Proof. intros H Hi Hj E. destruct (lt_dec i j); auto. pose proof (asc_le f j i H ltac:(lia) Hi). lra. Qed.
Lemma ss_le f v : (searchsorted f v <= length f)%nat.
Proof. induction f as [|a t IH]; simpl; auto. destruct (Rlt_dec a v); lia. Qed.
Lemma ss_spec f v : asc f -> forall i, (i < length f)%nat -> (i < searchsorted f v)%nat <-> nth i f 0 < v.
Proof.
  induction f as [|a t IH]; intros H i Hi. simpl in Hi; lia. cbn [searchsorted]. destruct (Rlt_dec a v) as [L|L].
  - destruct i; cbn [nth]. split; auto; lia. rewrite <- (IH (asc_tl _ _ H) i) by (simpl in Hi; lia). lia.
  - split; [lia|]. intros C. pose proof (asc_le (a :: t) 0 i H ltac:(lia) Hi). change (nth 0 (a :: t) 0) with a in H0. lra.
Qed.
Lemma slice_length {T} a b (l : list T) : length (slice a b l) = Nat.min (b - a) (length l - a).
Proof. unfold slice. now rewrite firstn_length, skipn_length. Qed.
Lemma nth_skipn_l {T} a (l : list T) i d : nth i (skipn a l) d = nth (a + i) l d.
Proof. revert l. induction a; intros l; auto. destruct l. simpl. now destruct i. apply IHa. Qed.
Lemma nth_firstn_l {T} n (l : list T) i d : (i < n)%nat -> nth i (firstn n l) d = nth i l d.
Proof. revert l i. induction n; intros l i H. lia. destruct l; auto. destruct i; auto. simpl. apply IHn. lia. Qed.
Lemma slice_nth {T} a b (l : list T) i d : (i < b - a)%nat -> nth i (slice a b l) d = nth (a + i) l d.
Proof. intros H. unfold slice. rewrite nth_firstn_l by auto. apply nth_skipn_l. Qed.
Lemma slice_asc a b f : asc f -> asc (slice a b f).
Proof.
  intros H i j Hij Hj. rewrite slice_length in Hj. rewrite !slice_nth by lia. apply H; lia.
Qed.
Lemma slice_In {T} a b (l : list T) v : In v (slice a b l) -> In v l.
Proof.
  unfold slice. intros H. rewrite <- (firstn_skipn a l). apply in_or_app. right. rewrite <- (firstn_skipn (b - a) (skipn a l)). apply in_or_app. now left.
Qed.

(** Which bins a range keeps. *)
Definition lower_kept (incl : bool) (f : list R) (v : R) (i : nat) : Prop :=
  if incl then v <= nth i f 0 \/ ((S i < length f)%nat /\ v < nth (S i) f 0) else (0 < i)%nat /\ v <= nth (i - 1) f 0.
Definition upper_kept (incl : bool) (f : list R) (v : R) (i : nat) : Prop :=
  if incl then i = 0%nat \/ nth (i - 1) f 0 < v else nth i f 0 < v.
Definition kept (incl : bool) (f : list R) (lo hi : option R) (i : nat) : Prop :=
  (forall v, lo = Some v -> lower_kept incl f v i) /\ (forall v, hi = Some v -> upper_kept incl f v i).
Lemma low_incl f v il a i : asc f -> il = searchsorted f v -> nth_error f il = Some a -> (i < length f)%nat ->
  ((if Req_EM_T a v then il else il - 1) <= i)%nat <-> lower_kept true f v i.
Proof.
  intros H E Ea Hi. assert (Lil : (il < length f)%nat) by (apply nth_error_Some; congruence). apply nth_error_nth with (d := 0) in Ea.
  assert (S : forall j, (j < length f)%nat -> (j < il)%nat <-> nth j f 0 < v) by (intros; subst il; now apply ss_spec).
  assert (Ha : v <= a). { subst a. destruct (Rlt_dec (nth il f 0) v) as [C|]; [|lra]. apply S in C; lia. }
  unfold lower_kept. destruct (Req_EM_T a v) as [Ev|Ev].
  - split.
    + intros L. left. destruct (Rlt_dec (nth i f 0) v) as [C|]; [|lra]. apply S in C; lia.
    + intros [C|[L C]].
      * destruct (le_dec il i); auto. assert (nth i f 0 < v) by (apply S; lia). lra.
      * destruct (le_dec il i); auto. destruct (Nat.eq_dec (Datatypes.S i) il) as [<-|]; [lra|]. assert (nth (Datatypes.S i) f 0 < v) by (apply S; lia). lra.
  - split.
    + intros L. destruct (le_dec il i). left. destruct (Rlt_dec (nth i f 0) v) as [C|]; [|lra]. apply S in C; lia.
      right. replace (Datatypes.S i) with il by lia. split; auto. lra.
    + intros [C|[L C]].
      * destruct (le_dec il i); [lia|]. assert (nth i f 0 < v) by (apply S; lia). lra.
      * destruct (le_dec (il - 1) i); auto. assert (nth (Datatypes.S i) f 0 < v) by (apply S; lia). lra.
Qed.
Lemma high_incl f v i : asc f -> (i < length f)%nat -> (i < Nat.min (searchsorted f v + 1) (length f))%nat <-> upper_kept true f v i.
Proof.
  intros H Hi. unfold upper_kept. split.
  - intros L. destruct i as [|i]; auto. right. replace (S i - 1)%nat with i by lia. apply ss_spec; auto; lia.
  - intros [->|C]. lia. destruct i as [|i]. lia. replace (S i - 1)%nat with i in C by lia. apply ss_spec in C; auto; lia.
Qed.
Lemma high_excl f v i : asc f -> (i < length f)%nat -> (i < searchsorted f v)%nat <-> upper_kept false f v i.
Proof. intros. unfold upper_kept. now apply ss_spec. Qed.
Lemma low_excl f v i : asc f -> (i < length f)%nat -> (searchsorted f v + 1 <= i)%nat <-> lower_kept false f v i.
Proof.
  intros H Hi. unfold lower_kept. split.
  - intros L. split; [lia|]. destruct (Rlt_dec (nth (i - 1) f 0) v) as [C|]; [|lra]. apply ss_spec in C; auto; lia.
  - intros [L C]. destruct (le_dec (searchsorted f v + 1) i); auto. assert (nth (i - 1) f 0 < v) by (apply ss_spec; auto; lia). lra.
Qed.
(** The slice selects the kept bins; the three ways to fail. *)
Lemma slice_spec f lo hi incl : asc f ->
  match freqs_to_slice f lo hi incl with
  | Ok (a, b) => (a < b)%nat /\ (b <= length f)%nat /\ forall i, (i < length f)%nat -> (a <= i < b)%nat <-> kept incl f lo hi i
  | Err IndexError => incl = true /\ exists v, lo = Some v /\ forall i, (i < length f)%nat -> nth i f 0 < v
  | Err AssertionError => forall i, (i < length f)%nat -> ~ kept incl f lo hi i
  | Err _ => False
  end.
Proof.
  intros H. unfold freqs_to_slice. destruct incl.
  - set (ih := match hi with Some _ => _ | None => _ end).
    assert (Hh : (ih <= length f)%nat /\ forall i, (i < length f)%nat -> (i < ih)%nat <-> forall v, hi = Some v -> upper_kept true f v i).
    { unfold ih. destruct hi as [v|].
      - split; [lia|]. intros i Hi. rewrite high_incl by auto. split; [intros ? ? [= <-]|]; auto.
      - split; [lia|]. intros i Hi. split; auto. discriminate. }
    destruct Hh as [Hh1 Hh2]. clearbody ih. destruct lo as [v|].
    + destruct (nth_error f (searchsorted f v)) as [a|] eqn:Ea.
      * cbn [fst snd]. set (il := if Req_EM_T a v then _ else _).
        assert (Hl : forall i, (i < length f)%nat -> (il <= i)%nat <-> forall w, Some v = Some w -> lower_kept true f w i).
        { intros i Hi. unfold il. rewrite (low_incl f v _ a i) by auto. split; [intros ? ? [= <-]|]; auto. }
        clearbody il. destruct (Nat.ltb_spec il ih).
        -- split; auto. split; auto. intros i Hi. unfold kept. rewrite <- Hl, <- Hh2 by auto. lia.
        -- intros i Hi [K1 K2]. apply Hl in K1; auto. apply Hh2 in K2; auto. lia.
      * split; auto. exists v. split; auto. intros i Hi. apply nth_error_None in Ea. apply ss_spec; auto. lia.
    + cbn [fst snd]. destruct (Nat.ltb_spec 0 ih).
      * split; auto. split; auto. intros i Hi. unfold kept. rewrite <- Hh2 by auto. split; [intros; split; [discriminate|lia]|intros [_ ?]; lia].
      * intros i Hi [_ K2]. apply Hh2 in K2; auto. lia.
  - set (il := match lo with Some _ => _ | None => _ end). set (ih := match hi with Some _ => _ | None => _ end).
    assert (Hl : forall i, (i < length f)%nat -> (il <= i)%nat <-> forall w, lo = Some w -> lower_kept false f w i).
    { intros i Hi. unfold il. destruct lo as [v|]. rewrite low_excl by auto. split; [intros ? ? [= <-]|]; auto. split; [discriminate|lia]. }
    assert (Hh : (ih <= length f)%nat /\ forall i, (i < length f)%nat -> (i < ih)%nat <-> forall v, hi = Some v -> upper_kept false f v i).
    { unfold ih. destruct hi as [v|]. split. apply ss_le. intros i Hi. rewrite high_excl by auto. split; [intros ? ? [= <-]|]; auto.
      split; [lia|]. intros; split; auto. discriminate. }
    destruct Hh as [Hh1 Hh2]. clearbody il ih. cbn [fst snd]. destruct (Nat.ltb_spec il ih).
    + split; auto. split; auto. intros i Hi. unfold kept. rewrite <- Hl, <- Hh2 by auto. lia.
    + intros i Hi [K1 K2]. apply Hl in K1; auto. apply Hh2 in K2; auto. lia.
Qed.
(** What the class guarantees of a spectrum it has accepted. *)
Definition sp_wf (s : spectrum) : Prop :=
  asc (sp_f s) /\ (forall v, In v (sp_f s) -> 0 <= v) /\ sp_d s <> [] /\ (length (sp_d s) <= length (sp_f s))%nat /\
  (forall col, In col (sp_d s) -> length col = length (sp_f s)) /\
  (sp_mag s = true -> forall col z, In col (sp_d s) -> In z col -> 0 <= fst z /\ snd z = 0).
Lemma rows_uniform {T} (m : list (list T)) n : m <> [] -> (forall col, In col m -> length col = n) -> rows m = n.
Proof. intros H U. destruct m; [congruence|]. apply U. now left. Qed.
Lemma set_sdata_ok s mag (d : list (list cplx)) : d <> [] -> (forall col, In col d -> length col = length (sp_f s)) -> (length d <= length (sp_f s))%nat ->
  (mag = true -> forall col z, In col d -> In z col -> 0 <= fst z) -> set_sdata s mag d = (with_d s mag d, Ok tt).
Proof.
  intros H U L N. unfold set_sdata. pose proof (rows_uniform d _ H U) as RU.
  assert (E : (rows d <? length d)%nat = false) by (rewrite RU; apply Nat.ltb_ge; lia). rewrite E. cbv zeta. rewrite RU, Nat.eqb_refl. destruct mag; auto. replace (forallb _ d) with true; auto. symmetry. apply forallb_forall.
  intros col Hc. apply nonneg_iff. intros v Hv. apply in_map_iff in Hv as (z & <- & Hz). eauto.
Qed.
Lemma set_sdata_short s mag (d : list (list cplx)) : d <> [] -> (forall col, In col d -> length col = length (sp_f s)) -> (length (sp_f s) < length d)%nat ->
  set_sdata s mag d = (s, Err AssertionError) \/ length (sp_f s) = 0%nat.
Proof.
  intros H U L. unfold set_sdata. rewrite (rows_uniform d _ H U). destruct (Nat.ltb_spec (length (sp_f s)) (length d)); [|lia].
  destruct (length (sp_f s)) as [|n] eqn:E; auto. left.
  replace (rows (gtranspose c0 d)) with (length d). destruct (Nat.eqb_spec (length d) (S n)); auto; lia.
  unfold gtranspose. rewrite (rows_uniform d _ H U). unfold rows, mk. cbn [seq map hd]. now rewrite map_length.
Qed.
Lemma set_freqs_ok s f : asc f -> (forall v, In v f -> 0 <= v) -> set_freqs s f = (with_f s f, Ok tt).
Proof. intros A N. unfold set_freqs. apply asc_iff in A. apply nonneg_iff in N. now rewrite A, N. Qed.
Lemma trim_eq s lo hi incl : sp_wf s ->
  trim s lo hi incl = match freqs_to_slice (sp_f s) lo hi incl with
    | Err e => (s, Err e)
    | Ok (a, b) => if (b - a <? length (sp_d s))%nat then (with_f s (slice a b (sp_f s)), Err AssertionError)
                   else (with_d (with_f s (slice a b (sp_f s))) (sp_mag s) (map (slice a b) (sp_d s)), Ok tt) end.
Proof.
  intros (A & N & D & LD & U & M). unfold trim. pose proof (slice_spec (sp_f s) lo hi incl A) as HS.
  destruct (freqs_to_slice (sp_f s) lo hi incl) as [[a b]|e]; auto. destruct HS as (Hab & Hb & _).
  rewrite set_freqs_ok. 2:{ now apply slice_asc. } 2:{ intros v Hv. apply N. eapply slice_In; eauto. }
  cbn [with_f sp_d sp_mag].
  assert (LF : length (slice a b (sp_f s)) = (b - a)%nat) by (rewrite slice_length; lia).
  assert (UC : forall col, In col (map (slice a b) (sp_d s)) -> length col = length (sp_f (with_f s (slice a b (sp_f s))))).
  { intros col Hc. apply in_map_iff in Hc as (c0 & <- & Hc). cbn [with_f sp_f]. rewrite LF, slice_length, (U _ Hc). lia. }
  destruct (Nat.ltb_spec (b - a) (length (sp_d s))).
  - destruct (set_sdata_short (with_f s (slice a b (sp_f s))) (sp_mag s) (map (slice a b) (sp_d s))) as [E|E]; auto.
    + destruct (sp_d s); [congruence|discriminate].
    + cbn [with_f sp_f]. rewrite LF, map_length. lia.
    + exfalso. cbn [with_f sp_f] in E. lia.
  - apply set_sdata_ok; auto.
    + destruct (sp_d s); [congruence|discriminate].
    + cbn [with_f sp_f]. rewrite LF, map_length. lia.
    + intros Em col z Hc Hz. apply in_map_iff in Hc as (c' & <- & Hc). eapply (M Em c' z Hc). eapply slice_In; eauto.
Qed.

(** ** Interpolation *)
(** v is the value at x of the polygon through the points (f_i, y_i). *)
Definition polygon (f y : list R) (x v : R) : Prop :=
  exists j, (j < length f)%nat /\
    ((nth j f 0 = x /\ v = nth j y 0) \/
     ((S j < length f)%nat /\ nth j f 0 <= x < nth (S j) f 0 /\ v = nth j y 0 + (nth (S j) y 0 - nth j y 0) * ((x - nth j f 0) / (nth (S j) f 0 - nth j f 0)))).
Lemma interp_in_spec f y x : asc f -> length y = length f -> f <> [] -> nth 0 f 0 <= x <= last f 0 -> polygon f y x (interp_in f y x).
Proof.
  revert y. induction f as [|a [|b t] IH]; intros y A L NE Hx. congruence.
  - destruct y as [|u [|? ?]]; try discriminate. exists 0%nat. split; [simpl; lia|]. left. cbn in *. split; auto. lra.
  - destruct y as [|u [|v y]]; try discriminate. cbn [interp_in]. destruct (Rlt_dec x b) as [C|C].
    + exists 0%nat. split; [simpl; lia|]. right. cbn [nth]. cbn [nth] in Hx. split; [simpl; lia|]. split; [lra|].
      assert (a < b) by (apply (A 0%nat 1%nat); simpl; lia). field. lra.
    + destruct (IH (v :: y)) as (j & Hj & P).
      * eapply asc_tl; eauto.
      * simpl in *; lia.
      * discriminate.
      * split; [cbn [nth]; lra|]. apply Hx.
      * exists (S j). split; [simpl in *; lia|]. destruct P as [P|(P1 & P2 & P3)]; [left; exact P|right]. split; [simpl in *; lia|]. split; [exact P2|exact P3].
Qed.
Lemma polygon_unique f y x v w : asc f -> polygon f y x v -> polygon f y x w -> v = w.
Proof.
  intros A (i & Hi & P) (j & Hj & Q).
  assert (G : forall i j, (i < length f)%nat -> (j < length f)%nat -> nth i f 0 <= x -> ((S i < length f)%nat /\ x < nth (S i) f 0) -> nth j f 0 <= x -> (j <= i)%nat).
  { intros i' j' Hi' Hj' L1 [L2 L3] L4. assert (nth j' f 0 < nth (S i') f 0) by lra. apply asc_lt_idx in H; auto. lia. }
  destruct P as [[P1 P2]|(P1 & P2 & P3)], Q as [[Q1 Q2]|(Q1 & Q2 & Q3)].
  - assert (i = j) as -> by (apply (asc_inj f); auto; lra). congruence.
  - assert (i <= j)%nat by (apply G; auto; try (split; [auto|]); lra). assert (j <= i)%nat. { destruct (le_dec j i); auto. pose proof (A i j ltac:(lia) Hj). lra. }
    assert (i = j) as -> by lia. subst v w. rewrite P1. unfold Rdiv. replace (x - x) with 0 by lra. lra.
  - assert (j <= i)%nat by (apply G; auto; try (split; [auto|]); lra). assert (i <= j)%nat. { destruct (le_dec i j); auto. pose proof (A j i ltac:(lia) Hi). lra. }
    assert (i = j) as -> by lia. subst v w. rewrite Q1. unfold Rdiv. replace (x - x) with 0 by lra. lra.
  - assert (j <= i)%nat by (apply G; auto; try (split; [auto|]); lra). assert (i <= j)%nat by (apply G; auto; try (split; [auto|]); lra). assert (i = j) as -> by lia. congruence.
Qed.
Lemma polygon_grid f y j : (j < length f)%nat -> polygon f y (nth j f 0) (nth j y 0).
Proof. intros H. exists j. split; auto. Qed.
Lemma polygon_between f y x v : asc f -> polygon f y x v -> exists i j, (i < length f)%nat /\ (j < length f)%nat /\ nth i f 0 <= x <= nth j f 0 /\ (j <= S i)%nat /\
  Rmin (nth i y 0) (nth j y 0) <= v <= Rmax (nth i y 0) (nth j y 0).
Proof.
  intros A (i & Hi & [[P1 P2]|(P1 & P2 & P3)]).
  - exists i, i. split; auto. split; auto. split; [lra|]. split; [lia|]. rewrite Rmin_left, Rmax_left by lra. lra.
  - exists i, (S i). split; auto. split; auto. split; [lra|]. split; auto.
    set (t := (x - nth i f 0) / (nth (S i) f 0 - nth i f 0)) in *.
    assert (0 <= t <= 1).
    { unfold t. split. apply Rmult_le_pos. lra. left; apply Rinv_0_lt_compat; lra. apply (Rmult_le_reg_r (nth (S i) f 0 - nth i f 0)). lra.
      unfold Rdiv. rewrite Rmult_assoc, Rinv_l by lra. lra. }
    subst v. unfold Rmin, Rmax. destruct (Rle_dec (nth i y 0) (nth (S i) y 0)); nra.
Qed.
Lemma polygon_scale f y k x v : length y = length f -> polygon f y x v -> polygon f (map (fun u => u * k) y) x (v * k).
Proof.
  intros L (i & Hi & P). exists i. split; auto.
  assert (E : forall j, nth j (map (fun u => u * k) y) 0 = nth j y 0 * k).
  { intros j. rewrite <- (map_nth (fun u => u * k)). f_equal. lra. }
  rewrite !E. destruct P as [[P1 P2]|(P1 & P2 & P3)]; [left|right]. split; auto; now rewrite P2. split; auto. split; auto. rewrite P3. ring.
Qed.
Lemma last_nth (f : list R) : last f 0 = nth (length f - 1) f 0.
Proof.
  induction f as [|a [|b t] IH]; auto. change (last (a :: b :: t) 0) with (last (b :: t) 0). rewrite IH. cbn [length]. rewrite !Nat.sub_succ, !Nat.sub_0_r. reflexivity.
Qed.
Definition in_range (f : list R) (x : R) : Prop := nth 0 f 0 <= x <= nth (length f - 1) f 0.
Lemma np_interp_in f y l r x : asc f -> length y = length f -> f <> [] -> in_range f x -> polygon f y x (np_interp f y l r x).
Proof.
  intros A L NE [H1 H2]. unfold np_interp. rewrite last_nth. destruct (Rlt_dec x (nth 0 f 0)); [lra|]. destruct (Rlt_dec (nth (length f - 1) f 0) x); [lra|].
  apply interp_in_spec; auto. now rewrite last_nth.
Qed.
