(** C93: the coefficient forms of a filter, their history and merging. *)
From Coq Require Import List Arith Lia ZArith Bool Reals Lra.
From Verif Require Import Alg Spec Dft M_arrays M_filter M_biquad M_coeffs P_arrays P_conv P_filter P_biquad P_groupdelay.
Import ListNotations.
Local Open Scope R_scope.

(** ** constructor *)

(** One form makes a filter of that form; no form and two forms are refused. *)
Theorem C93_one_form : forall lib z s b a fs,
  from_ba lib b a fs = Ok (mkF fs None None (Some (set_ba (b, a)))) /\
  (sos_shape s = true -> from_sos lib s fs = Ok (mkF fs None (Some s) None)) /\
  (sos_shape (zpk2sos lib z) = true -> from_zpk lib z fs = Ok (mkF fs (Some z) (Some (zpk2sos lib z)) None)) /\
  new_filter lib None None None fs = Err AssertionError /\
  new_filter lib (Some z) (Some s) None fs = Err AssertionError /\ new_filter lib (Some z) None (Some (b, a)) fs = Err AssertionError /\
  new_filter lib None (Some s) (Some (b, a)) fs = Err AssertionError.
Proof.
  intros. repeat split; try reflexivity.
  - intro H. unfold from_sos, new_filter, put_sos. cbn. rewrite H. reflexivity.
  - intro H. unfold from_zpk, new_filter, put_sos. cbn. rewrite H. reflexivity.
Qed.
Print Assumptions C93_one_form.

(** All three forms at once are accepted, against the documentation; the first one is used and the others are dropped without a word. *)
Theorem C93_three_forms_refuted : forall lib z s c fs, new_filter lib (Some z) (Some s) (Some c) fs = from_zpk lib z fs.
Proof. reflexivity. Qed.
Print Assumptions C93_three_forms_refuted.

(** ** numerator and denominator *)

Lemma zpoly_eq : forall c th, zpoly c th = response c th.
Proof. intros c th. unfold zpoly, response, wsum. apply (sum_ext (HA := CRing_C)). intros i Hi. f_equal. f_equal. ring. Qed.

(** spec: the quotient of the two polynomials at e^(j th) *)
Definition quotient (b a : list R) (th : R) (h : option C) : Prop :=
  match h with Some v => response a th <> rc 0 /\ cmul v (response a th) = response b th | None => response a th = rc 0 end.
Lemma cabs2_rc0 : forall z, cabs2 z = 0 <-> z = rc 0.
Proof. exact cabs2_zero. Qed.
Lemma cinv_r : forall z, z <> rc 0 -> cmul (cinv z) z = rc 1.
Proof.
  intros z Hz. rewrite <- cabs2_rc0 in Hz. destruct z as (x, y). unfold cabs2 in Hz. cbn in Hz. apply c_ext; cbn; unfold cabs2; cbn; field; exact Hz.
Qed.
Lemma cmul_as : forall x y z, cmul (cmul x y) z = cmul x (cmul y z).
Proof. intros. apply c_ext; cbn; ring. Qed.
Lemma freqz1_quotient : forall b a th, quotient b a th (freqz1 b a th).
Proof.
  intros b a th. unfold freqz1. rewrite !zpoly_eq. destruct (Req_EM_T (cabs2 (response a th)) 0) as [H|H].
  - apply cabs2_rc0, H.
  - rewrite cabs2_rc0 in H. split; [exact H|]. rewrite (cmul_as (response b th)). rewrite cinv_r by exact H. apply c_ext; cbn; ring.
Qed.

Lemma quotient_unique : forall b a th h h', quotient b a th h -> quotient b a th h' -> h = h'.
Proof.
  intros b a th [v|] [w|] H H'; cbn in H, H'; [|destruct H; congruence|destruct H'; congruence|reflexivity].
  destruct H as (N & E), H' as (_ & E'). f_equal. assert (K : cmul v (response a th) = cmul w (response a th)) by congruence.
  assert (K2 : forall u, cmul (cmul u (response a th)) (cinv (response a th)) = u).
  { intro u. rewrite cmul_as. replace (cmul (response a th) (cinv (response a th))) with (rc 1); [apply c_ext; cbn; ring|].
    rewrite <- (cinv_r _ N). apply c_ext; cbn; ring. }
  rewrite <- (K2 v), <- (K2 w), K. reflexivity.
Qed.

Lemma trim_back_one : forall a a0, trim_back a = [a0] <-> a0 <> 0 /\ exists n, a = a0 :: repeat 0 n.
Proof.
  assert (Hn : forall a, trim_back a = [] <-> exists n, a = repeat 0 n).
  { induction a as [|x a IH]; cbn [trim_back]; [split; [exists 0%nat; reflexivity|reflexivity]|]. split.
    - destruct (trim_back a) eqn:E; [|discriminate]. destruct (Req_EM_T x 0) as [->|]; [|discriminate]. intros _. destruct (proj1 IH eq_refl) as (n & ->).
      exists (S n). reflexivity.
    - intros (n & E). destruct n as [|n]; [discriminate|]. injection E as -> ->. rewrite (proj2 IH (ex_intro _ n eq_refl)).
      destruct (Req_EM_T 0 0); [reflexivity|contradiction]. }
  intros a a0. destruct a as [|x a]; cbn [trim_back].
  - split; [discriminate|]. intros (_ & n & E). discriminate.
  - destruct (trim_back a) as [|y t] eqn:E.
    + destruct (proj1 (Hn a) E) as (n & ->). destruct (Req_EM_T x 0) as [->|Hx].
      * split; [discriminate|]. intros (H0 & m & Em). injection Em as Ea _. congruence.
      * split; [intro H; injection H as ->; split; [exact Hx|exists n; reflexivity]|]. intros (_ & m & Em). injection Em as -> _. reflexivity.
    + split.
      * intro H. discriminate H.
      * intros (_ & n & Em). injection Em as -> ->. assert (trim_back (repeat 0 n) = []) by (apply Hn; exists n; reflexivity). congruence.
Qed.
Lemma response_zeros : forall a0 n th, response (a0 :: repeat 0 n) th = rc a0.
Proof.
  intros a0 n th. unfold response, wsum. cbn [length]. rewrite (sum_S_front (HA := CRing_C)).
  rewrite (sum_zero' (HA := CRing_C)).
  - unfold getr, get. cbn [nth INR]. replace (- (th * 0)) with 0 by ring. rewrite cis_0. apply c_ext; cbn; ring.
  - intros i Hi. assert (E0 : getr (a0 :: repeat 0 n) (S i) = 0) by (apply (get_rep0 n i)). rewrite E0. apply c_ext; cbn; ring.
Qed.
Lemma response_div : forall c b th, response (map (fun v => v / c) b) th = cmul (rc (/ c)) (response b th).
Proof.
  intros c b th. unfold response, wsum. rewrite map_length. change cmul with (@rmul C CRing_C). rewrite <- (sum_scal_l (HA := CRing_C)).
  apply (sum_ext (HA := CRing_C)). intros i Hi. unfold getr, get. rewrite (nth_map' _ _ _ (@r0 R CRing_R) (@r0 R CRing_R)) by exact Hi.
  apply c_ext; cbn; unfold Rdiv; ring.
Qed.

(** The coefficients stored by the filter have the response of the coefficients that were passed, at every frequency: dropping trailing zeros
    and dividing by the first coefficient change nothing. *)
Theorem C93_ba_response : forall lib b a fs f th, from_ba lib b a fs = Ok f -> exists h, tf_at f th = Ok h /\ quotient b a th h.
Proof.
  intros lib b a fs f th E. injection E as <-. unfold tf_at, put_ba. cbn [o_sos o_ba]. unfold set_ba. cbn [fst snd].
  assert (Hcase : (exists a0, trim_back a = [a0]) \/ (match trim_back a with [a0] => (map (fun v => v / a0) b, [a0 / a0]) | _ => (b, a) end = (b, a))).
  { destruct (trim_back a) as [|a0 [|a1 t]]; [right; reflexivity|left; exists a0; reflexivity|right; reflexivity]. }
  destruct Hcase as [(a0 & Ea)| ->]; [|eexists; split; [reflexivity|apply freqz1_quotient]].
  rewrite Ea. apply trim_back_one in Ea. destruct Ea as (H0 & n & ->). eexists. split; [reflexivity|].
  pose proof (freqz1_quotient (map (fun v => v / a0) b) [a0 / a0] th) as Q. destruct (freqz1 _ _ th) as [v|]; cbn [quotient] in *.
  - rewrite response_zeros. change [a0 / a0] with (a0 / a0 :: repeat 0 0) in Q. rewrite response_zeros, response_div in Q. destruct Q as (_ & E). split.
    + intro K. injection K as K. contradiction.
    + replace (a0 / a0) with 1 in E by (field; exact H0). assert (v = cmul (rc (/ a0)) (response b th)) by (rewrite <- E; apply c_ext; cbn; ring).
      subst v. apply c_ext; cbn; field; exact H0.
  - change [a0 / a0] with (a0 / a0 :: repeat 0 0) in Q. rewrite response_zeros in Q. injection Q as Q. exfalso.
    replace (a0 / a0) with 1 in Q by (field; exact H0). lra.
Qed.
Print Assumptions C93_ba_response.

(** A filter is FIR exactly when its denominator is a number other than zero, possibly followed by zeros; any number is normalised. *)
Theorem C93_is_fir : forall lib b a fs f, from_ba lib b a fs = Ok f -> (is_iir f = Ok false <-> exists a0 n, a0 <> 0 /\ a = a0 :: repeat 0 n).
Proof.
  intros lib b a fs f E. injection E as <-. unfold is_iir, put_ba. cbn [o_sos o_ba]. unfold set_ba. cbn [fst snd].
  destruct (trim_back a) as [|a0 [|a1 t]] eqn:Ea.
  - split.
    + intro H. injection H as H. apply negb_false_iff, andb_true_iff in H. destruct H as (L & V). apply Nat.eqb_eq in L. destruct a as [|x [|y a]]; try discriminate L.
      cbn in V. destruct (Req_EM_T x 1) as [->|]; [|discriminate]. cbn in Ea. destruct (Req_EM_T 1 0); [lra|discriminate].
    + intros (a0 & n & H0 & ->). assert (trim_back (a0 :: repeat 0 n) = [a0]) by (apply trim_back_one; split; [exact H0|exists n; reflexivity]). congruence.
  - apply trim_back_one in Ea. destruct Ea as (H0 & n & ->). split; [intros _; exists a0, n; split; [exact H0|reflexivity]|]. intros _. cbn.
    destruct (Req_EM_T (a0 / a0) 1) as [|K]; [reflexivity|]. exfalso. apply K. field. exact H0.
  - split.
    + intro H. injection H as H. apply negb_false_iff, andb_true_iff in H. destruct H as (L & V). apply Nat.eqb_eq in L. destruct a as [|x [|y a]]; try discriminate L.
      cbn in Ea. destruct (Req_EM_T x 0); discriminate Ea.
    + intros (c & n & H0 & ->). assert (trim_back (c :: repeat 0 n) = [c]) by (apply trim_back_one; split; [exact H0|exists n; reflexivity]). congruence.
Qed.
Print Assumptions C93_is_fir.

Example C93_is_fir_ex : forall lib, exists f, from_ba lib [1; 2] [4; 0; 0] 48000 = Ok f /\ is_iir f = Ok false.
Proof. intro lib. eexists. split; [reflexivity|]. apply (C93_is_fir lib [1; 2] [4; 0; 0] 48000 _ eq_refl). exists 4, 2%nat. split; [lra|reflexivity]. Qed.

(** ** order *)

(** spec: the degree of a section in z^-1, read from its coefficients *)
Definition degree (c : section) : nat :=
  if Req_EM_T (get (fst c) 2) 0 then if Req_EM_T (get (snd c) 2) 0 then
    if Req_EM_T (get (fst c) 1) 0 then if Req_EM_T (get (snd c) 1) 0 then 0 else 1 else 1 else 2 else 2.
Definition total_degree (g : section -> nat) (s : list section) : nat := fold_right Nat.add 0%nat (map g s).

(** The order of sections is the sum of their degrees, where every section counts at least one. *)
Theorem C93_order : forall lib s fs f, from_sos lib s fs = Ok f -> order f = Ok (Z.of_nat (total_degree (fun c => Nat.max 1 (degree c)) s)).
Proof.
  intros lib s fs f E. unfold from_sos, new_filter, put_sos in E. cbn in E. destruct (sos_shape s); [|discriminate]. injection E as <-.
  unfold order. cbn [o_zpk o_sos]. f_equal. induction s as [|c s IH]; [reflexivity|]. unfold total_degree in *. cbn [length filter map fold_right].
  set (rest := fold_right Nat.add 0%nat (map (fun c => Nat.max 1 (degree c)) s)) in *. unfold degree, first_order at 1.
  destruct (Req_EM_T (get (fst c) 2) 0); destruct (Req_EM_T (get (snd c) 2) 0); cbn [andb length];
    try (destruct (Req_EM_T (get (fst c) 1) 0); destruct (Req_EM_T (get (snd c) 1) 0)); cbn [Nat.max]; lia.
Qed.
Print Assumptions C93_order.

(** The order of a filter given by polynomials: that of the longer one, and of the numerator alone if the denominator is a constant. *)
Theorem C93_order_ba : forall lib b a fs f, from_ba lib b a fs = Ok f ->
  ((exists a0 n, a0 <> 0 /\ a = a0 :: repeat 0 n) -> b <> [] -> order f = Ok (Z.of_nat (length b) - 1)%Z) /\
  (~ (exists a0 n, a0 <> 0 /\ a = a0 :: repeat 0 n) -> order f = Ok (Z.of_nat (Nat.max (length b) (length a)) - 1)%Z).
Proof.
  intros lib b a fs f E. unfold from_ba, new_filter in E. cbn in E. injection E as <-. unfold order. cbn [o_zpk o_sos o_ba put_ba]. unfold set_ba. cbn [fst snd]. split.
  - intros (a0 & n & H0 & ->) Hb. assert (T : trim_back (a0 :: repeat 0 n) = [a0]) by (apply trim_back_one; split; [exact H0|exists n; reflexivity]). rewrite T.
    cbn [length]. rewrite map_length. do 2 f_equal. destruct b; [congruence|cbn [length]; lia].
  - intros N. destruct (trim_back a) as [|a0 [|a1 t]] eqn:T; try reflexivity. exfalso. apply N. apply trim_back_one in T. destruct T as (H0 & n & ->). exists a0, n. auto.
Qed.
Print Assumptions C93_order_ba.
Example C93_order_ba_ex : forall lib, exists f g, from_ba lib [1; 2] [4; 0; 0] 48000 = Ok f /\ order f = Ok 1%Z /\ from_ba lib [1; 2] [4; 0; 3] 48000 = Ok g /\ order g = Ok 2%Z.
Proof.
  intro lib. eexists. eexists. split; [reflexivity|]. split; [apply (C93_order_ba lib [1; 2] [4; 0; 0] 48000 _ eq_refl); [exists 4, 2%nat; split; [lra|reflexivity]|discriminate]|].
  split; [reflexivity|]. apply (C93_order_ba lib [1; 2] [4; 0; 3] 48000 _ eq_refl). intros (c & n & H & E). injection E as <- E. destruct n as [|[|[|n]]]; try discriminate. injection E. lra.
Qed.
(** Sections need three coefficients in numerator and denominator; anything else is refused. *)
Theorem C93_sections_checked : forall lib s fs,
  ((forall c, In c s -> length (fst c) = 3%nat /\ length (snd c) = 3%nat) -> exists f, from_sos lib s fs = Ok f) /\
  (forall c, In c s -> length (fst c) <> 3%nat \/ length (snd c) <> 3%nat -> from_sos lib s fs = Err AssertionError).
Proof.
  intros lib s fs. unfold from_sos, new_filter, put_sos. cbn. split.
  - intros H. assert (S : sos_shape s = true). { apply forallb_forall. intros c Hc. destruct (H c Hc) as (A & B). rewrite A, B. reflexivity. } rewrite S. eexists. reflexivity.
  - intros c Hc H. destruct (sos_shape s) eqn:S; [|reflexivity]. exfalso. unfold sos_shape in S. rewrite forallb_forall in S. specialize (S c Hc).
    apply andb_true_iff in S. destruct S as (A & B). apply Nat.eqb_eq in A. apply Nat.eqb_eq in B. lia.
Qed.
Print Assumptions C93_sections_checked.
Example C93_sections_checked_ex : forall lib, from_sos lib [([1; 0; 0], [1; 0])] 48000 = Err AssertionError.
Proof. intro lib. apply (C93_sections_checked lib _ 48000) with ([1; 0; 0], [1; 0]). now left. right. cbn. lia. Qed.

(** So a section that is only a gain adds one to the order, although it adds no pole, no zero and no delay. *)
Theorem C93_order_gain_refuted : forall lib g s fs f f', g <> 0 -> from_sos lib s fs = Ok f -> from_sos lib (([g; 0; 0], [1; 0; 0]) :: s) fs = Ok f' ->
  exists n, order f = Ok n /\ order f' = Ok (n + 1)%Z /\ degree ([g; 0; 0], [1; 0; 0]) = 0%nat.
Proof.
  intros lib g s fs f f' Hg E E'. eexists. split; [apply (C93_order _ _ _ _ E)|]. split.
  - rewrite (C93_order _ _ _ _ E'). f_equal. unfold total_degree. cbn [map fold_right]. unfold degree at 1. cbn [fst snd get nth].
    unfold get. cbn [nth]. repeat match goal with |- context [Req_EM_T 0 0] => destruct (Req_EM_T 0 0); [|contradiction] end. cbn [Nat.max]. lia.
  - unfold degree. unfold get. cbn [fst snd nth]. repeat match goal with |- context [Req_EM_T 0 0] => destruct (Req_EM_T 0 0); [|contradiction] end. reflexivity.
Qed.
Print Assumptions C93_order_gain_refuted.

Example C93_order_ex : forall lib, exists f, from_sos lib [([1; 2; 1], [1; 0; 1 / 2]); ([1; 1; 0], [1; 1 / 2; 0])] 48000 = Ok f /\ order f = Ok 3%Z.
Proof.
  intro lib. eexists. split; [reflexivity|]. unfold order. cbn [o_zpk o_sos put_sos length filter]. unfold first_order, get. cbn [fst snd nth].
  repeat match goal with |- context [Req_EM_T ?a ?b] => destruct (Req_EM_T a b); try (exfalso; lra) end; reflexivity.
Qed.

(** ** history *)

(** what a user may do to the coefficients of a filter; a refused assignment changes nothing *)
Inductive change := SetBa (c : list R * list R) | SetSos (s : list section) | SetZpk (z : zpk_form).
Definition change_step (f : fobj) (o : change) : fobj :=
  match o with SetBa c => put_ba c f | SetSos s => match put_sos s f with Ok g => g | Err _ => f end | SetZpk z => put_zpk z f end.
Definition changes (f : fobj) (h : list change) : fobj := fold_left change_step h f.
(** spec: the last accepted assignment of each form *)
Fixpoint last_sos (h : list change) (d : option (list section)) : option (list section) :=
  match h with [] => d | SetSos s :: t => last_sos t (if sos_shape s then Some s else d) | _ :: t => last_sos t d end.
Fixpoint last_ba (h : list change) (d : option (list R * list R)) : option (list R * list R) :=
  match h with [] => d | SetBa c :: t => last_ba t (Some (set_ba c)) | _ :: t => last_ba t d end.
Fixpoint last_zpk (h : list change) (d : option zpk_form) : option zpk_form :=
  match h with [] => d | SetZpk z :: t => last_zpk t (Some z) | _ :: t => last_zpk t d end.
Lemma changes_state : forall h f, changes f h = mkF (o_fs f) (last_zpk h (o_zpk f)) (last_sos h (o_sos f)) (last_ba h (o_ba f)).
Proof.
  induction h as [|o h IH]; intro f; [destruct f; reflexivity|]. unfold changes. cbn [fold_left]. fold (changes (change_step f o) h). rewrite IH.
  destruct o; cbn [change_step last_sos last_ba last_zpk]; try reflexivity. unfold put_sos. destruct (sos_shape s); reflexivity.
Qed.

(** After any history of assignments: what filters is the last accepted sections if there are any, else the last numerator and denominator; the
    poles and zeros are never used to filter, but once there they decide on the order. *)
Theorem C93_history : forall h f x th,
  (forall s, last_sos h (o_sos f) = Some s -> let g := mkF (o_fs f) None (Some s) None in
     run_filter (changes f h) x = run_filter g x /\ tf_at (changes f h) th = tf_at g th /\ is_iir (changes f h) = Ok true) /\
  (forall c, last_sos h (o_sos f) = None -> last_ba h (o_ba f) = Some c -> let g := mkF (o_fs f) None None (Some c) in
     run_filter (changes f h) x = run_filter g x /\ tf_at (changes f h) th = tf_at g th /\ is_iir (changes f h) = is_iir g) /\
  (forall z, last_zpk h (o_zpk f) = Some z -> order (changes f h) = Ok (Z.of_nat (Nat.max (length (fst (fst z))) (length (snd (fst z))))) ) /\
  (last_zpk h (o_zpk f) = None -> order (changes f h) = order (mkF (o_fs f) None (last_sos h (o_sos f)) (last_ba h (o_ba f)))).
Proof.
  intros h f x th. rewrite changes_state. repeat split.
  - unfold run_filter. cbn [o_sos]. rewrite H. reflexivity.
  - unfold tf_at. cbn [o_sos]. rewrite H. reflexivity.
  - unfold is_iir. cbn [o_sos]. rewrite H. reflexivity.
  - unfold run_filter. cbn [o_sos o_ba]. rewrite H, H0. destruct c. reflexivity.
  - unfold tf_at. cbn [o_sos o_ba]. rewrite H, H0. destruct c. reflexivity.
  - unfold is_iir. cbn [o_sos o_ba]. rewrite H, H0. destruct c. reflexivity.
  - intros ((z & p) & k) H. unfold order. cbn [o_zpk]. rewrite H. reflexivity.
  - intro H. unfold order. cbn [o_zpk]. rewrite H. reflexivity.
Qed.
Print Assumptions C93_history.

(** So the forms of a filter can disagree: new sections for a filter made from poles and zeros leave the old poles, zeros and order behind. *)
Theorem C93_stale_zpk_refuted : forall lib z fs f s g x, from_zpk lib z fs = Ok f -> put_sos s f = Ok g ->
  run_filter g x = run_filter (mkF fs None (Some s) None) x /\ get_sos lib g = Ok s /\ order g = order f /\ get_zpk lib g = Ok z.
Proof.
  intros lib z fs f s g x E G. unfold from_zpk, new_filter, put_sos in E. cbn in E. destruct (sos_shape (zpk2sos lib z)); [|discriminate]. injection E as <-.
  unfold put_sos in G. destruct (sos_shape s); [|discriminate]. injection G as <-. repeat split.
Qed.
Print Assumptions C93_stale_zpk_refuted.

(** And a new numerator and denominator for a filter with sections has no effect on anything but that attribute. *)
Theorem C93_ba_ignored_refuted : forall lib f s c x th, o_sos f = Some s ->
  run_filter (put_ba c f) x = run_filter f x /\ tf_at (put_ba c f) th = tf_at f th /\ order (put_ba c f) = order f /\ is_iir (put_ba c f) = is_iir f /\
  get_sos lib (put_ba c f) = get_sos lib f /\ get_ba lib (put_ba c f) = get_ba lib f /\ get_zpk lib (put_ba c f) = get_zpk lib f.
Proof.
  intros lib f s c x th H. unfold run_filter, tf_at, order, is_iir, get_sos, get_ba, get_zpk, put_ba. cbn [o_sos o_ba o_zpk]. rewrite H. repeat split.
Qed.
Print Assumptions C93_ba_ignored_refuted.

(** Sections whose first denominator coefficient is not one are accepted, but can neither filter nor be evaluated. *)
Theorem C93_unnormalised_refuted : forall lib b a0 a1 a2 fs, length b = 3%nat -> a0 <> 1 ->
  exists f, from_sos lib [(b, [a0; a1; a2])] fs = Ok f /\ (forall x, run_filter f x = Err ValueError) /\ (forall th, tf_at f th = Err ValueError).
Proof.
  intros lib b a0 a1 a2 fs Hb Ha. unfold from_sos, new_filter, put_sos. cbn [xorb negb]. unfold sos_shape. cbn [forallb fst snd length]. rewrite Hb. cbn [Nat.eqb andb].
  eexists. split; [reflexivity|]. unfold run_filter, tf_at. cbn [o_sos]. unfold sos_valid. cbn [forallb snd]. unfold get. cbn [nth].
  destruct (Req_EM_T a0 1); [contradiction|]. split; reflexivity.
Qed.
Print Assumptions C93_unnormalised_refuted.

(** ** merging *)

(** spec: one filter after the other *)
Definition cascade (l : list fobj) (x : list R) : result (list R) := fold_left (fun r f => bind r (run_filter f)) l (Ok x).
(** spec: an FIR filter with the taps b *)
Definition fir (f : fobj) (b : list R) : Prop := b <> [] /\ o_zpk f = None /\ o_sos f = None /\ o_ba f = Some (b, [1]).
Lemma fir_iir : forall f b, fir f b -> is_iir f = Ok false.
Proof. intros f b (_ & _ & H1 & H2). unfold is_iir. rewrite H1, H2. cbn. destruct (Req_EM_T 1 1); [reflexivity|contradiction]. Qed.
Lemma fir_run : forall f b x, fir f b -> run_filter f x = Ok (lfilter_fir (HA := CRing_R) b x).
Proof. intros f b x H. pose proof (fir_iir f b H) as I1. destruct H as (_ & _ & H1 & H2). unfold run_filter. rewrite I1, H1, H2. reflexivity. Qed.
Lemma fir_from_ba : forall lib b fs, b <> [] -> exists f, from_ba lib b [1] fs = Ok f /\ fir f b /\ o_fs f = fs.
Proof.
  intros lib b fs Hb. exists (mkF fs None None (Some (b, [1]))). split; [|repeat split; exact Hb].
  unfold from_ba, new_filter, put_ba, set_ba. cbn. destruct (Req_EM_T 1 0); [lra|]. do 3 f_equal. f_equal.
  - rewrite <- (map_id b) at 2. apply map_ext. intro v. field.
  - f_equal. field.
Qed.

Lemma results_ok : forall {T U} (g : T -> result U) (h : T -> U) l, (forall v, In v l -> g v = Ok (h v)) -> results (map g l) = Ok (map h l).
Proof.
  intros T U g h l H. induction l as [|v l IH]; [reflexivity|]. cbn [map results]. rewrite H by (left; reflexivity). cbn [bind].
  rewrite IH by (intros w Hw; apply H; right; exact Hw). reflexivity.
Qed.

Lemma fir_assoc : forall (a b x : list R), a <> [] -> b <> [] ->
  lfilter_fir (HA := CRing_R) (conv_full (HA := CRing_R) a b) x = lfilter_fir (HA := CRing_R) b (lfilter_fir (HA := CRing_R) a x).
Proof.
  intros a b x Ha Hb. assert (Hc : conv_full (HA := CRing_R) a b <> []).
  { intro K. assert (L : length (conv_full (HA := CRing_R) a b) = 0%nat) by (rewrite K; reflexivity). rewrite conv_full_length in L by assumption.
    destruct a; [congruence|]. destruct b; [congruence|]. cbn [length] in L. lia. }
  rewrite (lfilter_fir_eq (HA := CRing_R) (conv_full a b)) by exact Hc. rewrite (lfilter_fir_eq (HA := CRing_R) b) by exact Hb.
  rewrite (lfilter_fir_eq (HA := CRing_R) a) by exact Ha. apply (get_ext (HA := CRing_R)); [rewrite !mk_length; reflexivity|].
  intros n Hn. rewrite mk_length in Hn. rewrite !(get_mk (HA := CRing_R)) by (rewrite ?mk_length; exact Hn).
  change (mk (length x) (conv (HA := CRing_R) a x)) with (convl (HA := CRing_R) a x).
  rewrite (conv_convl (HA := CRing_R)) by exact Hn. rewrite (conv_sconv (HA := CRing_R)). apply (sconv_ext (HA := CRing_R)); [|reflexivity].
  intros i Hi. rewrite (get_conv_full (HA := CRing_R)). apply (conv_sconv (HA := CRing_R)).
Qed.

(** Merging FIR filters: the result is one FIR filter that does what the filters do one after the other; its response is the product of the
    responses and its order the sum of the orders. *)
Theorem C93_merge_fir : forall lib (l : list fobj) (bs : list (list R)) fs, (2 <= length l)%nat -> length bs = length l ->
  (forall i f b, nth_error l i = Some f -> nth_error bs i = Some b -> fir f b /\ o_fs f = fs) ->
  exists g b, merge_filters lib l = Ok g /\ fir g b /\ o_fs g = fs /\
    (forall x, run_filter g x = cascade l x) /\
    (forall th, response b th = fold_right cmul (rc 1) (map (fun c => response c th) bs)) /\
    length b = S (fold_right Nat.add 0%nat (map (fun c => length c - 1) bs))%nat.
Proof.
  intros lib l bs fs Hl Hbs H.
  assert (HF : Forall2 (fun f b => fir f b /\ o_fs f = fs) l bs).
  { clear Hl. revert bs Hbs H. induction l as [|f l IH]; intros [|b bs] Hbs H; try discriminate; constructor.
    - apply (H 0%nat); reflexivity.
    - apply IH; [injection Hbs as ->; reflexivity|]. intros i g c Hg Hc. apply (H (S i)); assumption. }
  clear H. assert (Hi : results (map is_iir l) = Ok (map (fun _ => false) l)).
  { apply results_ok. intros f Hf. clear - HF Hf. induction HF as [|f' b l bs Hfb HF IH]; [destruct Hf|]. destruct Hf as [<-|Hf]; [apply (fir_iir _ _ (proj1 Hfb))|apply IH, Hf]. }
  assert (Ht : results (map taps l) = Ok bs).
  { clear - HF. induction HF as [|f b l bs ((_ & _ & _ & Hb) & _) HF IH]; [reflexivity|]. cbn [map results]. unfold taps at 1. rewrite Hb. cbn [bind]. rewrite IH. reflexivity. }
  assert (Hr : forallb (fun f => fs =? o_fs f)%Z l = true).
  { clear - HF. induction HF as [|f b l bs (_ & Hf) HF IH]; [reflexivity|]. cbn [forallb]. rewrite IH, Hf, Z.eqb_refl. reflexivity. }
  assert (Hn : forallb negb (map (fun _ : fobj => false) l) = true) by (clear; induction l; [reflexivity|assumption]).
  assert (Hfold : forall fl bt b0, Forall2 (fun f b => fir f b /\ o_fs f = fs) fl bt -> b0 <> [] ->
    let b := fold_left (fun b c => conv_full (HA := CRing_R) b c) bt b0 in
    b <> [] /\ (forall x, Ok (lfilter_fir (HA := CRing_R) b x) = fold_left (fun r f => bind r (run_filter f)) fl (Ok (lfilter_fir (HA := CRing_R) b0 x))) /\
    (forall th, response b th = cmul (response b0 th) (fold_right cmul (rc 1) (map (fun c => response c th) bt))) /\
    length b = (length b0 + fold_right Nat.add 0%nat (map (fun c => length c - 1) bt))%nat).
  { clear. intros fl bt b0 HF. revert b0. induction HF as [|f c fl bt (Hf & _) HF IH]; intros b0 H0; cbn [fold_left map fold_right].
    - split; [exact H0|]. split; [reflexivity|]. split; [|lia]. intro th. apply c_ext; cbn; ring.
    - assert (Hc : c <> []) by apply Hf. assert (L : length (conv_full (HA := CRing_R) b0 c) = (length b0 + length c - 1)%nat) by (apply conv_full_length; assumption).
      assert (P0 : (0 < length b0)%nat) by (destruct b0; [congruence|cbn; lia]). assert (Pc : (0 < length c)%nat) by (destruct c; [congruence|cbn; lia]).
      assert (Hne : conv_full (HA := CRing_R) b0 c <> []) by (intro K; rewrite K in L; cbn [length] in L; lia).
      destruct (IH _ Hne) as (A & B & D & E). split; [exact A|]. split; [|split].
      + intro x. rewrite B. rewrite fir_assoc by assumption. cbn [bind]. rewrite (fir_run f c _ Hf). reflexivity.
      + intro th. rewrite D. rewrite conv_response by assumption. rewrite <- !cmul_as. f_equal. apply c_ext; cbn; ring.
      + rewrite E, L. lia. }
  inversion HF as [|f0 b0 lt bt (Hf0 & Hfs0) HFt E1 E2]; subst l bs; [cbn in Hl; lia|]. destruct (Hfold lt bt b0 HFt (proj1 Hf0)) as (A & B & D & E).
  set (b := fold_left (fun b c => conv_full (HA := CRing_R) b c) bt b0) in *.
  destruct (fir_from_ba lib b fs A) as (g & Eg & Hg & Hgs). exists g, b. split; [|split; [exact Hg|split; [exact Hgs|split; [|split]]]].
  - unfold merge_filters. destruct lt as [|f1 lt]; [cbn in Hl; lia|]. rewrite Hfs0, Hr. cbn [negb]. rewrite (fir_iir f0 b0 Hf0). cbn [bind]. rewrite Hi. cbn [bind negb].
    rewrite Hn. cbn [negb]. rewrite Ht. cbn [bind]. exact Eg.
  - intro x. rewrite (fir_run g b x Hg). rewrite B. unfold cascade. cbn [fold_left bind]. rewrite (fir_run f0 b0 x Hf0). reflexivity.
  - intro th. rewrite D. reflexivity.
  - rewrite E. cbn [map fold_right]. assert (0 < length b0)%nat by (destruct b0; [destruct Hf0; congruence|cbn; lia]). lia.
Qed.
Print Assumptions C93_merge_fir.

(** spec: sections that act like the filter *)
Definition sections_of (lib : scipy) (f : fobj) (s : list section) : Prop :=
  is_iir f = Ok true /\ get_sos lib f = Ok s /\ sos_shape s = true /\ sos_valid s = true /\
  (forall x, run_filter f x = Ok (fst (sosfilt (HA := CRing_R) s x (repeat [0; 0] (length s))))).
(** every filter made from normalised sections has that property *)
Lemma own_sections : forall lib s fs f, from_sos lib s fs = Ok f -> sos_valid s = true -> sections_of lib f s.
Proof.
  intros lib s fs f E V. unfold from_sos, new_filter, put_sos in E. cbn in E. destruct (sos_shape s) eqn:Sh; [|discriminate]. injection E as <-.
  split; [reflexivity|]. split; [reflexivity|]. split; [exact Sh|]. split; [exact V|]. intro x. unfold run_filter. cbn [o_sos]. rewrite V. reflexivity.
Qed.
Lemma sosfilt_cascade : forall (s t : list section) x, fst (sosfilt (HA := CRing_R) (s ++ t) x (repeat [0; 0] (length (s ++ t)))) =
  fst (sosfilt (HA := CRing_R) t (fst (sosfilt (HA := CRing_R) s x (repeat [0; 0] (length s)))) (repeat [0; 0] (length t))).
Proof.
  induction s as [|(b, a) s IH]; intros t x; [reflexivity|]. cbn [app length repeat sosfilt hd tl]. destruct (lfilter b a x [0; 0]) as (y, z1).
  specialize (IH t y). destruct (sosfilt (s ++ t) y (repeat [0; 0] (length (s ++ t)))) as (u, zu). destruct (sosfilt s y (repeat [0; 0] (length s))) as (v, zv).
  cbn [fst] in *. exact IH.
Qed.
Lemma sos_at_app : forall s t th, sos_at (s ++ t) th = match sos_at s th, sos_at t th with Some u, Some v => Some (cmul u v) | _, _ => None end.
Proof.
  induction s as [|c s IH]; intros t th; cbn [app sos_at].
  - destruct (sos_at t th) as [v|]; [f_equal; apply c_ext; cbn; ring|reflexivity].
  - rewrite IH. destruct (freqz1 (fst c) (snd c) th); [|reflexivity]. destruct (sos_at s th); [|reflexivity]. destruct (sos_at t th); [|reflexivity].
    rewrite cmul_as. reflexivity.
Qed.

(** Merging IIR filters: the result is one filter with all sections in the given order; it does what the filters do one after the other. *)
Theorem C93_merge_iir : forall lib (l : list fobj) (ss : list (list section)) fs, (2 <= length l)%nat ->
  Forall2 (fun f s => sections_of lib f s /\ o_fs f = fs) l ss ->
  exists g, merge_filters lib l = Ok g /\ o_fs g = fs /\ get_sos lib g = Ok (concat ss) /\
    (forall x, run_filter g x = cascade l x) /\
    (forall th, tf_at g th = Ok (fold_right (fun s h => match sos_at s th, h with Some u, Some v => Some (cmul u v) | _, _ => None end) (Some (rc 1)) ss)) /\
    order g = Ok (Z.of_nat (fold_right Nat.add 0%nat (map (total_degree (fun c => Nat.max 1 (degree c))) ss))).
Proof.
  intros lib l ss fs Hl HF.
  assert (Hi : results (map is_iir l) = Ok (map (fun _ => true) l)).
  { apply results_ok. intros f Hf. clear - HF Hf. induction HF as [|f' b l bs Hfb HF IH]; [destruct Hf|]. destruct Hf as [<-|Hf]; [apply Hfb|apply IH, Hf]. }
  assert (Ht : results (map (get_sos lib) l) = Ok ss).
  { clear - HF. induction HF as [|f b l bs ((_ & Hb & _) & _) HF IH]; [reflexivity|]. cbn [map results]. rewrite Hb. cbn [bind]. rewrite IH. reflexivity. }
  assert (Hr : forallb (fun f => fs =? o_fs f)%Z l = true).
  { clear - HF. induction HF as [|f b l bs (_ & Hf) HF IH]; [reflexivity|]. cbn [forallb]. rewrite IH, Hf, Z.eqb_refl. reflexivity. }
  assert (Hn : forallb (fun b : bool => b) (map (fun _ : fobj => true) l) = true) by (clear; induction l; [reflexivity|assumption]).
  assert (Hs : sos_shape (concat ss) = true).
  { clear - HF. unfold sos_shape. induction HF as [|f s l ss ((_ & _ & Hs & _) & _) HF IH]; [reflexivity|]. cbn [concat]. rewrite forallb_app. apply andb_true_iff. split; [exact Hs|exact IH]. }
  assert (Hv : sos_valid (concat ss) = true).
  { clear - HF. unfold sos_valid. induction HF as [|f s l ss ((_ & _ & _ & Hs & _) & _) HF IH]; [reflexivity|]. cbn [concat]. rewrite forallb_app. apply andb_true_iff. split; [exact Hs|exact IH]. }
  assert (Eg : from_sos lib (concat ss) fs = Ok (mkF fs None (Some (concat ss)) None)) by (unfold from_sos, new_filter, put_sos; cbn; rewrite Hs; reflexivity).
  exists (mkF fs None (Some (concat ss)) None). split; [|split; [reflexivity|split; [reflexivity|split; [|split]]]].
  - inversion HF as [|f0 s0 lt st (Hf0 & Hfs0) HFt E1 E2]; subst l ss; [cbn in Hl; lia|]. unfold merge_filters. destruct lt as [|f1 lt]; [cbn in Hl; lia|].
    rewrite Hfs0, Hr. cbn [negb]. rewrite (proj1 Hf0). cbn [bind]. rewrite Hi. cbn [bind negb]. rewrite Hn. cbn [negb]. rewrite Ht. cbn [bind]. exact Eg.
  - intro x. unfold run_filter. cbn [o_sos]. rewrite Hv. unfold cascade. clear - HF. revert x. induction HF as [|f s l ss ((_ & _ & _ & _ & Hf) & _) HF IH]; intro x; [reflexivity|].
    cbn [concat fold_left bind]. rewrite sosfilt_cascade, Hf. apply IH.
  - intro th. unfold tf_at. cbn [o_sos]. rewrite Hv. f_equal. clear. induction ss as [|s ss IH]; [reflexivity|]. cbn [concat fold_right]. rewrite sos_at_app, IH. reflexivity.
  - rewrite (C93_order _ _ _ _ Eg). do 2 f_equal. clear. induction ss as [|s ss IH]; [reflexivity|]. cbn [concat map fold_right]. rewrite <- IH. unfold total_degree.
    rewrite map_app. clear. induction (map (fun c => Nat.max 1 (degree c)) s) as [|n t IHt]; [reflexivity|]. cbn [app fold_right]. rewrite IHt. lia.
Qed.
Print Assumptions C93_merge_iir.

(** Refused: fewer than two filters, different sampling rates, and FIR together with IIR. *)
Theorem C93_merge_refused : forall lib l, 
  ((length l < 2)%nat -> merge_filters lib l = Err AssertionError) /\
  (forall f g, In f l -> In g l -> o_fs f <> o_fs g -> merge_filters lib l = Err AssertionError) /\
  (forall f g, (2 <= length l)%nat -> (forall h, In h l -> exists i, is_iir h = Ok i) -> In f l -> In g l -> is_iir f = Ok true -> is_iir g = Ok false -> merge_filters lib l = Err AssertionError).
Proof.
  intros lib l. split; [|split].
  - intro H. destruct l as [|f [|g l]]; try reflexivity. cbn in H. lia.
  - intros f g Hf Hg Hne. unfold merge_filters. destruct l as [|f0 [|f1 t]]; try reflexivity. destruct (forallb (fun h => o_fs f0 =? o_fs h)%Z (f0 :: f1 :: t)) eqn:E; [|reflexivity].
    exfalso. rewrite forallb_forall in E. pose proof (E f Hf) as A. pose proof (E g Hg) as B. apply Z.eqb_eq in A. apply Z.eqb_eq in B. congruence.
  - intros f g Hl Hall Hf Hg If Ig. unfold merge_filters. destruct l as [|f0 [|f1 t]]; try reflexivity. set (l := f0 :: f1 :: t) in *.
    destruct (forallb (fun h => o_fs f0 =? o_fs h)%Z l); [|reflexivity]. cbn [negb]. destruct (Hall f0 ltac:(left; reflexivity)) as (i0 & E0). rewrite E0. cbn [bind].
    assert (Hr : results (map is_iir l) = Ok (map (fun h => match is_iir h with Ok i => i | Err _ => false end) l)).
    { apply results_ok. intros h Hh. destruct (Hall h Hh) as (i & E). rewrite E. reflexivity. }
    rewrite Hr. cbn [bind]. destruct i0; cbn [negb].
    + destruct (forallb _ _) eqn:E; [|reflexivity]. exfalso. rewrite forallb_forall in E. specialize (E false). discriminate E. apply in_map_iff. exists g. split; [rewrite Ig; reflexivity|exact Hg].
    + destruct (forallb _ _) eqn:E; [|reflexivity]. exfalso. rewrite forallb_forall in E. specialize (E true). discriminate E. apply in_map_iff. exists f. split; [rewrite If; reflexivity|exact Hf].
Qed.
Print Assumptions C93_merge_refused.

Example C93_merge_ex : forall lib, exists f g h, from_ba lib [1; 1] [1] 48000 = Ok f /\ from_ba lib [1; 2] [1] 48000 = Ok g /\ merge_filters lib [f; g] = Ok h /\
  run_filter h [1; 0; 0] = Ok [1; 3; 2].
Proof.
  intro lib. destruct (fir_from_ba lib [1; 1] 48000 ltac:(discriminate)) as (f & Ef & Hf & Sf). destruct (fir_from_ba lib [1; 2] 48000 ltac:(discriminate)) as (g & Eg & Hg & Sg).
  destruct (C93_merge_fir lib [f; g] [[1; 1]; [1; 2]] 48000) as (h & b & Eh & _ & _ & Hr & _); [cbn; lia|reflexivity| |].
  { intros [|[|i]] f' b' A B; cbn in A, B; try (destruct i; discriminate); injection A as <-; injection B as <-; split; assumption. }
  exists f, g, h. split; [exact Ef|]. split; [exact Eg|]. split; [exact Eh|]. rewrite Hr. unfold cascade. cbn [fold_left bind]. rewrite (fir_run f _ _ Hf). cbn [bind].
  rewrite (fir_run g _ _ Hg). f_equal. cbv -[Rplus Rmult IZR]. repeat (f_equal; try ring).
Qed.
