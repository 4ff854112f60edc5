(** C53 fades and the time vector of a Signal. *)
From Coq Require Import List Arith Lia ZArith Bool Reals Lra.
From Verif Require Import Alg Spec M_arrays M_signal P_signal M_dynamics M_level Claims_level.
Import ListNotations.
Local Open Scope R_scope.

(** The gain of sample i of a fade over l samples, l >= 2: 0 to 1 linearly; -100 dB to 0 dB linearly in decibels; the
    logarithm of a line from 1 to 50 sqrt 10, over the logarithm of its end. *)
Definition curve (ty : fade_type) (l i : nat) : R :=
  let t := INR i / INR (l - 1) in
  match ty with
  | NoFade => 1
  | Linear => t
  | Exponential => Rpower 10 ((-100 + 100 * t) / 20)
  | Logarithmic => ln (1 + t * (50 * sqrt 10 - 1)) / ln (50 * sqrt 10)
  end.
(** the whole gain of a fade-in: 1 after the fade *)
Definition ramp (ty : fade_type) (l i : nat) : R := if (i <? l)%nat then curve ty l i else 1.

Lemma mk_len {T} n (f : nat -> T) : length (mk n f) = n.
Proof. unfold mk. now rewrite map_length, seq_length. Qed.
Lemma mk_at {T} n (f : nat -> T) i d : (i < n)%nat -> nth i (mk n f) d = f i.
Proof.
  intros H. unfold mk. rewrite (nth_indep _ _ (f 0%nat)) by now rewrite map_length, seq_length. rewrite map_nth, seq_nth by auto. reflexivity.
Qed.
Lemma linspace_len a b n : length (linspace a b n) = n.
Proof. destruct n as [|[|n]]; try reflexivity. apply mk_len. Qed.
Lemma linspace_at a b n i d : (2 <= n)%nat -> (i < n)%nat -> nth i (linspace a b n) d = a + INR i * ((b - a) / INR (n - 1)).
Proof. intros H Hi. destruct n as [|[|n]]; try lia. unfold linspace. now rewrite mk_at. Qed.
Lemma inr_l1 l : (2 <= l)%nat -> 0 < INR (l - 1).
Proof. intros. apply lt_0_INR. lia. Qed.
Lemma log_top_eq : log_top = 50 * sqrt 10.
Proof. unfold log_top. f_equal. replace (1 / 2) with (/ 2) by field. apply Rpower_sqrt. lra. Qed.
Lemma sqrt10 : 3 < sqrt 10.
Proof. apply Rsqr_incrst_0; [|lra|apply sqrt_pos]. rewrite Rsqr_sqrt by lra. unfold Rsqr. lra. Qed.
Lemma ln_top : 0 < ln (50 * sqrt 10).
Proof. rewrite <- ln_1. pose proof sqrt10. apply ln_increasing; lra. Qed.

Lemma gains_ok ty l : (2 <= l)%nat -> ty <> NoFade ->
  fade_gains ty l = Ok (mk l (fun i => Some (curve ty l i))).
Proof.
  intros Hl Hty. pose proof (inr_l1 l Hl) as P.
  assert (G : forall (f : R -> option R) a b, (forall i, (i < l)%nat -> f (a + INR i * ((b - a) / INR (l - 1))) = Some (curve ty l i)) ->
    map f (linspace a b l) = mk l (fun i => Some (curve ty l i))).
  { intros f a b H. apply (nth_ext _ _ None None); [rewrite map_length, linspace_len, mk_len; reflexivity|].
    intros i Hi. rewrite map_length, linspace_len in Hi. rewrite (nth_indep _ _ (f 0)) by now rewrite map_length, linspace_len.
    rewrite map_nth, linspace_at by auto. rewrite mk_at by auto. now apply H. }
  destruct ty; [| | |easy].
  - simpl. f_equal. apply G. intros i Hi. unfold curve. do 3 f_equal. field. lra.
  - simpl. f_equal. apply G. intros i Hi. unfold curve. f_equal. field. lra.
  - destruct l as [|l]; [lia|]. unfold fade_gains. f_equal. rewrite map_map.
    assert (LA : nth l (map (fun v => ln v / ln 10) (linspace 1 log_top (S l))) 0 = ln (50 * sqrt 10) / ln 10).
    { rewrite (nth_indep _ _ ((fun v => ln v / ln 10) 0)) by (rewrite map_length, linspace_len; lia). rewrite (map_nth (fun v => ln v / ln 10)).
      rewrite linspace_at by lia. rewrite log_top_eq. do 2 f_equal. replace (S l - 1)%nat with l in * by lia. field. lra. }
    rewrite LA. apply G. intros i Hi. unfold div_opt. pose proof ln10p. pose proof ln_top.
    assert (0 < ln (50 * sqrt 10) / ln 10) by (apply Rdiv_lt_0_compat; auto). destruct (Req_EM_T _ 0); [lra|]. unfold curve.
    rewrite log_top_eq. f_equal. replace (1 + INR i * ((50 * sqrt 10 - 1) / INR (S l - 1))) with (1 + INR i / INR (S l - 1) * (50 * sqrt 10 - 1)) by (field; lra).
    field. lra.
Qed.

Lemma nth_mul_head s g i : (i < length s)%nat ->
  nth i (mul_head s g) None = if (i <? length g)%nat then opt_mul (nth i s None) (nth i g None) else nth i s None.
Proof.
  revert s g. induction i as [|i IH]; intros s g H; destruct s as [|v s]; simpl in H; try lia; destruct g as [|h g]; auto.
  simpl. rewrite IH by lia. reflexivity.
Qed.
Lemma mul_head_len s g : length (mul_head s g) = length s.
Proof. revert g. induction s as [|v s IH]; intros [|h g]; simpl; auto. Qed.

Lemma floor_nat r l : INR l <= r < INR l + 1 -> Z.to_nat (Int_part r) = l.
Proof.
  intros [A B]. destruct (base_Int_part r) as [C D]. rewrite INR_IZR_INZ in A, B.
  assert (Int_part r = Z.of_nat l).
  { assert (IZR (Int_part r) < IZR (Z.of_nat l + 1)) by (rewrite plus_IZR; lra). apply lt_IZR in H.
    assert (IZR (Z.of_nat l) < IZR (Int_part r + 1)) by (rewrite plus_IZR; lra). apply lt_IZR in H0. lia. }
  rewrite H. apply Nat2Z.id.
Qed.

Lemma time_end n fs : (2 <= n)%nat -> last (time_vector n fs) 0 = INR n / fs.
Proof.
  intros H. unfold time_vector. assert (NE : linspace 0 (INR n / fs) n <> []) by (intros E; apply (f_equal (@length R)) in E; rewrite linspace_len in E; simpl in E; lia).
  rewrite (app_removelast_last 0 NE). rewrite last_last.
  assert (L : last (linspace 0 (INR n / fs) n) 0 = nth (n - 1) (linspace 0 (INR n / fs) n) 0).
  { rewrite (app_removelast_last 0 NE) at 2. rewrite app_nth2.
    - assert (LR : length (removelast (linspace 0 (INR n / fs) n)) = (n - 1)%nat).
      { pose proof (f_equal (@length R) (app_removelast_last 0 NE)) as Q. rewrite app_length, linspace_len in Q. simpl in Q. lia. }
      rewrite LR, Nat.sub_diag. reflexivity.
    - pose proof (f_equal (@length R) (app_removelast_last 0 NE)) as Q. rewrite app_length, linspace_len in Q. simpl in Q. lia. }
  rewrite L, linspace_at by lia. pose proof (inr_l1 n H). set (q := INR n / fs). field. lra.
Qed.

Lemma fade1_eq ty len fs st (s : list (option R)) : ty <> NoFade ->
  fade1 ty len fs st s = if Rlt_dec 0 len then
    if (Z.to_nat (Int_part (len * fs)) <? length s)%nat then bind (fade_gains ty (Z.to_nat (Int_part (len * fs)))) (fun g => Ok (if st then mul_head s g else rev (mul_head (rev s) g)))
    else Err AssertionError else Err AssertionError.
Proof. intros H. destruct ty; try easy; reflexivity. Qed.
(** one fade *)
Lemma fade1_ok ty len fs st s l : ty <> NoFade -> 0 < len -> INR l <= len * fs < INR l + 1 -> (2 <= l)%nat -> (l < length s)%nat ->
  exists out, fade1 ty len fs st (map Some s) = Ok (map Some out) /\ length out = length s /\
    forall i, (i < length s)%nat -> nth i out 0 = nth i s 0 * ramp ty l (if st then i else length s - 1 - i)%nat.
Proof.
  intros Hty Hlen Hl H2 HL. exists (mk (length s) (fun i => nth i s 0 * ramp ty l (if st then i else length s - 1 - i)%nat)).
  split; [|split; [apply mk_len|intros; now rewrite mk_at]].
  rewrite fade1_eq by auto. rewrite (floor_nat _ _ Hl), map_length. destruct (Rlt_dec 0 len); [|easy].
  assert (HR : (l <? length s)%nat = true) by now apply Nat.ltb_lt. rewrite HR, (gains_ok ty l H2 Hty). cbn [bind]. f_equal.
  assert (ES : forall i, (i < length s)%nat -> nth i (map Some s) None = Some (nth i s 0)).
  { intros i Hi. rewrite (nth_indep _ _ (Some 0)) by now rewrite map_length. apply map_nth. }
  assert (HH : forall t : list (option R), length t = length s -> forall i, (i < length s)%nat -> forall v, nth i t None = Some v ->
    nth i (mul_head t (mk l (fun i => Some (curve ty l i)))) None = Some (v * ramp ty l i)).
  { intros t Lt i Hi v E. rewrite nth_mul_head by lia. rewrite mk_len. unfold ramp. destruct (Nat.ltb_spec i l).
    - rewrite mk_at by auto. rewrite E. reflexivity.
    - rewrite E. f_equal. ring. }
  apply (nth_ext _ _ None None).
  { destruct st; rewrite ?rev_length, ?mul_head_len, ?rev_length, !map_length; now rewrite mk_len. }
  intros i Hi. assert (Hi' : (i < length s)%nat) by (destruct st; rewrite ?rev_length, ?mul_head_len, ?rev_length, ?map_length in Hi; auto).
  rewrite (nth_indep (map Some (mk _ _)) None (Some 0)) by now rewrite map_length, mk_len. rewrite (map_nth Some), mk_at by auto.
  destruct st.
  - apply HH; auto. apply map_length.
  - rewrite rev_nth by (rewrite mul_head_len, rev_length, map_length; auto). rewrite mul_head_len, rev_length, map_length.
    replace (length s - S i)%nat with (length s - 1 - i)%nat by lia.
    apply HH; [now rewrite rev_length, map_length|lia|]. rewrite rev_nth by (rewrite map_length; lia). rewrite map_length.
    replace (length s - S (length s - 1 - i))%nat with i by lia. now apply ES.
Qed.

(** ** C53 *)
(** Every channel: each sample is multiplied by the gain of the fade-in at its index and of the fade-out at its distance
    from the end, whichever are asked for; the two fades may overlap. *)
Theorem C53_fade :
  forall (ty : fade_type) (len fs : R) (at_start at_end : bool) (s : list R) (l : nat),
  ty <> NoFade -> 0 < fs -> at_start || at_end = true -> len < INR (length s) / fs ->
  INR l <= len * fs < INR l + 1 -> (2 <= l)%nat ->
  exists out, fade_col ty (Some len) fs at_start at_end s = Ok (map Some out) /\ length out = length s /\
    forall i, (i < length s)%nat ->
      nth i out 0 = nth i s 0 * (if at_start then ramp ty l i else 1) * (if at_end then ramp ty l (length s - 1 - i) else 1).
Proof.
  intros ty len fs st en s l Hty Hfs Hse Hlen Hl H2.
  assert (L0 : 0 < len) by (pose proof (lt_0_INR l ltac:(lia)); nra).
  assert (LN : (l < length s)%nat).
  { apply INR_lt. apply (Rmult_lt_compat_r fs) in Hlen; auto. unfold Rdiv in Hlen. rewrite Rmult_assoc, Rinv_l in Hlen by lra. lra. }
  unfold fade_col. rewrite Hse, time_end by lia. destruct (Rlt_dec len (INR (length s) / fs)); [|easy].
  destruct st.
  - destruct (fade1_ok ty len fs true s l) as [o1 [E1 [L1 V1]]]; auto. rewrite E1. cbn [bind]. destruct en.
    + destruct (fade1_ok ty len fs false o1 l) as [o2 [E2 [L2 V2]]]; auto; [lia|]. rewrite E2. exists o2. split; auto. split; [lia|].
      intros i Hi. rewrite V2 by lia. rewrite V1 by auto. now rewrite L1.
    + exists o1. split; auto. split; auto. intros i Hi. rewrite V1 by auto. ring.
  - cbn [bind]. destruct en; [|discriminate]. destruct (fade1_ok ty len fs false s l) as [o2 [E2 [L2 V2]]]; auto.
    rewrite E2. exists o2. split; auto. split; [lia|]. intros i Hi. rewrite V2 by auto. ring.
Qed.
Print Assumptions C53_fade.

Lemma ln_le' x y : 0 < x -> x <= y -> ln x <= ln y.
Proof. intros H [L| ->]; [left; now apply ln_increasing|lra]. Qed.
(** The gains lie between 0 and 1, do not decrease, end with 1 and start with 0 (-100 dB for the exponential fade). *)
Theorem C53_gains :
  forall (ty : fade_type) (l : nat), (2 <= l)%nat -> ty <> NoFade ->
  (forall i, 0 <= ramp ty l i <= 1) /\
  (forall i j, (i <= j)%nat -> ramp ty l i <= ramp ty l j) /\
  (forall i, (l - 1 <= i)%nat -> ramp ty l i = 1) /\
  ramp ty l 0 = match ty with Exponential => Rpower 10 (-5) | _ => 0 end.
Proof.
  intros ty l H Hty. pose proof (inr_l1 l H) as P. pose proof ln_top as LT. pose proof sqrt10 as S10.
  assert (T : forall i, (i < l)%nat -> 0 <= INR i / INR (l - 1) <= 1).
  { intros i Hi. assert (INR i <= INR (l - 1)) by (apply le_INR; lia). pose proof (pos_INR i). split.
    - unfold Rdiv. apply Rmult_le_pos; auto. left. now apply Rinv_0_lt_compat.
    - apply (Rmult_le_reg_r (INR (l - 1))); auto. unfold Rdiv. rewrite Rmult_assoc, Rinv_l by lra. lra. }
  assert (M : forall t u, 0 <= t <= u -> u <= 1 ->
     0 <= match ty with NoFade => 1 | Linear => t | Exponential => Rpower 10 ((-100 + 100 * t) / 20)
        | Logarithmic => ln (1 + t * (50 * sqrt 10 - 1)) / ln (50 * sqrt 10) end <=
          match ty with NoFade => 1 | Linear => u | Exponential => Rpower 10 ((-100 + 100 * u) / 20)
        | Logarithmic => ln (1 + u * (50 * sqrt 10 - 1)) / ln (50 * sqrt 10) end).
  { intros t u Htu Hu. destruct ty; try lra.
    - split; [left; apply exp_pos|]. apply Rle_Rpower; lra.
    - pose proof (Rinv_0_lt_compat _ LT). split.
      + unfold Rdiv. apply Rmult_le_pos; [|lra]. rewrite <- ln_1. apply ln_le'; [lra|]. nra.
      + unfold Rdiv. apply Rmult_le_compat_r; [lra|]. apply ln_le'; nra. }
  assert (C1 : match ty with NoFade => 1 | Linear => 1 | Exponential => Rpower 10 ((-100 + 100 * 1) / 20)
        | Logarithmic => ln (1 + 1 * (50 * sqrt 10 - 1)) / ln (50 * sqrt 10) end = 1).
  { destruct ty; auto.
    - replace ((-100 + 100 * 1) / 20) with 0 by field. apply Rpower_O. lra.
    - replace (1 + 1 * (50 * sqrt 10 - 1)) with (50 * sqrt 10) by ring. field. lra. }
  assert (B : forall i, (i < l)%nat -> 0 <= curve ty l i <= 1).
  { intros i Hi. destruct (T i Hi). destruct (M (INR i / INR (l - 1)) 1 ltac:(lra) ltac:(lra)) as [M1 M2]. rewrite C1 in M2. split; [exact M1|exact M2]. }
  split; [|split; [|split]].
  - intros i. unfold ramp. destruct (Nat.ltb_spec i l); [now apply B|lra].
  - intros i j Hij. unfold ramp. destruct (Nat.ltb_spec i l), (Nat.ltb_spec j l); try lia; try lra; [|now apply B].
    destruct (T i), (T j); auto. apply M; [|lra]. split; [lra|]. unfold Rdiv. apply Rmult_le_compat_r; [left; now apply Rinv_0_lt_compat|now apply le_INR].
  - intros i Hi. unfold ramp. destruct (Nat.ltb_spec i l); auto. assert (i = (l - 1)%nat) by lia. subst i. unfold curve.
    replace (INR (l - 1) / INR (l - 1)) with 1 by (field; lra). exact C1.
  - unfold ramp. destruct (Nat.ltb_spec 0 l); [|lia]. unfold curve. simpl INR. replace (0 / INR (l - 1)) with 0 by (field; lra).
    destruct ty; try easy.
    + f_equal. field.
    + replace (1 + 0 * (50 * sqrt 10 - 1)) with 1 by ring. rewrite ln_1. field. lra.
Qed.
Print Assumptions C53_gains.

(** So a fade never makes a sample louder, keeps everything outside the fades, and commutes with reversal. *)
Theorem C53_outside_unchanged :
  forall (ty : fade_type) (len fs : R) (at_start at_end : bool) (s : list R) (l : nat) (out : list R),
  ty <> NoFade -> 0 < fs -> at_start || at_end = true -> len < INR (length s) / fs -> INR l <= len * fs < INR l + 1 -> (2 <= l)%nat ->
  fade_col ty (Some len) fs at_start at_end s = Ok (map Some out) ->
  forall i, (i < length s)%nat -> Rabs (nth i out 0) <= Rabs (nth i s 0) /\
    ((at_start = true -> (l - 1 <= i)%nat) -> (at_end = true -> (i + l <= length s)%nat) -> nth i out 0 = nth i s 0).
Proof.
  intros ty len fs st en s l out Hty Hfs Hse Hlen Hl H2 E i Hi.
  destruct (C53_fade ty len fs st en s l Hty Hfs Hse Hlen Hl H2) as [o [E' [Lo V]]]. rewrite E in E'.
  assert (out = o).
  { assert (Q : map Some out = map Some o) by congruence. clear - Q. revert o Q. induction out as [|a u IH]; intros [|b o] Q; simpl in Q; try discriminate; auto.
    injection Q as -> Q. f_equal. now apply IH. }
  subst o. rewrite V by auto. destruct (C53_gains ty l H2 Hty) as [G1 [_ [G3 _]]]. split.
  - rewrite !Rabs_mult. pose proof (Rabs_pos (nth i s 0)).
    assert (A : forall (b : bool) j, 0 <= Rabs (if b then ramp ty l j else 1) <= 1) by (intros [|] j; [specialize (G1 j); rewrite Rabs_right; lra|rewrite Rabs_R1; lra]).
    pose proof (A st i). pose proof (A en (length s - 1 - i)%nat). set (u := Rabs (if st then _ else _)) in *. set (w := Rabs (if en then _ else _)) in *.
    assert (Rabs (nth i s 0) * u <= Rabs (nth i s 0)) by nra. assert (0 <= Rabs (nth i s 0) * u) by nra. nra.
  - intros A B. assert (QA : (if st then ramp ty l i else 1) = 1) by (destruct st; auto).
    assert (QB : (if en then ramp ty l (length s - 1 - i) else 1) = 1) by (destruct en; auto; apply G3; specialize (B eq_refl); lia).
    rewrite QA, QB. ring.
Qed.
Print Assumptions C53_outside_unchanged.

(** Refusals. A fade as long as the signal, a length that is not positive, and no side at all raise AssertionError. *)
Theorem C53_refusals :
  forall (ty : fade_type) (len fs : R) (at_start at_end : bool) (s : list R), 0 < fs -> (2 <= length s)%nat ->
  (INR (length s) / fs <= len -> fade_col ty (Some len) fs at_start at_end s = Err AssertionError) /\
  (ty <> NoFade -> len <= 0 -> fade_col ty (Some len) fs at_start at_end s = Err AssertionError) /\
  (fade_col ty (Some len) fs false false s = Err AssertionError) /\
  (at_start || at_end = true -> len < INR (length s) / fs -> fade_col NoFade (Some len) fs at_start at_end s = Ok (map Some s)).
Proof.
  intros ty len fs st en s Hfs Hn. unfold fade_col. rewrite time_end by auto. split; [|split; [|split]].
  - intros H. destruct (st || en); auto. destruct (Rlt_dec _ _); [lra|auto].
  - intros Hty H. destruct (st || en) eqn:E; auto. destruct (Rlt_dec _ _); auto.
    rewrite !fade1_eq by auto. destruct (Rlt_dec 0 len); [lra|]. destruct st; [reflexivity|]. destruct en; [|discriminate E]. cbn [bind]. rewrite !fade1_eq by auto. destruct (Rlt_dec 0 len); [lra|reflexivity].
  - reflexivity.
  - intros E H. rewrite E. destruct (Rlt_dec _ _); [|easy]. destruct st, en; try reflexivity; discriminate E.
Qed.
Print Assumptions C53_refusals.

(** Very short fades. A logarithmic fade of one sample makes that sample nan, one of no sample raises IndexError; the
    other two kinds scale one sample by their first gain, or nothing. *)
Theorem C53_short_fades :
  forall (ty : fade_type) (len fs : R) (v : R) (s : list R), ty <> NoFade -> 0 < fs -> 0 < len -> (1 <= length s)%nat ->
  (len * fs < 1 -> fade1 ty len fs true (map Some (v :: s)) =
     match ty with Logarithmic => Err IndexError | _ => Ok (map Some (v :: s)) end) /\
  (1 <= len * fs < 2 -> fade1 ty len fs true (map Some (v :: s)) =
     Ok (match ty with Logarithmic => None | Linear => Some (v * 0) | _ => Some (v * Rpower 10 (-100 / 20)) end :: map Some s)).
Proof.
  intros ty len fs v s Hty Hfs Hlen Hn. rewrite fade1_eq by auto. destruct (Rlt_dec 0 len); [|easy]. rewrite map_length. split; intros H.
  - rewrite (floor_nat _ 0) by (simpl; nra). replace (0 <? length (v :: s))%nat with true by reflexivity.
    destruct ty; try easy; reflexivity.
  - rewrite (floor_nat _ 1) by (simpl; lra). replace (1 <? length (v :: s))%nat with true by (symmetry; apply Nat.ltb_lt; simpl; lia).
    destruct ty; try easy; unfold fade_gains; cbn [linspace map nth bind mul_head opt_mul];
    replace (mul_head (map Some s) []) with (map Some s) by (destruct s; reflexivity).
    + reflexivity.
    + reflexivity.
    + unfold div_opt. rewrite ln_1. destruct (Req_EM_T (0 / ln 10) 0) as [|N]; [reflexivity|]. exfalso. apply N. unfold Rdiv. ring.
Qed.
Print Assumptions C53_short_fades.

(** The default length is 2.5 percent of the signal: a logarithmic fade of a signal with fewer than 40 samples raises. *)
Theorem C53_default_length_refuted :
  forall (s : list R) (fs : R), 0 < fs -> (2 <= length s < 40)%nat -> fade_col Logarithmic None fs true true s = Err IndexError.
Proof.
  intros s fs Hfs Hn. unfold fade_col. cbn [orb]. rewrite time_end by lia. set (N := length s) in *.
  assert (PN : 0 < INR N) by (apply lt_0_INR; lia).
  assert (Q : 0 < INR N / fs) by (apply Rdiv_lt_0_compat; auto).
  destruct (Rlt_dec _ _) as [_|C]; [|lra].
  destruct s as [|v s]; [simpl in *; lia|]. destruct (C53_short_fades Logarithmic (INR N / fs * (25 / 1000)) fs v s) as [E _]; try easy; [lra|unfold N in Hn; simpl in Hn; lia|].
  rewrite E; [reflexivity|]. replace (INR N / fs * (25 / 1000) * fs) with (INR N / 40) by (field; lra).
  assert (INR N < 40); [|lra]. replace 40 with (INR 40) by (simpl; ring). apply lt_INR. lia.
Qed.
Print Assumptions C53_default_length_refuted.

(** The time vector of a signal with n samples ends at n / fs and not at (n-1) / fs, so that every entry but the first is
    later than the time of its sample. *)
Theorem C53_time_vector_refuted :
  forall (n : nat) (fs : R), 0 < fs -> (2 <= n)%nat ->
  length (time_vector n fs) = n /\ nth 0 (time_vector n fs) 0 = 0 /\
  forall i, (1 <= i < n)%nat -> nth i (time_vector n fs) 0 = INR i / fs * (INR n / INR (n - 1)) /\ INR i / fs < nth i (time_vector n fs) 0.
Proof.
  intros n fs Hfs Hn. unfold time_vector. split; [apply linspace_len|]. pose proof (inr_l1 n Hn) as P. split.
  - rewrite linspace_at by lia. simpl. ring.
  - intros i Hi. assert (E : nth i (linspace 0 (INR n / fs) n) 0 = INR i / fs * (INR n / INR (n - 1))) by (rewrite linspace_at by lia; field; lra).
    split; [exact E|]. rewrite E. assert (0 < INR i / fs) by (apply Rdiv_lt_0_compat; [apply lt_0_INR; lia|auto]).
    assert (1 < INR n / INR (n - 1)); [|nra]. apply (Rmult_lt_reg_r (INR (n - 1))); auto. unfold Rdiv. rewrite Rmult_assoc, Rinv_l by lra.
    rewrite Rmult_1_l, Rmult_1_r. apply lt_INR. lia.
Qed.
Print Assumptions C53_time_vector_refuted.

Example C53_example :
  exists out, fade_col Linear (Some 3) 1 true true [1; 1; 1; 1; 1; 1] = Ok (map Some out) /\
  nth 0 out 0 = 0 /\ nth 1 out 0 = 1 / 2 /\ nth 2 out 0 = 1 /\ nth 5 out 0 = 0.
Proof.
  destruct (C53_fade Linear 3 1 true true [1; 1; 1; 1; 1; 1] 3) as [out [E [_ V]]]; try easy; simpl; try lra; try lia.
  exists out. split; [exact E|]. repeat split; rewrite V by (simpl; lia); unfold ramp, curve; simpl; lra.
Qed.
