(** Property C84: windows centred on the peak of an impulse response (window_centered_ir). *)
From Coq Require Import List Arith Lia ZArith Bool Reals Lra Psatz.
From Verif Require Import Alg Spec Dft M_arrays M_signal P_arrays P_signal M_latency M_ir P_ir M_generators M_irwindow Claims_fade Claims_signal Claims_room Claims_generators Claims_transforms Claims_irwindow.
Import ListNotations.
Local Open Scope R_scope.

(** ** Specification *)
(** a symmetric window type: n samples within [0, 1], the same in both directions; the middle of an odd length is 1 *)
Definition symmetric_type (w : nat -> list R) : Prop :=
  (forall n, length (w n) = n) /\ (forall n i, 0 <= nth i (w n) 0 <= 1) /\ (forall n i, (i < n)%nat -> nth i (w n) 0 = nth (n - 1 - i) (w n) 0) /\
  (forall h, nth h (w (2 * h + 1)%nat) 0 = 1).
(** position in the channel of the first sample of the result: T samples, peak at P *)
Definition first_sample (T P L : nat) : Z :=
  let h := (T / 2)%nat in
  if (P <=? h)%nat then 0%Z else if (L - 1 - P <? h)%nat then (Z.of_nat L - Z.of_nat T)%Z else (Z.of_nat (P + h + 1) - Z.of_nat T)%Z.
(** the result is the channel from position z on, times a window of 2 h + 1 samples whose middle lies on the peak *)
Definition centred_window (wc : nat -> list R) (x : list R) (P : nat) (z : Z) (T : nat) (out win : list R) : Prop :=
  seen_from x z T out win /\
  (forall k, (k < T)%nat -> nth k win 0 = at_pos (wc (2 * (T / 2) + 1)%nat) (Z.of_nat (T / 2) + (z + Z.of_nat k - Z.of_nat P))).

(** ** Auxiliary facts *)
Lemma pad_trim_id (l : list R) n : length l = n -> pad_trim_col (HA := CRing_R) n true l = l.
Proof. intros H. unfold pad_trim_col. now rewrite (proj2 (Nat.eqb_eq _ _) H). Qed.
Lemma pad_trim_len (l : list R) n : length (pad_trim_col (HA := CRing_R) n true l) = n.
Proof. unfold pad_trim_col. destruct (Nat.eqb_spec (length l) n); auto. destruct (Nat.ltb_spec (length l) n). rewrite app_length, repeat_length. lia. rewrite firstn_length. lia. Qed.
Lemma pad_trim_nth (l : list R) n k : (k < n)%nat -> nth k (pad_trim_col (HA := CRing_R) n true l) 0 = nth k l 0.
Proof.
  intros H. unfold pad_trim_col. destruct (Nat.eqb_spec (length l) n); auto. destruct (Nat.ltb_spec (length l) n). apply nth_pad0. now apply nth_first.
Qed.
Lemma slice_length a b l : (b <= length l)%nat -> length (slice a b l) = (b - a)%nat.
Proof. intros. unfold slice. rewrite firstn_length, skipn_length. lia. Qed.
Lemma slice_nth a b l k : (b <= length l)%nat -> nth k (slice a b l) 0 = if (k <? b - a)%nat then nth (a + k) l 0 else 0.
Proof.
  intros H. destruct (Nat.ltb_spec k (b - a)). unfold slice. rewrite nth_first by auto. apply nth_skip. apply nth_overflow. rewrite slice_length; lia.
Qed.
Lemma half_bounds T : (2 * (T / 2) <= T <= 2 * (T / 2) + 1)%nat.
Proof. pose proof (Nat.div_mod T 2). pose proof (Nat.mod_upper_bound T 2). lia. Qed.
Lemma core_ok T ce w v p : length w = (2 * (T / 2) + 1)%nat -> (p < length v)%nat ->
  (ce = false /\ ((p + T / 2 + 1 <= length v) \/ (p <= T / 2 /\ p + T / 2 + 1 <= T))%nat) \/ (ce = true /\ T = (2 * (T / 2))%nat /\ length v = T /\ p = (T / 2)%nat) ->
  exists td ww, centered_core T ce w v p = Ok (td, ww, (p - T / 2)%nat) /\ length td = T /\ length ww = T /\
    forall k, (k < T)%nat -> nth k td 0 = nth (p - T / 2 + k) v 0 * nth k ww 0 /\
      nth k ww 0 = at_pos w (Z.of_nat (T / 2) + Z.of_nat (p - T / 2) + Z.of_nat k - Z.of_nat p).
Proof.
  intros Lw Hp H. pose proof (half_bounds T) as HT. unfold centered_core. set (h := (T / 2)%nat) in *. clearbody h. set (L := length v) in *.
  set (q := if (p <? h)%nat then _ else _). assert (Hq : q = ((p - h)%nat, (h - p)%nat)).
  { unfold q. destruct (Nat.ltb_spec p h); f_equal; lia. } rewrite Hq. clear q Hq. cbn zeta beta.
  set (v' := if (L + (p - h) <? T)%nat then _ else _).
  assert (Lv' : length v' = if (L + (p - h) <? T)%nat then (T + (p - h))%nat else L).
  { unfold v'. destruct (Nat.ltb_spec (L + (p - h)) T); auto. rewrite app_length, repeat_length. fold L. lia. }
  assert (Nv' : forall k, nth k v' 0 = nth k v 0). { intros k. unfold v'. destruct (_ <? _)%nat; auto. apply nth_pad0. }
  clearbody v'.
  set (q := if ((length v' <? p + h + 1)%nat && negb ce)%bool then _ else _).
  assert (Hq : q = ((p + h + 1)%nat, (2 * h + 1 - (if ce then 1 else 0))%nat)).
  { unfold q. rewrite Lw. destruct ce. now rewrite andb_false_r. destruct H as [(_ & H)|(H & _)]; [|discriminate].
    destruct (Nat.ltb_spec (length v') (p + h + 1)); auto. exfalso. destruct (Nat.ltb_spec (L + (p - h)) T); lia. }
  rewrite Hq. clear q Hq. cbn zeta beta.
  set (ub := (2 * h + 1 - (if ce then 1 else 0))%nat). set (ww := slice (h - p) ub w).
  assert (Lww : length ww = (ub - (h - p))%nat). { unfold ww. apply slice_length. unfold ub. lia. }
  assert (Nww : forall k, (k < T)%nat -> nth k ww 0 = at_pos w (Z.of_nat h + Z.of_nat (p - h) + Z.of_nat k - Z.of_nat p)).
  { intros k Hk. unfold ww. rewrite slice_nth by (unfold ub; lia). replace (Z.of_nat h + Z.of_nat (p - h) + Z.of_nat k - Z.of_nat p)%Z with (Z.of_nat (h - p + k)) by lia.
    rewrite at_pos_nat. destruct (Nat.ltb_spec k (ub - (h - p))); auto. symmetry. apply nth_overflow. rewrite Lw. unfold ub in *. destruct ce; [|lia]. destruct H as [(H & _)|H]; [discriminate|]. lia. }
  set (vv := slice (p - h) (p + h + 1) v').
  assert (Lvv : length vv = length ww /\ forall k, (k < length ww)%nat -> nth k vv 0 = nth (p - h + k) v 0).
  { destruct H as [(-> & H)|(-> & H1 & H2 & H3)].
    - assert (U : (p + h + 1 <= length v')%nat). { rewrite Lv'. destruct (Nat.ltb_spec (L + (p - h)) T); lia. }
      unfold vv. rewrite slice_length, Lww by auto. unfold ub. split; [lia|]. intros k Hk. rewrite slice_nth by auto. unfold ub in Hk. destruct (Nat.ltb_spec k (p + h + 1 - (p - h))); [|lia]. apply Nv'.
    - assert (Lv : length v' = T). { rewrite Lv'. destruct (Nat.ltb_spec (L + (p - h)) T); lia. }
      assert (E : vv = v'). { unfold vv, slice. replace (p - h)%nat with 0%nat by lia. cbn [skipn]. apply firstn_all2. lia. }
      rewrite E, Lww, Lv. unfold ub. split; [lia|]. intros k Hk. rewrite Nv'. f_equal. lia. }
  destruct Lvv as (Lvv & Nvv). unfold broadcast. rewrite (proj2 (Nat.eqb_eq _ _) Lvv). cbn [bind].
  assert (Lt : length (times vv ww) = length ww) by (rewrite times_length; auto).
  assert (Nt : forall k, (k < T)%nat -> nth k (times vv ww) 0 = nth (p - h + k) v 0 * nth k ww 0).
  { intros k Hk. rewrite times_nth by auto. destruct (Nat.lt_ge_cases k (length ww)). now rewrite Nvv. rewrite (nth_overflow ww) by auto. ring. }
  exists (pad_trim_col (HA := CRing_R) T true (times vv ww)), (pad_trim_col (HA := CRing_R) T true ww). split.
  { destruct (Nat.eqb_spec (length (times vv ww)) T) as [E|E]; auto. rewrite !pad_trim_id; auto; lia. }
  split. apply pad_trim_len. split. apply pad_trim_len. intros k Hk. rewrite !pad_trim_nth by auto. split; auto.
Qed.

(** ** The law *)
Theorem C84_centred (wc : nat -> list R) (T P : nat) (x : list R) : symmetric_type wc -> (1 <= T)%nat -> first_peak x P ->
  ~ ((P + T / 2 = length x)%nat /\ Nat.even (length x) = true /\ T <> length x) ->
  ~ (T = (2 * (T / 2))%nat /\ P = (T / 2)%nat /\ (length x < T)%nat) ->
  exists res, bind (window_centered wc T x) (fill T) = Ok res /\
    let z := first_sample T P (length x) in
    centred_window wc x P z T (w_out res) (w_win res) /\ (0 <= Z.of_nat P - z < Z.of_nat T)%Z /\
    nth (Z.to_nat (Z.of_nat P - z)) (w_out res) 0 = nth P x 0 /\
    w_start res = (if (P <=? T / 2)%nat then 0 else length x - 1 - P - T / 2)%nat.
Proof.
  intros (W1 & W2 & W3 & W4) HT1 Hp N1 N2. pose proof Hp as (HP & _ & _). pose proof (half_bounds T) as HT.
  unfold window_centered. rewrite (peak_index_spec _ _ Hp). unfold centred_window, first_sample. cbv zeta.
  set (L := length x) in *. replace (T / 2 * 2 + 1)%nat with (2 * (T / 2) + 1)%nat by lia. set (w := wc (2 * (T / 2) + 1)%nat).
  assert (Lw : length w = (2 * (T / 2) + 1)%nat) by apply W1.
  assert (Hce : ((P + T / 2 =? L)%nat && Nat.even L)%bool = false /\ ~ ((P + T / 2)%nat = L /\ Nat.even L = true) \/ ((P + T / 2 =? L)%nat && Nat.even L)%bool = true /\ (P + T / 2)%nat = L /\ Nat.even L = true /\ T = L).
  { destruct (Nat.eqb_spec (P + T / 2) L), (Nat.even L) eqn:E; try (left; split; [reflexivity|intros [? ?]; congruence]). right. repeat split; auto. destruct (Nat.eq_dec T L); auto. exfalso. apply N1. auto. }
  set (ce := ((P + T / 2 =? L)%nat && Nat.even L)%bool) in *.
  assert (Fin : forall r, length (w_win r) = T -> fill T r = Ok r). { intros r E. unfold fill. now rewrite E, Nat.eqb_refl. }
  assert (Wr : forall z, 0 <= at_pos w z <= 1). { intros z. unfold at_pos. destruct (z <? 0)%Z. lra. apply W2. }
  destruct (Nat.ltb_spec (T / 2) P).
  - destruct (Nat.leb_spec P (T / 2)); [lia|].
    assert (Ec : ce = false). { destruct Hce as [(E & _)|(E & A & B & D)]; auto. exfalso. assert (L = 2 * (T / 2) + 1)%nat by lia. rewrite H1, Nat.even_add, Nat.even_mul in B. discriminate. }
    set (p := (L - P - 1)%nat).
    destruct (core_ok T ce w (rev x) p Lw) as (td & ww & E & Lt & Lww & V).
    { rewrite rev_length. fold L. lia. } { left. split; auto. left. rewrite rev_length. fold L. lia. }
    rewrite E. cbn [bind]. rewrite Fin by (cbn [w_win]; rewrite rev_length; auto).
    eexists. split; [reflexivity|]. cbn [w_out w_win w_start].
    replace (L - 1 - P)%nat with p by lia.
    set (z := if (p <? T / 2)%nat then (Z.of_nat L - Z.of_nat T)%Z else (Z.of_nat (P + T / 2 + 1) - Z.of_nat T)%Z).
    assert (Ez : z = (Z.of_nat L - Z.of_nat T - Z.of_nat (p - T / 2))%Z). { unfold z. destruct (Nat.ltb_spec p (T / 2)); lia. }
    assert (Nw : forall k, (k < T)%nat -> nth k (rev ww) 0 = at_pos w (Z.of_nat (T / 2) + (z + Z.of_nat k - Z.of_nat P))).
    { intros k Hk. rewrite rev_nth by lia. rewrite Lww. destruct (V (T - S k)%nat ltac:(lia)) as (_ & ->).
      set (a := (Z.of_nat (T / 2) + Z.of_nat (p - T / 2) + Z.of_nat (T - S k) - Z.of_nat p)%Z). set (b := (Z.of_nat (T / 2) + (z + Z.of_nat k - Z.of_nat P))%Z).
      assert (Eab : (a + b = 2 * Z.of_nat (T / 2))%Z) by lia. clearbody a b. unfold at_pos.
      destruct (Z.ltb_spec a 0), (Z.ltb_spec b 0); try lia; auto. symmetry; apply nth_overflow; lia. apply nth_overflow; lia.
      unfold w. rewrite W3 by lia. f_equal. lia. }
    assert (No : forall k, (k < T)%nat -> nth k (rev td) 0 = at_pos x (z + Z.of_nat k) * nth k (rev ww) 0).
    { intros k Hk. rewrite !rev_nth by lia. rewrite Lww, Lt. destruct (V (T - S k)%nat ltac:(lia)) as (-> & _). f_equal.
      unfold at_pos. destruct (Z.ltb_spec (z + Z.of_nat k) 0). apply nth_overflow. rewrite rev_length. fold L. lia.
      rewrite rev_nth by (fold L; lia). fold L. f_equal. lia. }
    split. { split; auto. split. now rewrite rev_length. split. now rewrite rev_length. intros k Hk. split; auto. rewrite Nw by auto. apply Wr. }
    assert (Hz : (0 <= Z.of_nat P - z < Z.of_nat T)%Z) by lia. split; auto. split; [|lia].
    rewrite No, Nw by lia. rewrite Z2Nat.id by lia. replace (z + (Z.of_nat P - z))%Z with (Z.of_nat P) by lia. rewrite Z.sub_diag, Z.add_0_r, !at_pos_nat. unfold w. rewrite W4. ring.
  - destruct (Nat.leb_spec P (T / 2)); [|lia].
    destruct (core_ok T ce w x P Lw HP) as (td & ww & E & Lt & Lww & V).
    { destruct Hce as [(-> & Q)|(-> & A & B & D)].
      - left. split; auto. fold L. destruct (Nat.eq_dec P (T / 2)); [|right; lia]. destruct (Nat.eq_dec T (2 * (T / 2))) as [E2|]; [|right; lia].
        left. assert (~ (L < T)%nat) by tauto. destruct (Nat.eq_dec L T) as [E1|]; [|lia]. exfalso. apply Q. split; [lia|]. now rewrite E1, E2, Nat.even_mul.
      - right. repeat split; auto; fold L; lia. }
    rewrite E. cbn [bind]. rewrite Fin by auto. eexists. split; [reflexivity|]. cbn [w_out w_win w_start].
    assert (Nw : forall k, (k < T)%nat -> nth k ww 0 = at_pos w (Z.of_nat (T / 2) + (0 + Z.of_nat k - Z.of_nat P))).
    { intros k Hk. destruct (V k Hk) as (_ & ->). f_equal. lia. }
    assert (No : forall k, (k < T)%nat -> nth k td 0 = at_pos x (0 + Z.of_nat k) * nth k ww 0).
    { intros k Hk. destruct (V k Hk) as (-> & _). cbn [Z.add]. rewrite at_pos_nat. f_equal. f_equal. lia. }
    assert (HPT : (P < T)%nat). { destruct (Nat.eq_dec T 1); lia. }
    split. { split; auto. split; auto. split; auto. intros k Hk. split; auto. rewrite Nw by auto. apply Wr. }
    rewrite Z.sub_0_r, Nat2Z.id. split; [lia|]. split; [|lia]. rewrite No, Nw by lia. cbn [Z.add]. rewrite Z.sub_diag, Z.add_0_r, !at_pos_nat. unfold w. rewrite W4. ring.
Qed.
Print Assumptions C84_centred.
(** scipy's Hann window with fftbins=False *)
Definition hann_sym (n : nat) : list R := if (n =? 1)%nat then [1] else mk n (fun i => 1 / 2 - 1 / 2 * cos (2 * PI * INR i / INR (n - 1))).
Lemma hann_sym_type : symmetric_type hann_sym.
Proof.
  assert (Ln : forall n, length (hann_sym n) = n). { intros n. unfold hann_sym. destruct (Nat.eqb_spec n 1). now subst. apply mk_length. }
  assert (Rg : forall n i, 0 <= nth i (hann_sym n) 0 <= 1).
  { intros n i. destruct (Nat.lt_ge_cases i n).
    - unfold hann_sym. destruct (Nat.eqb_spec n 1). assert (i = 0%nat) by lia. subst i. cbn. lra.
      rewrite nth_mk by auto. pose proof (COS_bound (2 * PI * INR i / INR (n - 1))). lra.
    - rewrite nth_overflow by (rewrite Ln; auto). lra. }
  split; auto. split; auto. split.
  - intros n i Hi. unfold hann_sym. destruct (Nat.eqb_spec n 1). subst. assert (i = 0%nat) by lia. now subst.
    rewrite !nth_mk by lia. do 2 f_equal. rewrite <- (cos_neg (2 * PI * INR (n - 1 - i) / INR (n - 1))).
    rewrite <- (cos_period (- (2 * PI * INR (n - 1 - i) / INR (n - 1))) 1). f_equal. rewrite (minus_INR (n - 1) i) by lia. simpl (INR 1). field. apply not_0_INR. lia.
  - intros h. unfold hann_sym. destruct (Nat.eqb_spec (2 * h + 1) 1). assert (h = 0%nat) by lia. now subst.
    rewrite nth_mk by lia. replace (2 * PI * INR h / INR (2 * h + 1 - 1)) with PI. rewrite cos_PI. lra.
    replace (2 * h + 1 - 1)%nat with (2 * h)%nat by lia. rewrite mult_INR. simpl (INR 2). field. apply not_0_INR. lia.
Qed.
Definition ir10 : list R := [0; 0; 0; 0; 0; 1; 1 / 2; 0; 0; 0].
Lemma peak10 : first_peak ir10 5.
Proof.
  unfold first_peak, ir10. cbn [length]. rewrite (Rabs_pos_eq (nth 5 _ 0)) by (cbn [nth]; lra).
  split; [lia|]. split; intros j Hj; do 10 (destruct j as [|j]; [cbn [nth]; rewrite ?Rabs_R0, ?Rabs_R1, ?(Rabs_pos_eq (1 / 2)) by lra; try lra; try lia|]); lia.
Qed.
Example C84_centred_case : exists res, bind (window_centered hann_sym 5 ir10) (fill 5) = Ok res /\ nth 2 (w_out res) 0 = 1 /\ w_start res = 2%nat /\ nth 1 (w_win res) 0 = 1 / 2.
Proof.
  destruct (C84_centred hann_sym 5 5 ir10 hann_sym_type ltac:(lia) peak10) as (res & E & (_ & W) & _ & O & S').
  { cbn. intros (A & _). lia. } { cbn. lia. }
  exists res. split; [exact E|]. split; [exact O|]. split; [exact S'|]. rewrite W by lia. change (at_pos _ _) with (nth 1 (hann_sym 5) 0). unfold hann_sym. cbn [Nat.eqb]. rewrite nth_mk by lia.
  replace (2 * PI * INR 1 / INR (5 - 1)) with (PI / 2) by (simpl; field). rewrite cos_PI2. lra.
Qed.

(** ** Where it goes wrong *)
Lemma broadcast_err v w : length v <> length w -> length v <> 1%nat -> length w <> 1%nat -> broadcast v w = Err ValueError.
Proof.
  intros A B D. unfold broadcast. destruct (Nat.eqb_spec (length v) (length w)); [lia|]. destruct w as [|b [|b' w]], v as [|a [|a' v]]; auto; cbn in *; lia.
Qed.
(** An even response whose peak lies half a window before its end cannot be windowed unless the window has its length. *)
Theorem C84_crash_refuted (wc : nat -> list R) (T P : nat) (x : list R) : (forall n, length (wc n) = n) -> first_peak x P ->
  (P + T / 2 = length x)%nat -> Nat.even (length x) = true -> T <> length x -> (4 <= T)%nat ->
  window_centered wc T x = Err ValueError.
Proof.
  intros W1 Hp H1 H2 H3 H4. pose proof Hp as (HP & _ & _). pose proof (half_bounds T) as HT. unfold window_centered. rewrite (peak_index_spec _ _ Hp).
  rewrite H1, Nat.eqb_refl, H2. cbn [andb]. unfold centered_core. rewrite W1, ?rev_length. rewrite <- H1.
  assert (Hh : (2 <= T / 2)%nat) by lia. set (h := (T / 2)%nat) in *. clearbody h.
  destruct (Nat.ltb_spec h P).
  - replace (P + h - P - 1)%nat with (h - 1)%nat by lia. destruct (Nat.ltb_spec (h - 1) h); [|lia]. destruct (Nat.ltb_spec (P + h + 0) T); [lia|].
    rewrite andb_false_r. rewrite broadcast_err; auto; rewrite ?slice_length; rewrite ?rev_length, ?W1; lia.
  - assert (T <> (P + h)%nat) by lia. assert (L2 : (2 <= P + h)%nat) by lia. destruct (Nat.ltb_spec P h).
    + destruct (Nat.ltb_spec (P + h + 0) T); [|lia]. rewrite andb_false_r. rewrite broadcast_err; auto; rewrite ?slice_length; rewrite ?app_length, ?repeat_length, ?W1; lia.
    + destruct (Nat.ltb_spec (P + h + (P - h)) T); [|lia]. rewrite andb_false_r. rewrite broadcast_err; auto; rewrite ?slice_length; rewrite ?app_length, ?repeat_length, ?W1; lia.
Qed.
Print Assumptions C84_crash_refuted.
Definition ir6 : list R := [0; 0; 0; 0; 1; 0].
Lemma peak6 : first_peak ir6 4.
Proof.
  unfold first_peak, ir6. cbn [length]. rewrite (Rabs_pos_eq (nth 4 _ 0)) by (cbn [nth]; lra).
  split; [lia|]. split; intros j Hj; do 6 (destruct j as [|j]; [cbn [nth]; rewrite ?Rabs_R0, ?Rabs_R1; try lra; try lia|]); lia.
Qed.
Example C84_crash_case : window_centered hann_sym 4 ir6 = Err ValueError.
Proof. apply (C84_crash_refuted _ _ 4). apply hann_sym_type. exact peak6. reflexivity. reflexivity. discriminate. lia. Qed.

(** A window which is longer than the response and has its middle at the peak is replaced by its first value: silence for Hann. *)
Theorem C84_silence_refuted (wc : nat -> list R) (h : nat) (x : list R) : (forall n, length (wc n) = n) -> first_peak x h -> (length x < 2 * h)%nat ->
  exists res, bind (window_centered wc (2 * h) x) (fill (2 * h)) = Ok res /\ length (w_out res) = (2 * h)%nat /\
  forall k, (k < 2 * h)%nat -> nth k (w_win res) 0 = nth 0 (wc (2 * h + 1)%nat) 0 /\ nth k (w_out res) 0 = nth k x 0 * nth 0 (wc (2 * h + 1)%nat) 0.
Proof.
  intros W1 Hp H. pose proof Hp as (HP & _ & _). unfold window_centered. rewrite (peak_index_spec _ _ Hp).
  replace (2 * h / 2)%nat with h by (rewrite (Nat.mul_comm 2), Nat.div_mul; lia). destruct (Nat.ltb_spec h h); [lia|].
  destruct (Nat.eqb_spec (h + h) (length x)); [lia|]. cbn [andb]. unfold centered_core.
  replace (2 * h / 2)%nat with h by (rewrite (Nat.mul_comm 2), Nat.div_mul; lia). destruct (Nat.ltb_spec h h); [lia|]. rewrite Nat.sub_diag, Nat.add_0_r.
  destruct (Nat.ltb_spec (length x) (2 * h)); [|lia]. set (v := x ++ repeat 0 (2 * h + 0 - length x)).
  assert (Lv : length v = (2 * h)%nat). { unfold v. rewrite app_length, repeat_length. lia. }
  rewrite Lv. destruct (Nat.ltb_spec (2 * h) (h + h + 1)); [|lia]. cbn [andb negb]. replace (h + h + 1 - 2 * h)%nat with 1%nat by lia.
  replace (h * 2 + 1)%nat with (2 * h + 1)%nat by lia. set (w := wc (2 * h + 1)%nat). assert (Lw : length w = (2 * h + 1)%nat) by apply W1.
  assert (Ew : slice 0 1 w = [nth 0 w 0]). { destruct w as [|b w']; cbn in *; [lia|reflexivity]. }
  assert (Ev : slice 0 (2 * h) v = v). { unfold slice. cbn [skipn]. apply firstn_all2. lia. }
  rewrite Ew, Ev. unfold broadcast. rewrite Lv. cbn [length]. destruct (Nat.eqb_spec (2 * h) 1); [lia|]. cbn [bind]. rewrite map_length, Lv, Nat.eqb_refl. cbn [bind]. unfold fill. cbn [w_win w_out w_start length].
  destruct (Nat.eqb_spec 1 (2 * h)); [lia|]. eexists. split; [reflexivity|]. cbn [w_win w_out]. split. now rewrite map_length.
  intros k Hk. split. { rewrite nth_get. now apply get_repeat. }
  rewrite (nth_map' _ v k 0) by lia. unfold v. now rewrite nth_pad0.
Qed.
Print Assumptions C84_silence_refuted.
Example C84_silence_case : exists res, bind (window_centered hann_sym 4 [0; 0; 1]) (fill 4) = Ok res /\ forall k, (k < 4)%nat -> nth k (w_out res) 0 = 0.
Proof.
  destruct (C84_silence_refuted hann_sym 2 [0; 0; 1]) as (res & E & _ & V). apply hann_sym_type.
  { unfold first_peak. cbn [length]. rewrite (Rabs_pos_eq (nth 2 _ 0)) by (cbn [nth]; lra).
    split; [lia|]. split; intros j Hj; do 3 (destruct j as [|j]; [cbn [nth]; rewrite ?Rabs_R0, ?Rabs_R1; try lra; try lia|]); lia. }
  cbn; lia. exists res. split; [exact E|]. intros k Hk. destruct (V k Hk) as (_ & ->). unfold hann_sym. cbn [Nat.eqb Nat.mul Nat.add]. rewrite nth_mk by lia.
  replace (2 * PI * INR 0 / INR (5 - 1)) with 0 by (simpl; field). rewrite cos_0. lra.
Qed.

(** The start which is reported is that of the reversed response: it is right only for a peak in the very middle. *)
Theorem C84_start_refuted (wc : nat -> list R) (h P : nat) (x : list R) : symmetric_type wc -> first_peak x P -> (h < P)%nat -> (P + h < length x)%nat ->
  exists res, bind (window_centered wc (2 * h + 1) x) (fill (2 * h + 1)) = Ok res /\ seen_from x (Z.of_nat P - Z.of_nat h) (2 * h + 1) (w_out res) (w_win res) /\
  w_start res = (length x - 1 - P - h)%nat /\ (w_start res = (P - h)%nat <-> length x = (2 * P + 1)%nat).
Proof.
  intros Hw Hp H1 H2. assert (Eh : ((2 * h + 1) / 2 = h)%nat). { rewrite (Nat.mul_comm 2), Nat.div_add_l by lia. simpl. lia. }
  destruct (C84_centred wc (2 * h + 1) P x Hw ltac:(lia) Hp) as (res & E & (Sn & _) & _ & _ & St).
  { rewrite Eh. intros (A & _). lia. } { lia. }
  rewrite Eh in *. unfold first_sample in Sn. rewrite Eh in Sn. destruct (Nat.leb_spec P h); [lia|]. exists res. split; [exact E|].
  destruct (Nat.ltb_spec (length x - 1 - P) h); [lia|]. replace (Z.of_nat (P + h + 1) - Z.of_nat (2 * h + 1))%Z with (Z.of_nat P - Z.of_nat h)%Z in Sn by lia.
  split; [exact Sn|]. split; [exact St|]. rewrite St. lia.
Qed.
Print Assumptions C84_start_refuted.
Example C84_start_case : exists res, bind (window_centered hann_sym 5 ir10) (fill 5) = Ok res /\ seen_from ir10 3 5 (w_out res) (w_win res) /\ w_start res = 2%nat.
Proof.
  destruct (C84_start_refuted hann_sym 2 5 ir10 hann_sym_type peak10 ltac:(lia) ltac:(cbn; lia)) as (res & E & Sn & St & _). exists res. split; [exact E|]. split; [exact Sn|exact St].
Qed.

(** A short response with a late peak is padded in front and not at the end: the peak moves. *)
Theorem C84_padding_refuted (wc : nat -> list R) (T P : nat) (x : list R) : symmetric_type wc -> first_peak x P -> (T / 2 < P)%nat -> (length x < T)%nat ->
  (Nat.even (length x) = true -> P + T / 2 <> length x)%nat ->
  exists res, bind (window_centered wc T x) (fill T) = Ok res /\
  (forall k, (k < T - length x)%nat -> nth k (w_out res) 0 = 0) /\ nth (T - length x + P) (w_out res) 0 = nth P x 0.
Proof.
  intros Hw Hp H1 H2 H3. pose proof (half_bounds T) as HT. pose proof Hp as (HP & _ & _).
  destruct (C84_centred wc T P x Hw ltac:(lia) Hp) as (res & E & ((_ & _ & Sn) & _) & _ & O & St).
  { intros (A & B & _). now apply H3. } { lia. }
  unfold first_sample in *. destruct (Nat.leb_spec P (T / 2)); [lia|]. destruct (Nat.ltb_spec (length x - 1 - P) (T / 2)); [|lia].
  exists res. split; [exact E|]. split.
  - intros k Hk. destruct (Sn k ltac:(lia)) as (_ & ->). unfold at_pos. destruct (Z.ltb_spec (Z.of_nat (length x) - Z.of_nat T + Z.of_nat k) 0); [ring|lia].
  - rewrite <- O. f_equal. lia.
Qed.
Print Assumptions C84_padding_refuted.
(** peak at 3 of [0; 0; 0; 1], window of 5 samples: one zero in front *)
Example C84_padding_case : exists res, bind (window_centered hann_sym 5 [0; 0; 0; 1]) (fill 5) = Ok res /\ nth 4 (w_out res) 0 = 1.
Proof.
  destruct (C84_padding_refuted hann_sym 5 3 [0; 0; 0; 1] hann_sym_type) as (res & E & _ & O).
  { unfold first_peak. cbn [length]. rewrite (Rabs_pos_eq (nth 3 _ 0)) by (cbn [nth]; lra).
    split; [lia|]. split; intros j Hj; do 4 (destruct j as [|j]; [cbn [nth]; rewrite ?Rabs_R0, ?Rabs_R1; try lra; try lia|]); lia. }
  cbn; lia. cbn; lia. intros _. cbn. lia. exists res. split; [exact E|]. exact O.
Qed.

(** ** The whole function on a signal *)
Theorem C84_window_centered_ir (wc : nat -> list R) (T n k : nat) (P : nat -> nat) (s : signal) : symmetric_type wc -> sig_ok s n k -> (k <= T)%nat -> (2 <= T)%nat ->
  (forall ch, (ch < k)%nat -> first_peak (nth ch (s_re s) []) (P ch) /\ ~ ((P ch + T / 2 = n)%nat /\ Nat.even n = true /\ T <> n) /\ ~ (T = (2 * (T / 2))%nat /\ P ch = (T / 2)%nat /\ (n < T)%nat)) ->
  exists s' win starts, window_centered_ir wc T s = Ok (s', win, starts) /\ s_fs s' = s_fs s /\ s_constr s' = s_constr s /\ s_scale s' = 1 /\ shape (s_re s') T k /\ shape win T k /\
    forall ch, (ch < k)%nat -> let z := first_sample T (P ch) n in
      centred_window wc (nth ch (s_re s) []) (P ch) z T (nth ch (s_re s') []) (nth ch win []) /\ (0 <= Z.of_nat (P ch) - z < Z.of_nat T)%Z /\
      nth (Z.to_nat (Z.of_nat (P ch) - z)) (nth ch (s_re s') []) 0 = nth (P ch) (nth ch (s_re s) []) 0.
Proof.
  intros Hw Hs HkT HT Hch. pose proof Hs as [K1 K2 K3 K4 K5 K6 K7].
  set (f := fun x => bind (window_centered wc T x) (fill T)). set (z := fun ch => first_sample T (P ch) n).
  assert (One : forall ch, (ch < k)%nat -> exists res, f (nth ch (s_re s) []) = Ok res /\ centred_window wc (nth ch (s_re s) []) (P ch) (z ch) T (w_out res) (w_win res) /\
     (0 <= Z.of_nat (P ch) - z ch < Z.of_nat T)%Z /\ nth (Z.to_nat (Z.of_nat (P ch) - z ch)) (w_out res) 0 = nth (P ch) (nth ch (s_re s) []) 0).
  { intros ch Hcc. destruct (Hch ch Hcc) as (Hp & N1 & N2). assert (Ln : length (nth ch (s_re s) []) = n) by now apply (shape_col _ n k).
    destruct (C84_centred wc T (P ch) (nth ch (s_re s) []) Hw ltac:(lia) Hp) as (res & E & A & B & D & _). now rewrite Ln. now rewrite Ln. rewrite Ln in *. exists res. split; [exact E|]. split; auto. }
  assert (All : exists ws, length ws = k /\ map f (s_re s) = map Ok ws /\ forall ch, (ch < k)%nat -> f (nth ch (s_re s) []) = Ok (nth ch ws (mkW [] [] 0))).
  { set (g := fun x => match f x with Ok w => w | Err _ => mkW [] [] 0 end). exists (map g (s_re s)). destruct K4 as [La _]. split. now rewrite map_length.
    assert (Q : forall ch, (ch < k)%nat -> f (nth ch (s_re s) []) = Ok (g (nth ch (s_re s) []))). { intros ch Hcc. destruct (One ch Hcc) as (res & E & _). unfold g. now rewrite E. }
    split.
    - rewrite map_map. apply map_ext_in. intros x Hx. apply (In_nth _ _ []) in Hx. destruct Hx as (ch & Hcc & <-). apply Q. lia.
    - intros ch Hcc. rewrite Q by auto. f_equal. symmetry. rewrite (nth_map' g (s_re s) ch []) by lia. reflexivity. }
  destruct All as (ws & Lws & Ews & Vws). set (d := mkW [] [] 0) in *.
  assert (Two : forall ch, (ch < k)%nat -> centred_window wc (nth ch (s_re s) []) (P ch) (z ch) T (w_out (nth ch ws d)) (w_win (nth ch ws d)) /\
     (0 <= Z.of_nat (P ch) - z ch < Z.of_nat T)%Z /\ nth (Z.to_nat (Z.of_nat (P ch) - z ch)) (w_out (nth ch ws d)) 0 = nth (P ch) (nth ch (s_re s) []) 0).
  { intros ch Hcc. destruct (One ch Hcc) as (res & E & A). rewrite Vws in E by auto. injection E as <-. exact A. }
  do 3 eexists. split.
  { unfold window_centered_ir. fold f. rewrite (seq_result_ok _ _ ws Ews). cbn [bind]. apply (collect_ok s n k T ws z); auto. intros ch Hcc. apply Two; auto. }
  cbn [s_fs s_constr s_scale s_re]. split; auto. split; auto. split; auto.
  split. { rewrite <- Lws. apply shape_mk_map. intros w Hin. apply (In_nth _ _ d) in Hin. destruct Hin as (ch & Hcc & <-). apply (Two ch). lia. }
  split. { rewrite <- Lws. apply shape_mk_map. intros w Hin. apply (In_nth _ _ d) in Hin. destruct Hin as (ch & Hcc & <-). apply (Two ch). lia. }
  intros ch Hcc. rewrite (nth_map' w_out ws ch d) by lia. rewrite (nth_map' w_win ws ch d) by lia. exact (Two ch Hcc).
Qed.
Print Assumptions C84_window_centered_ir.
Example C84_window_centered_ir_case : exists s' win starts, window_centered_ir hann_sym 5 (mkSig [ir10; ir10] None 1 true 48000) = Ok (s', win, starts) /\ entry (s_re s') 2 1 = 1.
Proof.
  assert (Hs : sig_ok (mkSig [ir10; ir10] None 1 true 48000) 10 2).
  { constructor; cbn [s_re s_im s_constr]; try lia; try discriminate. split; auto.
    intros _ i ch Hi Hch. pose proof peak10 as (_ & Q & _). specialize (Q i Hi). replace (nth 5 ir10 0) with 1 in Q by reflexivity. rewrite Rabs_R1 in Q.
    destruct ch as [|[|ch]]; [exact Q|exact Q|lia]. }
  destruct (C84_window_centered_ir hann_sym 5 10 2 (fun _ => 5%nat) _ hann_sym_type Hs ltac:(lia) ltac:(lia)) as (s' & win & starts & E & _ & _ & _ & _ & _ & Q).
  { intros ch Hch. split. destruct ch as [|[|ch]]; [exact peak10|exact peak10|lia]. cbn. lia. }
  exists s', win, starts. split; [exact E|]. destruct (Q 1%nat ltac:(lia)) as (_ & _ & D). exact D.
Qed.
