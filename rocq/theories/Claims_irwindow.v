(** Property C83: windowing of impulse responses (window_ir, window_ir_tukey). *)
From Coq Require Import List Arith Lia ZArith Bool Reals Lra Psatz.
From Verif Require Import Alg Spec Dft M_arrays M_signal P_arrays P_signal M_latency M_ir P_ir M_generators M_irwindow Claims_fade Claims_signal Claims_room Claims_generators Claims_transforms.
Import ListNotations.
Local Open Scope R_scope.

(** ** Specification *)
(** sample z of a channel; there is silence before and after it *)
Definition at_pos (x : list R) (z : Z) : R := if (z <? 0)%Z then 0 else nth (Z.to_nat z) x 0.
(** P is the first position of the largest absolute value *)
Definition first_peak (x : list R) (P : nat) : Prop :=
  (P < length x)%nat /\ (forall j, (j < length x)%nat -> Rabs (nth j x 0) <= Rabs (nth P x 0)) /\ (forall j, (j < P)%nat -> Rabs (nth j x 0) < Rabs (nth P x 0)).
(** a window type: n samples within [0, 1]; the middle of an even length is 1 *)
Definition window_type (w : nat -> list R) : Prop :=
  (forall n, length (w n) = n) /\ (forall n i, 0 <= nth i (w n) 0 <= 1) /\ (forall n, (0 < n)%nat -> nth n (w (2 * n)%nat) 0 = 1).
(** T samples: a rising flank of l samples, ones, a falling flank of r samples *)
Definition tent (wl wr : nat -> list R) (rising : bool) (l r T k : nat) : R :=
  if (k <? l)%nat then (if rising then nth k (wl (2 * l)%nat) 0 else 1)
  else if (k + r <? T)%nat then 1
  else if (k <? T)%nat then (if (r <=? 1)%nat then 1 else nth (r + (k + r - T))%nat (wr (2 * r)%nat) 0)
  else 0.
(** the lengths of the flanks as the arguments ask for *)
Definition asked_flanks (T : nat) (c ratio : R) (l r : nat) : Prop :=
  exists F, floors ((1 - c) * INR T) F /\ floors (INR F / 2 * ratio) l /\ r = (F - l)%nat.
(** the result is the channel, seen from position [z] on through the window *)
Definition seen_from (x : list R) (z : Z) (T : nat) (out win : list R) : Prop :=
  length out = T /\ length win = T /\ forall k, (k < T)%nat -> 0 <= nth k win 0 <= 1 /\ nth k out 0 = at_pos x (z + Z.of_nat k) * nth k win 0.

(** ** Auxiliary facts *)
Lemma peak_index_spec x P : first_peak x P -> peak_index x = P.
Proof.
  intros (A & B & D). unfold peak_index. set (m := map Rabs x).
  assert (Lm : length m = length x) by apply map_length.
  assert (N : m <> []) by (destruct x; [simpl in A; lia|discriminate]).
  destruct (argmax_spec m N) as (E & F & G). set (r := argmax m) in *. rewrite Lm in *.
  assert (V : forall j, (j < length x)%nat -> nth j m 0 = Rabs (nth j x 0)).
  { intros j Hj. unfold m. rewrite (nth_indep _ 0 (Rabs 0)) by (rewrite map_length; auto). apply map_nth. }
  destruct (Nat.lt_trichotomy r P) as [H|[H|H]]; auto.
  - specialize (D r H). specialize (F P A). rewrite !V in F by auto. lra.
  - specialize (G P H). specialize (B r E). rewrite !V in G by auto. lra.
Qed.
Lemma first_peak_exists x : x <> [] -> exists P, first_peak x P.
Proof.
  intros N. exists (peak_index x). unfold first_peak, peak_index. set (m := map Rabs x).
  assert (Lm : length m = length x) by apply map_length.
  assert (N' : m <> []) by (destruct x; [congruence|discriminate]).
  destruct (argmax_spec m N') as (E & F & G). rewrite Lm in *.
  assert (V : forall j, (j < length x)%nat -> nth j m 0 = Rabs (nth j x 0)).
  { intros j Hj. unfold m. rewrite (nth_indep _ 0 (Rabs 0)) by (rewrite map_length; auto). apply map_nth. }
  split; [exact E|]. split; intros j Hj. specialize (F j Hj). now rewrite !V in F by auto. specialize (G j Hj). now rewrite !V in G by lia.
Qed.
Lemma times_length v w : length v = length w -> length (times v w) = length v.
Proof. intros H. unfold times. rewrite map_length, combine_length. lia. Qed.
Lemma times_nth v w k : length v = length w -> nth k (times v w) 0 = nth k v 0 * nth k w 0.
Proof.
  intros H. destruct (Nat.lt_ge_cases k (length v)).
  - unfold times. rewrite (nth_map' (fun p : R * R => fst p * snd p) (combine v w) k (0, 0)) by (rewrite combine_length; lia).
    rewrite combine_nth by auto. reflexivity.
  - rewrite !nth_overflow; try lia. ring. rewrite times_length; lia.
Qed.
Lemma flanks_eq T c ratio l r : asked_flanks T c ratio l r -> flanks T c ratio = (l, r).
Proof.
  intros (F & A & B & E). unfold flanks. rewrite (int_of_floor _ _ A). rewrite (int_of_floor _ l). now rewrite E.
  unfold floors in *. replace (INR F * (1 / 2) * ratio) with (INR F / 2 * ratio) by field. exact B.
Qed.
Lemma flank_window_ok wl wr rising l r T : window_type wl -> window_type wr -> (l + r <= T)%nat ->
  exists w, flank_window wl wr rising l (Z.of_nat r) T = Ok w /\ length w = T /\ (forall k, (k < T)%nat -> nth k w 0 = tent wl wr rising l r T k).
Proof.
  intros (A1 & A2 & A3) (B1 & B2 & B3) H. unfold flank_window.
  destruct (Z.ltb_spec (Z.of_nat T - Z.of_nat r) (Z.of_nat l)); [lia|]. destruct (Z.ltb_spec (Z.of_nat T) (Z.of_nat T - Z.of_nat r)); [lia|]. cbn [orb].
  replace (Z.to_nat (Z.of_nat T - Z.of_nat r)) with (T - r)%nat by lia.
  destruct (tukey_ok wl wr rising false 0 l (T - r) T T A1 B1 ltac:(lia) ltac:(lia) ltac:(lia) ltac:(lia)) as (w & E & Lw & V).
  exists w. split; auto. split; auto. intros k Hk. specialize (V k Hk). cbn zeta in V. rewrite nth_get, V. unfold tukey_value, tent.
  destruct (Nat.ltb_spec k 0); [lia|]. rewrite !Nat.sub_0_r.
  destruct (Nat.ltb_spec k l); [reflexivity|]. destruct (Nat.ltb_spec k (T - r)), (Nat.ltb_spec (k + r) T); try lia; [reflexivity|].
  destruct (Nat.ltb_spec k T); [|reflexivity]. replace (T - (T - r))%nat with r by lia.
  destruct (Nat.ltb_spec 1 r), (Nat.leb_spec r 1); try lia; [|reflexivity]. replace (r + (k - (T - r)))%nat with (r + (k + r - T))%nat by lia. reflexivity.
Qed.
Lemma tent_range wl wr rising l r T k : window_type wl -> window_type wr -> 0 <= tent wl wr rising l r T k <= 1.
Proof.
  intros (A1 & A2 & A3) (B1 & B2 & B3). unfold tent.
  repeat match goal with |- context [if ?b then _ else _] => destruct b end; auto; lra.
Qed.
Lemma tent_one wl wr rising l r T k : window_type wr -> (l <= k)%nat -> (k < T)%nat -> (k + r <= T)%nat -> tent wl wr rising l r T k = 1.
Proof.
  intros (B1 & B2 & B3) H1 H2 H3. unfold tent. destruct (Nat.ltb_spec k l); [lia|]. destruct (Nat.ltb_spec (k + r) T); auto.
  destruct (Nat.ltb_spec k T); [|lia]. destruct (Nat.leb_spec r 1); auto. replace (r + (k + r - T))%nat with r by lia. apply B3. lia.
Qed.
Lemma hann_type : window_type hann.
Proof. split. apply hann_length. split. intros; apply hann_range. intros. now apply hann_mid. Qed.
Lemma nth_pad0 (v : list R) n k : nth k (v ++ repeat 0 n) 0 = nth k v 0.
Proof.
  destruct (Nat.lt_ge_cases k (length v)). now rewrite app_nth1. rewrite app_nth2, (nth_overflow v) by auto. apply nth_repeat.
Qed.
Lemma nth_front0 (v : list R) n k : nth k (repeat 0 n ++ v) 0 = at_pos v (Z.of_nat k - Z.of_nat n).
Proof.
  unfold at_pos. destruct (Z.ltb_spec (Z.of_nat k - Z.of_nat n) 0).
  - rewrite app_nth1 by (rewrite repeat_length; lia). apply nth_repeat.
  - rewrite app_nth2 by (rewrite repeat_length; lia). rewrite repeat_length. f_equal. lia.
Qed.
Lemma nth_skip (v : list R) n k : nth k (skipn n v) 0 = nth (n + k) v 0.
Proof. apply nth_skipn. Qed.
Lemma nth_first (v : list R) n k : (k < n)%nat -> nth k (firstn n v) 0 = nth k v 0.
Proof. intros H. pose proof (get_firstn (HA := CRing_R) v n k) as E. destruct (Nat.ltb_spec k n); [exact E|lia]. Qed.
Lemma at_pos_skip (v : list R) n z : (0 <= z)%Z -> at_pos (skipn n v) z = at_pos v (z + Z.of_nat n).
Proof.
  intros H. unfold at_pos. destruct (Z.ltb_spec z 0), (Z.ltb_spec (z + Z.of_nat n) 0); try lia. rewrite nth_skip. f_equal. lia.
Qed.
Lemma at_pos_front v n z : at_pos (repeat 0 n ++ v) z = at_pos v (z - Z.of_nat n).
Proof.
  unfold at_pos at 1. destruct (Z.ltb_spec z 0). unfold at_pos. destruct (Z.ltb_spec (z - Z.of_nat n) 0); [reflexivity|lia].
  rewrite nth_front0. f_equal. lia.
Qed.
Lemma at_pos_nat v k : at_pos v (Z.of_nat k) = nth k v 0.
Proof. unfold at_pos. destruct (Z.ltb_spec (Z.of_nat k) 0); [lia|]. now rewrite Nat2Z.id. Qed.
Lemma asked_sum T c ratio l r : 0 <= c < 1 -> 0 <= ratio -> asked_flanks T c ratio l r -> (l < T)%nat -> (l + r <= T)%nat.
Proof.
  intros Hc Hr (F & [A1 A2] & [B1 B2] & E) H. assert (F <= T)%nat. { apply INR_le. pose proof (pos_INR T). nra. } lia.
Qed.
(** the flanks leave at least the constant part which is asked for *)
Lemma asked_const T c ratio l r o : 0 <= c < 1 -> 0 <= ratio -> asked_flanks T c ratio l r -> INR o <= c * INR T -> (l + o < T)%nat -> (l + o + r <= T)%nat.
Proof.
  intros Hc Hr (F & [A1 A2] & [B1 B2] & E) Ho H.
  assert (F + o <= T)%nat. { apply INR_le. rewrite plus_INR. lra. } lia.
Qed.

(** ** The design without adaptation *)
Theorem C83_fixed (wl wr : nat -> list R) (T : nat) (c ratio : R) (rising : bool) (o l r P : nat) (x : list R) :
  window_type wl -> window_type wr -> 0 <= c < 1 -> 0 <= ratio -> INR o <= c * INR T -> asked_flanks T c ratio l r -> (l + o < T)%nat ->
  first_peak x P -> (o <= P)%nat ->
  let z := (Z.of_nat P - Z.of_nat o - Z.of_nat l)%Z in
  exists res, window_fixed wl wr T c rising o ratio x = Ok res /\ seen_from x z T (w_out res) (w_win res) /\
    (forall k, (k < T)%nat -> nth k (w_win res) 0 = if ((0 <=? z + Z.of_nat k) && (z + Z.of_nat k <? Z.of_nat (length x)))%Z%bool then tent wl wr rising l r T k else 0) /\
    nth (l + o) (w_win res) 0 = 1 /\ nth (l + o) (w_out res) 0 = nth P x 0 /\ w_start res = Z.abs_nat z.
Proof.
  intros Hl Hr Hc Hra Ho Hf Hlo Hp HoP z. pose proof Hp as (HP & _ & _).
  pose proof (asked_const _ _ _ _ _ _ Hc Hra Hf Ho Hlo) as Hsum.
  destruct (flank_window_ok wl wr rising l r T Hl Hr ltac:(lia)) as (w & Ew & Lw & Vw).
  unfold window_fixed. rewrite (flanks_eq _ _ _ _ _ Hf), (peak_index_spec _ _ Hp).
  destruct (Nat.ltb_spec P o); [lia|].
  set (q := if (P - o <? l)%nat then _ else _).
  assert (Hq : exists v2 st2 pl2, q = (v2, st2, pl2) /\ st2 = Z.abs_nat z /\ pl2 = Z.to_nat (- z) /\ (0 < length v2)%nat /\ Z.of_nat (length v2) = (Z.of_nat (length x) - z)%Z /\
    forall k, nth k v2 0 = at_pos x (z + Z.of_nat k)).
  { unfold q. destruct (Nat.ltb_spec (P - o) l).
    - do 3 eexists. split; [reflexivity|]. repeat split; try lia. rewrite app_length, repeat_length. lia. rewrite app_length, repeat_length. lia.
      intros k. rewrite nth_front0. f_equal. lia.
    - do 3 eexists. split; [reflexivity|]. repeat split; try lia. rewrite skipn_length. lia. rewrite skipn_length. lia.
      intros k. rewrite nth_skip. replace (z + Z.of_nat k)%Z with (Z.of_nat (P - o - l + k)) by lia. now rewrite at_pos_nat. }
  destruct Hq as (v2 & st2 & pl2 & -> & Es & Ep & L0 & L2 & V2). cbn zeta beta.
  set (q2 := if (length v2 <? T)%nat then _ else _).
  assert (Hq : exists v3 pr, q2 = (v3, pr) /\ pr = (T - length v2)%nat /\ length v3 = T /\ forall k, (k < T)%nat -> nth k v3 0 = at_pos x (z + Z.of_nat k)).
  { unfold q2. destruct (Nat.ltb_spec (length v2) T).
    - do 2 eexists. split; [reflexivity|]. split; auto. split. rewrite app_length, repeat_length. lia. intros. now rewrite nth_pad0.
    - do 2 eexists. split; [reflexivity|]. split; [lia|]. split. rewrite firstn_length. lia. intros. now rewrite nth_first. }
  destruct Hq as (v3 & pr & -> & Er & L3 & V3). rewrite Ew. cbn [bind].
  set (w1 := repeat 0 (Nat.min pl2 (length w)) ++ skipn pl2 w). set (w2 := if (pr =? 0)%nat then w1 else _).
  assert (L1 : length w1 = T). { unfold w1. rewrite app_length, repeat_length, skipn_length. lia. }
  assert (Lw2 : length w2 = T). { unfold w2. destruct (Nat.eqb_spec pr 0); auto. rewrite app_length, firstn_length, repeat_length. lia. }
  assert (V1 : forall k, (k < T)%nat -> nth k w1 0 = if (0 <=? z + Z.of_nat k)%Z then tent wl wr rising l r T k else 0).
  { intros k Hk. unfold w1. destruct (Z.leb_spec 0 (z + Z.of_nat k)).
    - rewrite app_nth2 by (rewrite repeat_length; lia). rewrite repeat_length, nth_skip, <- Vw by auto. f_equal. lia.
    - rewrite app_nth1 by (rewrite repeat_length; lia). apply nth_repeat. }
  assert (Vw2 : forall k, (k < T)%nat -> nth k w2 0 = if ((0 <=? z + Z.of_nat k) && (z + Z.of_nat k <? Z.of_nat (length x)))%Z%bool then tent wl wr rising l r T k else 0).
  { intros k Hk. unfold w2. destruct (Nat.eqb_spec pr 0).
    - rewrite V1 by auto. destruct (Z.ltb_spec (z + Z.of_nat k) (Z.of_nat (length x))); [|lia]. now rewrite andb_true_r.
    - destruct (Z.ltb_spec (z + Z.of_nat k) (Z.of_nat (length x))).
      + rewrite andb_true_r. rewrite app_nth1 by (rewrite firstn_length; lia). rewrite nth_first by lia. now apply V1.
      + rewrite andb_false_r. rewrite app_nth2 by (rewrite firstn_length; lia). apply nth_repeat. }
  assert (Wp : nth (l + o) w2 0 = 1).
  { rewrite Vw2 by auto. destruct (Z.leb_spec 0 (z + Z.of_nat (l + o))); [|lia]. destruct (Z.ltb_spec (z + Z.of_nat (l + o)) (Z.of_nat (length x))); [|lia]. cbn [andb]. apply tent_one; auto; lia. }
  eexists. split; [reflexivity|]. cbn [w_out w_win w_start]. split.
  { split. rewrite times_length; lia. split; auto. intros k Hk. split.
    - rewrite Vw2 by auto. destruct (_ && _)%bool; [now apply tent_range|lra].
    - rewrite times_nth by lia. now rewrite V3. }
  split; auto. split; auto. split; auto.
  rewrite times_nth by lia. rewrite Wp, V3 by auto. replace (z + Z.of_nat (l + o))%Z with (Z.of_nat P) by lia. rewrite at_pos_nat. ring.
Qed.
Print Assumptions C83_fixed.

(** When the peak comes earlier than the offset the offset is not kept: the window is set to zero on the first max (l, o) - P samples (o - P samples too
    many by the trimmed padding), while the peak is placed at position l. *)
Theorem C83_fixed_early_refuted (wl wr : nat -> list R) (T : nat) (c ratio : R) (rising : bool) (o l r P : nat) (x : list R) :
  window_type wl -> window_type wr -> 0 <= c < 1 -> 0 <= ratio -> INR o <= c * INR T -> asked_flanks T c ratio l r -> (l + o < T)%nat ->
  first_peak x P -> (P < o)%nat ->
  exists res, window_fixed wl wr T c rising o ratio x = Ok res /\ seen_from x (Z.of_nat P - Z.of_nat l) T (w_out res) (w_win res) /\
    (forall k, (k < T)%nat -> nth k (w_win res) 0 =
      if ((Nat.max l o - P <=? k)%nat && (Z.of_nat P - Z.of_nat l + Z.of_nat k <? Z.of_nat (length x))%Z)%bool then tent wl wr rising l r T k else 0) /\
    nth l (w_out res) 0 = (if (o <=? P + l)%nat then nth P x 0 else 0).
Proof.
  intros Hl Hr Hc Hra Ho Hf Hlo Hp HoP. pose proof Hp as (HP & _ & _).
  pose proof (asked_const _ _ _ _ _ _ Hc Hra Hf Ho Hlo) as Hsum.
  destruct (flank_window_ok wl wr rising l r T Hl Hr ltac:(lia)) as (w & Ew & Lw & Vw).
  unfold window_fixed. rewrite (flanks_eq _ _ _ _ _ Hf), (peak_index_spec _ _ Hp).
  destruct (Nat.ltb_spec P o); [|lia]. replace (P + (o - P))%nat with o by lia.
  set (z := (Z.of_nat P - Z.of_nat l)%Z).
  set (q := if (o <? l)%nat then _ else _).
  assert (Hq : exists v2 st2 pl2, q = (v2, st2, pl2) /\ pl2 = (Nat.max l o - P)%nat /\ (0 < length v2)%nat /\ Z.of_nat (length v2) = (Z.of_nat (length x) - z)%Z /\
    forall k, nth k v2 0 = at_pos x (z + Z.of_nat k)).
  { unfold q. destruct (Nat.ltb_spec o l).
    - do 3 eexists. split; [reflexivity|]. repeat split; try lia. rewrite !app_length, !repeat_length. lia. rewrite !app_length, !repeat_length. lia.
      intros k. rewrite nth_front0, at_pos_front. f_equal. lia.
    - do 3 eexists. split; [reflexivity|]. repeat split; try lia. rewrite skipn_length, app_length, repeat_length. lia. rewrite skipn_length, app_length, repeat_length. lia.
      intros k. rewrite nth_skip, nth_front0. f_equal. lia. }
  destruct Hq as (v2 & st2 & pl2 & -> & Ep & L0 & L2 & V2). cbn zeta beta.
  set (q2 := if (length v2 <? T)%nat then _ else _).
  assert (Hq : exists v3 pr, q2 = (v3, pr) /\ pr = (T - length v2)%nat /\ length v3 = T /\ forall k, (k < T)%nat -> nth k v3 0 = at_pos x (z + Z.of_nat k)).
  { unfold q2. destruct (Nat.ltb_spec (length v2) T).
    - do 2 eexists. split; [reflexivity|]. split; auto. split. rewrite app_length, repeat_length. lia. intros. now rewrite nth_pad0.
    - do 2 eexists. split; [reflexivity|]. split; [lia|]. split. rewrite firstn_length. lia. intros. now rewrite nth_first. }
  destruct Hq as (v3 & pr & -> & Er & L3 & V3). rewrite Ew. cbn [bind].
  set (w1 := repeat 0 (Nat.min pl2 (length w)) ++ skipn pl2 w). set (w2 := if (pr =? 0)%nat then w1 else _).
  assert (L1 : length w1 = T). { unfold w1. rewrite app_length, repeat_length, skipn_length. lia. }
  assert (Lw2 : length w2 = T). { unfold w2. destruct (Nat.eqb_spec pr 0); auto. rewrite app_length, firstn_length, repeat_length. lia. }
  assert (V1 : forall k, (k < T)%nat -> nth k w1 0 = if (Nat.max l o - P <=? k)%nat then tent wl wr rising l r T k else 0).
  { intros k Hk. unfold w1. destruct (Nat.leb_spec (Nat.max l o - P) k).
    - rewrite app_nth2 by (rewrite repeat_length; lia). rewrite repeat_length, nth_skip, <- Vw by auto. f_equal. lia.
    - rewrite app_nth1 by (rewrite repeat_length; lia). apply nth_repeat. }
  assert (Vw2 : forall k, (k < T)%nat -> nth k w2 0 = if ((Nat.max l o - P <=? k)%nat && (z + Z.of_nat k <? Z.of_nat (length x))%Z)%bool then tent wl wr rising l r T k else 0).
  { intros k Hk. unfold w2. destruct (Nat.eqb_spec pr 0).
    - rewrite V1 by auto. destruct (Z.ltb_spec (z + Z.of_nat k) (Z.of_nat (length x))); [|lia]. now rewrite andb_true_r.
    - destruct (Z.ltb_spec (z + Z.of_nat k) (Z.of_nat (length x))).
      + rewrite andb_true_r. rewrite app_nth1 by (rewrite firstn_length; lia). rewrite nth_first by lia. now apply V1.
      + rewrite andb_false_r. rewrite app_nth2 by (rewrite firstn_length; lia). apply nth_repeat. }
  eexists. split; [reflexivity|]. cbn [w_out w_win w_start]. split.
  { split. rewrite times_length; lia. split; auto. intros k Hk. split.
    - rewrite Vw2 by auto. destruct (_ && _)%bool; [now apply tent_range|lra].
    - rewrite times_nth by lia. now rewrite V3. }
  split; auto.
  rewrite times_nth by lia. rewrite V3, Vw2 by lia. replace (z + Z.of_nat l)%Z with (Z.of_nat P) by lia. rewrite at_pos_nat.
  destruct (Z.ltb_spec (Z.of_nat P) (Z.of_nat (length x))); [|lia]. rewrite andb_true_r.
  destruct (Nat.leb_spec (Nat.max l o - P) l), (Nat.leb_spec o (P + l)); try lia; [|ring]. rewrite tent_one; auto; try lia. ring.
Qed.
Print Assumptions C83_fixed_early_refuted.

(** ** The adaptive design (default) *)
Theorem C83_adaptive (wl wr : nat -> list R) (T : nat) (c ratio : R) (rising : bool) (o l r P : nat) (x : list R) :
  window_type wl -> window_type wr -> 0 <= c < 1 -> 0 <= ratio -> INR o <= c * INR T -> asked_flanks T c ratio l r -> (l + o < T)%nat ->
  first_peak x P -> (o <= P \/ o < length x)%nat ->
  let st := (P - o - l)%nat in let l' := Nat.min l (P - o) in let T' := Nat.min T (length x - st) in
  exists res r', window_adaptive wl wr T c rising o ratio x = Ok res /\ seen_from x (Z.of_nat st) T (w_out res) (w_win res) /\
    r' = Nat.min r (T' - l' - o - (if (l' + o + r <=? T')%nat then 0 else 1)) /\
    (forall k, (k < T)%nat -> nth k (w_win res) 0 = if (k <? T')%nat then tent wl wr rising l' r' T' k else 0) /\
    (P - st < T')%nat /\ nth (P - st) (w_win res) 0 = 1 /\ nth (P - st) (w_out res) 0 = nth P x 0 /\ w_start res = st.
Proof.
  intros Hl Hr Hc Hra Ho Hf Hlo Hp HoP st l' T'. pose proof Hp as (HP & _ & _).
  pose proof (asked_const _ _ _ _ _ _ Hc Hra Hf Ho Hlo) as Hsum.
  unfold window_adaptive. rewrite (flanks_eq _ _ _ _ _ Hf), (peak_index_spec _ _ Hp).
  set (q := if (P <? o + l)%nat then _ else _).
  assert (Hq : q = (l', st, skipn st x)).
  { unfold q. destruct (Nat.ltb_spec P (o + l)).
    - unfold st, l'. replace (P - o - l)%nat with 0%nat by lia. cbn [skipn]. rewrite Nat.min_r by lia. reflexivity.
    - unfold l'. rewrite Nat.min_l by lia. reflexivity. }
  rewrite Hq. cbn zeta beta. clear Hq q.
  assert (F1 : (st <= P)%nat) by lia. assert (F2 : (P - st = l' + o \/ P < o /\ st = 0 /\ l' = 0)%nat) by lia.
  assert (F3 : (T' <= T)%nat) by lia. assert (F4 : (T' = T \/ T' = length x - st)%nat) by lia. assert (F5 : (T' <= length x - st)%nat) by lia.
  assert (HT : (P - st < T')%nat) by lia. assert (Hlt : (l' + o < T')%nat \/ (P < o)%nat /\ (o < T')%nat) by lia.
  clearbody st l' T'.
  assert (Lv : length (skipn st x) = (length x - st)%nat) by apply skipn_length.
  set (v2 := if (T <? length (skipn st x))%nat then _ else _).
  assert (L2 : length v2 = T'). { unfold v2. destruct (Nat.ltb_spec T (length (skipn st x))); rewrite ?firstn_length; lia. }
  assert (V2 : forall k, (k < T')%nat -> nth k v2 0 = nth (st + k) x 0).
  { intros k Hk. unfold v2. destruct (Nat.ltb_spec T (length (skipn st x))). rewrite nth_first by lia. apply nth_skip. apply nth_skip. }
  set (q := if (length v2 <? T)%nat then _ else _). assert (Hq : q = ((T - T')%nat, T')).
  { unfold q. rewrite L2. destruct (Nat.ltb_spec T' T). reflexivity. f_equal; lia. }
  rewrite Hq. clear Hq q. cbn zeta beta.
  set (r1 := if (Z.of_nat T' - Z.of_nat r <? Z.of_nat (l' + o))%Z then _ else _).
  set (r' := Nat.min r (T' - l' - o - (if (l' + o + r <=? T')%nat then 0 else 1))).
  assert (Er : r1 = Z.of_nat r'). { unfold r1, r'. destruct (Z.ltb_spec (Z.of_nat T' - Z.of_nat r) (Z.of_nat (l' + o))), (Nat.leb_spec (l' + o + r) T'); lia. }
  rewrite Er.
  assert (Hr' : (l' + o + r' <= T')%nat). { unfold r'. destruct (Nat.leb_spec (l' + o + r) T'); lia. }
  assert (Er' : r' = Nat.min r (T' - l' - o - (if (l' + o + r <=? T')%nat then 0 else 1))) by reflexivity. clearbody r'.
  destruct (flank_window_ok wl wr rising l' r' T' Hl Hr ltac:(lia)) as (w & Ew & Lw & Vw). rewrite Ew. cbn [bind].
  set (w2 := w ++ repeat 0 (T - T')).
  assert (Lw2 : length w2 = T). { unfold w2. rewrite app_length, repeat_length. lia. }
  assert (Vw2 : forall k, (k < T)%nat -> nth k w2 0 = if (k <? T')%nat then tent wl wr rising l' r' T' k else 0).
  { intros k Hk. unfold w2. rewrite nth_pad0. destruct (Nat.ltb_spec k T'). now apply Vw. apply nth_overflow. lia. }
  assert (Lv2 : length (v2 ++ repeat 0 (T - T')) = T). { rewrite app_length, repeat_length. lia. }
  assert (Wp : nth (P - st) w2 0 = 1).
  { rewrite Vw2 by lia. destruct (Nat.ltb_spec (P - st) T'); [|lia]. apply tent_one; auto; try lia. }
  assert (Vo : forall k, (k < T)%nat -> nth k (times (v2 ++ repeat 0 (T - T')) w2) 0 = at_pos x (Z.of_nat st + Z.of_nat k) * nth k w2 0).
  { intros k Hk. rewrite times_nth by lia. rewrite nth_pad0. replace (Z.of_nat st + Z.of_nat k)%Z with (Z.of_nat (st + k)) by lia. rewrite at_pos_nat.
    destruct (Nat.lt_ge_cases k T'). now rewrite V2. rewrite Vw2 by auto. destruct (Nat.ltb_spec k T'); [lia|]. ring. }
  eexists. exists r'. split; [reflexivity|]. cbn [w_out w_win w_start]. split.
  { split. rewrite times_length; lia. split; auto. intros k Hk. split; auto. rewrite Vw2 by auto. destruct (k <? T')%nat; [now apply tent_range|lra]. }
  split; auto. split; auto. split; auto. split; auto. split; auto.
  rewrite Vo by lia. rewrite Wp. replace (Z.of_nat st + Z.of_nat (P - st))%Z with (Z.of_nat P) by lia. rewrite at_pos_nat. ring.
Qed.
Print Assumptions C83_adaptive.

(** ** Concrete case: 8 samples, half of them constant, offset 1 *)
Definition ir8 : list R := [0; 0; 0; 1; 1 / 2; 0; 0; 0; 0; 0].
Lemma floors_at r (n : nat) : r = INR n -> floors r n.
Proof. intros ->. unfold floors. lra. Qed.
Lemma flanks8 : asked_flanks 8 (1 / 2) 1 2 2.
Proof. exists 4%nat. split. apply floors_at. simpl. lra. split. apply floors_at. simpl. lra. reflexivity. Qed.
Lemma peak8 : first_peak ir8 3.
Proof.
  unfold first_peak, ir8. cbn [length]. rewrite (Rabs_pos_eq (nth 3 _ 0)) by (cbn [nth]; lra).
  split; [lia|]. split; intros j Hj; do 10 (destruct j as [|j]; [cbn [nth]; rewrite ?Rabs_R0, ?Rabs_R1, ?(Rabs_pos_eq (1 / 2)) by lra; try lra; try lia|]); lia.
Qed.
Example C83_fixed_case : exists res, window_fixed hann hann 8 (1 / 2) true 1 1 ir8 = Ok res /\ w_start res = 0%nat /\
  nth 3 (w_out res) 0 = 1 /\ nth 1 (w_win res) 0 = 1 / 2.
Proof.
  destruct (C83_fixed hann hann 8 (1 / 2) 1 true 1 2 2 3 ir8 hann_type hann_type ltac:(lra) ltac:(lra) ltac:(simpl; lra) flanks8 ltac:(lia) peak8 ltac:(lia)) as (res & E & _ & W & _ & O & S').
  exists res. split; [exact E|]. split; [exact S'|]. split; [exact O|]. rewrite W by lia. cbn [length ir8 andb]. unfold tent. cbn [Nat.ltb Nat.leb].
  change (0 <=? _)%Z with true. change (_ <? _)%Z with true. cbn [andb]. rewrite nth_get. unfold hann. rewrite (get_mk (HA := CRing_R)) by lia.
  replace (2 * PI * INR 1 / INR (2 * 2)) with (PI / 2) by (simpl; field). rewrite cos_PI2. lra.
Qed.
Example C83_adaptive_case : exists res, window_adaptive hann hann 8 (1 / 2) true 1 1 ir8 = Ok res /\ w_start res = 0%nat /\ nth 3 (w_out res) 0 = 1.
Proof.
  destruct (C83_adaptive hann hann 8 (1 / 2) 1 true 1 2 2 3 ir8 hann_type hann_type ltac:(lra) ltac:(lra) ltac:(simpl; lra) flanks8 ltac:(lia) peak8 ltac:(lia)) as (res & r' & E & _ & _ & _ & _ & _ & O & S').
  exists res. split; [exact E|]. split; [exact S'|]. exact O.
Qed.
(** an impulse at the start, offset 4, left flank of 2 samples: everything which is left is zero *)
Definition ir_early : list R := [1; 0; 0].
Lemma peak_early : first_peak ir_early 0.
Proof.
  unfold first_peak, ir_early. cbn [length]. rewrite (Rabs_pos_eq (nth 0 _ 0)) by (cbn [nth]; lra).
  split; [lia|]. split; intros j Hj; [|lia]. do 3 (destruct j as [|j]; [cbn [nth]; rewrite ?Rabs_R0, ?Rabs_R1; try lra; try lia|]); lia.
Qed.
Example C83_fixed_early_case : exists res, window_fixed hann hann 8 (1 / 2) true 4 1 ir_early = Ok res /\ forall k, (k < 8)%nat -> nth k (w_out res) 0 = 0.
Proof.
  destruct (C83_fixed_early_refuted hann hann 8 (1 / 2) 1 true 4 2 2 0 ir_early hann_type hann_type ltac:(lra) ltac:(lra) ltac:(simpl; lra) flanks8 ltac:(lia) peak_early ltac:(lia)) as (res & E & (_ & _ & Sn) & W & O).
  exists res. split; [exact E|]. intros k Hk. destruct (Sn k Hk) as (_ & ->). specialize (W k Hk). 
  destruct (Nat.eq_dec k 2) as [->|N]. { cbn in W. rewrite W. ring. }
  unfold at_pos. destruct (Z.ltb_spec (Z.of_nat 0 - Z.of_nat 2 + Z.of_nat k) 0). ring.
  replace (nth _ ir_early 0) with 0. ring. unfold ir_early. destruct (Z.to_nat (Z.of_nat 0 - Z.of_nat 2 + Z.of_nat k)) as [|[|[|j]]] eqn:Ej; auto. lia. destruct j; reflexivity.
Qed.

(** The adaptive design fails on a response which is shorter than the offset, although the arguments pass all checks. *)
Theorem C83_adaptive_short_refuted (wl wr : nat -> list R) (T : nat) (c ratio : R) (rising : bool) (o l r P : nat) (x : list R) :
  asked_flanks T c ratio l r -> (l + o < T)%nat -> first_peak x P -> (P < o)%nat -> (length x <= o)%nat -> (length x < o + r)%nat ->
  window_adaptive wl wr T c rising o ratio x = Err AssertionError.
Proof.
  intros Hf Hlo Hp HoP HL HLr. pose proof Hp as (HP & _ & _). unfold window_adaptive. rewrite (flanks_eq _ _ _ _ _ Hf), (peak_index_spec _ _ Hp).
  destruct (Nat.ltb_spec P (o + l)); [|lia]. replace (P - o)%nat with 0%nat by lia. destruct (Nat.ltb_spec T (length x)); [lia|].
  destruct (Nat.ltb_spec (length x) T); [|lia]. cbn [Nat.add]. destruct (Z.ltb_spec (Z.of_nat (length x) - Z.of_nat r) (Z.of_nat o)); [|lia].
  unfold flank_window. destruct (Z.ltb_spec (Z.of_nat (length x)) (Z.of_nat (length x) - (Z.of_nat (length x) - Z.of_nat 0 - Z.of_nat o - 1))); [|lia].
  now rewrite orb_true_r.
Qed.
Print Assumptions C83_adaptive_short_refuted.
Example C83_adaptive_short_case : window_adaptive hann hann 8 (1 / 2) true 4 1 ir_early = Err AssertionError.
Proof. apply (C83_adaptive_short_refuted _ _ _ _ _ _ _ 2 2 0). exact flanks8. lia. exact peak_early. lia. simpl; lia. simpl; lia. Qed.

(** A ratio of 2 between the flanks (documented: the left one twice as long) leaves no right flank: the window ends with ones. *)
Theorem C83_ratio_refuted (wl wr : nat -> list R) (T : nat) (c ratio : R) (rising : bool) (o l r P : nat) (x : list R) :
  window_type wl -> window_type wr -> 0 <= c < 1 -> 2 <= ratio -> INR o <= c * INR T -> asked_flanks T c ratio l r -> (l + o < T)%nat ->
  first_peak x P -> (o <= P \/ o < length x)%nat ->
  exists res, window_adaptive wl wr T c rising o ratio x = Ok res /\
  forall k, (Nat.min l (P - o) <= k)%nat -> (k < Nat.min T (length x - (P - o - l)))%nat -> nth k (w_win res) 0 = 1.
Proof.
  intros Hl Hr Hc Hra Ho Hf Hlo Hp HoP.
  assert (Er : r = 0%nat). { destruct Hf as (F & [A1 A2] & [B1 B2] & E). assert (INR F < INR (l + 1)) by (rewrite plus_INR; simpl (INR 1); pose proof (pos_INR F); nra). apply INR_lt in H. lia. }
  subst r. destruct (C83_adaptive wl wr T c ratio rising o l 0 P x Hl Hr Hc ltac:(lra) Ho Hf Hlo Hp HoP) as (res & r' & E & _ & Er & W & _).
  exists res. split; [exact E|]. intros k H1 H2. rewrite W by lia. destruct (Nat.ltb_spec k (Nat.min T (length x - (P - o - l)))); [|lia].
  assert (r' = 0%nat) by lia. subst r'. apply tent_one; auto. lia.
Qed.
Print Assumptions C83_ratio_refuted.
(** the flanks asked for are 2 + 1, the flanks made are 3 + 0 *)
Example C83_ratio_case : exists res, window_adaptive hann hann 6 (1 / 2) true 0 2 ir8 = Ok res /\ nth 5 (w_win res) 0 = 1.
Proof.
  assert (Hf : asked_flanks 6 (1 / 2) 2 3 0). { exists 3%nat. split. apply floors_at. simpl. lra. split. apply floors_at. simpl. lra. reflexivity. }
  destruct (C83_ratio_refuted hann hann 6 (1 / 2) 2 true 0 3 0 3 ir8 hann_type hann_type ltac:(lra) ltac:(lra) ltac:(simpl; lra) Hf ltac:(lia) peak8 ltac:(lia)) as (res & E & W).
  exists res. split; [exact E|]. apply W; simpl; lia.
Qed.

(** The largest offset which passes the checks can put the peak behind the end of the window. *)
Theorem C83_lost_peak_refuted (wl wr : nat -> list R) (T : nat) (c ratio : R) (rising : bool) (o l r P : nat) (x : list R) :
  window_type wl -> window_type wr -> 0 <= c < 1 -> 0 <= ratio -> INR o <= c * INR T -> asked_flanks T c ratio l r -> (l + o = T)%nat ->
  first_peak x P -> (T <= P)%nat ->
  exists res, window_adaptive wl wr T c rising o ratio x = Ok res /\ length (w_out res) = T /\
  forall k, (k < T)%nat -> nth k (w_out res) 0 = nth (P - T + k) x 0 * nth k (w_win res) 0.
Proof.
  intros Hl Hr Hc Hra Ho Hf Hlo Hp HoP. pose proof Hp as (HP & _ & _).
  assert (Er : r = 0%nat). { destruct Hf as (F & [A1 A2] & [B1 B2] & E). assert (F + o <= T)%nat. { apply INR_le. rewrite plus_INR. lra. } lia. }
  subst r. unfold window_adaptive. rewrite (flanks_eq _ _ _ _ _ Hf), (peak_index_spec _ _ Hp). destruct (Nat.ltb_spec P (o + l)); [lia|].
  replace (P - o - l)%nat with (P - T)%nat by lia. assert (Lv : length (skipn (P - T) x) = (length x - (P - T))%nat) by apply skipn_length.
  destruct (Nat.ltb_spec T (length (skipn (P - T) x))); [|lia]. assert (L2 : length (firstn T (skipn (P - T) x)) = T) by (rewrite firstn_length; lia).
  rewrite L2. destruct (Nat.ltb_spec T T); [lia|]. destruct (Z.ltb_spec (Z.of_nat T - Z.of_nat 0) (Z.of_nat (l + o))); [lia|].
  destruct (flank_window_ok wl wr rising l 0 T Hl Hr ltac:(lia)) as (w & Ew & Lw & Vw). rewrite Ew. cbn [bind repeat]. rewrite !app_nil_r.
  eexists. split; [reflexivity|]. cbn [w_out w_win]. split. rewrite times_length; lia. intros k Hk. rewrite times_nth by lia. rewrite nth_first, nth_skip by auto. reflexivity.
Qed.
Print Assumptions C83_lost_peak_refuted.
(** a unit impulse at position 9, window of 4 samples *)
Example C83_lost_peak_case : exists res, window_adaptive hann hann 4 (1 / 2) true 2 2 (repeat 0 9 ++ [1]) = Ok res /\ forall k, (k < 4)%nat -> nth k (w_out res) 0 = 0.
Proof.
  assert (Hf : asked_flanks 4 (1 / 2) 2 2 0). { exists 2%nat. split. apply floors_at. simpl. lra. split. apply floors_at. simpl. lra. reflexivity. }
  assert (Hp : first_peak (repeat 0 9 ++ [1]) 9).
  { unfold first_peak. cbn [repeat app length]. rewrite (Rabs_pos_eq (nth 9 _ 0)) by (cbn [nth]; lra).
    split; [lia|]. split; intros j Hj; do 10 (destruct j as [|j]; [cbn [nth]; rewrite ?Rabs_R0, ?Rabs_R1 by lra; try lra; try lia|]); lia. }
  destruct (C83_lost_peak_refuted hann hann 4 (1 / 2) 2 true 2 2 0 9 _ hann_type hann_type ltac:(lra) ltac:(lra) ltac:(simpl; lra) Hf ltac:(lia) Hp ltac:(lia)) as (res & E & L & W).
  exists res. split; [exact E|]. intros k Hk. rewrite W by auto. replace (nth (9 - 4 + k) _ 0) with 0. ring. do 4 (destruct k as [|k]; [reflexivity|]). lia.
Qed.

(** ** The whole function on a signal *)
Lemma rmul_bound a b : Rabs a <= 1 -> 0 <= b <= 1 -> Rabs (a * b) <= 1.
Proof. intros H1 H2. rewrite Rabs_mult, (Rabs_pos_eq b) by lra. pose proof (Rabs_pos a). nra. Qed.
Lemma at_pos_bound x z : (forall i, (i < length x)%nat -> Rabs (nth i x 0) <= 1) -> Rabs (at_pos x z) <= 1.
Proof.
  intros H. unfold at_pos. destruct (Z.ltb_spec z 0). rewrite Rabs_R0. lra.
  destruct (Nat.lt_ge_cases (Z.to_nat z) (length x)). auto. rewrite nth_overflow, Rabs_R0 by auto. lra.
Qed.
Lemma collect_ok s n k T (ws : list windowed) (z : nat -> Z) : sig_ok s n k -> (k <= T)%nat -> (2 <= T)%nat -> length ws = k ->
  (forall c, (c < k)%nat -> seen_from (nth c (s_re s) []) (z c) T (w_out (nth c ws (mkW [] [] 0))) (w_win (nth c ws (mkW [] [] 0)))) ->
  collect s ws = Ok (mkSig (map w_out ws) None 1 (s_constr s) (s_fs s), map w_win ws, map w_start ws).
Proof.
  intros [K1 K2 K3 K4 K5 K6 K7] HkT HT Hk Hs. set (d := mkW [] [] 0) in *.
  assert (Sh : shape (map w_out ws) T k).
  { rewrite <- Hk. apply shape_mk_map. intros w Hw. apply (In_nth _ _ d) in Hw. destruct Hw as (c & Hc & <-). apply Hs. lia. }
  assert (Sw : shape (map w_win ws) T k).
  { rewrite <- Hk. apply shape_mk_map. intros w Hw. apply (In_nth _ _ d) in Hw. destruct Hw as (c & Hc & <-). apply Hs. lia. }
  unfold collect, set_data. rewrite (set_identity _ _ _ T k); auto.
  - cbn [bind i_re s_re i_im]. unfold same_shape. rewrite !(shape_nrows _ T k), !(shape_ncols _ T k), !Nat.eqb_refl by auto. reflexivity.
  - split; [exact Sh|]. simpl. discriminate.
  - intros Hc. split; [|discriminate]. intros i c Hi Hcc. cbn [i_re]. rewrite (entry_map w_out ws d) by lia. destruct (Hs c Hcc) as (A & B & D).
    destruct (D i Hi) as (D1 & ->). apply rmul_bound; auto. apply at_pos_bound. intros j Hj. rewrite (shape_col _ n k) in Hj by auto. now apply (K6 Hc).
Qed.
Theorem C83_window_ir (wl wr : nat -> list R) (T : nat) (adaptive : bool) (c ratio : R) (rising : bool) (o l r n k : nat) (P : nat -> nat) (s : signal) :
  window_type wl -> window_type wr -> 0 <= c < 1 -> 0 <= ratio -> INR o <= c * INR T -> asked_flanks T c ratio l r -> (l + o < T)%nat ->
  sig_ok s n k -> (k <= T)%nat -> (2 <= T)%nat ->
  (forall ch, (ch < k)%nat -> first_peak (nth ch (s_re s) []) (P ch) /\ (o <= P ch \/ adaptive = true /\ o < n)%nat) ->
  exists s' win starts, window_ir wl wr T adaptive c rising o ratio s = Ok (s', win, starts) /\
    s_fs s' = s_fs s /\ s_constr s' = s_constr s /\ s_scale s' = 1 /\ shape (s_re s') T k /\ shape win T k /\
    forall ch, (ch < k)%nat -> let z := if adaptive then Z.of_nat (P ch - o - l) else (Z.of_nat (P ch) - Z.of_nat o - Z.of_nat l)%Z in
      seen_from (nth ch (s_re s) []) z T (nth ch (s_re s') []) (nth ch win []) /\ nth ch starts 0%nat = Z.abs_nat z /\
      let p := Z.to_nat (Z.of_nat (P ch) - z) in (p < T)%nat /\ nth p (nth ch win []) 0 = 1 /\ nth p (nth ch (s_re s') []) 0 = nth (P ch) (nth ch (s_re s) []) 0.
Proof.
  intros Hl Hr Hc Hra Ho Hf Hlo Hs HkT HT Hch. pose proof Hs as [K1 K2 K3 K4 K5 K6 K7].
  set (f := (if adaptive then window_adaptive else window_fixed) wl wr T c rising o ratio).
  set (z := fun ch => if adaptive then Z.of_nat (P ch - o - l) else (Z.of_nat (P ch) - Z.of_nat o - Z.of_nat l)%Z).
  assert (One : forall ch, (ch < k)%nat -> exists res, f (nth ch (s_re s) []) = Ok res /\ seen_from (nth ch (s_re s) []) (z ch) T (w_out res) (w_win res) /\ w_start res = Z.abs_nat (z ch) /\
     let p := Z.to_nat (Z.of_nat (P ch) - z ch) in (p < T)%nat /\ nth p (w_win res) 0 = 1 /\ nth p (w_out res) 0 = nth (P ch) (nth ch (s_re s) []) 0).
  { intros ch Hcc. destruct (Hch ch Hcc) as (Hp & HoP). unfold f, z. destruct adaptive.
    - assert (Q : (o <= P ch \/ o < length (nth ch (s_re s) []))%nat). { rewrite (shape_col _ n k) by auto. lia. }
      destruct (C83_adaptive wl wr T c ratio rising o l r (P ch) _ Hl Hr Hc Hra Ho Hf Hlo Hp Q) as (res & r' & E & A & _ & _ & B & D & F & G).
      exists res. split; [exact E|]. split; [exact A|]. rewrite G. split; [lia|]. replace (Z.to_nat (Z.of_nat (P ch) - Z.of_nat (P ch - o - l))) with (P ch - (P ch - o - l))%nat by lia.
      split; [lia|]. split; auto.
    - destruct HoP as [HoP|[HoP _]]; [|discriminate].
      destruct (C83_fixed wl wr T c ratio rising o l r (P ch) _ Hl Hr Hc Hra Ho Hf Hlo Hp HoP) as (res & E & A & _ & B & D & F).
      exists res. split; [exact E|]. split; [exact A|]. split; [exact F|]. replace (Z.to_nat _) with (l + o)%nat by lia. split; [lia|]. split; auto. }
  assert (All : exists ws, length ws = k /\ map f (s_re s) = map Ok ws /\ forall ch, (ch < k)%nat -> f (nth ch (s_re s) []) = Ok (nth ch ws (mkW [] [] 0))).
  { set (g := fun x => match f x with Ok w => w | Err _ => mkW [] [] 0 end). exists (map g (s_re s)). destruct K4 as [La _]. split. now rewrite map_length.
    assert (Q : forall ch, (ch < k)%nat -> f (nth ch (s_re s) []) = Ok (g (nth ch (s_re s) []))). { intros ch Hcc. destruct (One ch Hcc) as (res & E & _). unfold g. now rewrite E. }
    split.
    - rewrite map_map. apply map_ext_in. intros x Hx. apply (In_nth _ _ []) in Hx. destruct Hx as (ch & Hcc & <-). apply Q. lia.
    - intros ch Hcc. rewrite Q by auto. f_equal. symmetry. rewrite (nth_map' g (s_re s) ch []) by lia. reflexivity. }
  destruct All as (ws & Lws & Ews & Vws). set (d := mkW [] [] 0) in *.
  assert (Two : forall ch, (ch < k)%nat -> seen_from (nth ch (s_re s) []) (z ch) T (w_out (nth ch ws d)) (w_win (nth ch ws d)) /\ w_start (nth ch ws d) = Z.abs_nat (z ch) /\
     let p := Z.to_nat (Z.of_nat (P ch) - z ch) in (p < T)%nat /\ nth p (w_win (nth ch ws d)) 0 = 1 /\ nth p (w_out (nth ch ws d)) 0 = nth (P ch) (nth ch (s_re s) []) 0).
  { intros ch Hcc. destruct (One ch Hcc) as (res & E & A). rewrite Vws in E by auto. injection E as <-. exact A. }
  do 3 eexists. split.
  { unfold window_ir. destruct (Rlt_dec c 1); [|exfalso; tauto]. destruct (Rle_dec 0 c); [|exfalso; tauto]. destruct (Rle_dec (INR o) (c * INR T)); [|exfalso; tauto]. destruct (Rle_dec 0 ratio); [|exfalso; tauto].
    fold f. rewrite (seq_result_ok _ _ ws Ews). cbn [bind]. apply (collect_ok s n k T ws z); auto. intros ch Hcc. apply Two; auto. }
  cbn [s_fs s_constr s_scale s_re]. split; auto. split; auto. split; auto.
  split. { rewrite <- Lws. apply shape_mk_map. intros w Hw. apply (In_nth _ _ d) in Hw. destruct Hw as (ch & Hcc & <-). apply (Two ch). lia. }
  split. { rewrite <- Lws. apply shape_mk_map. intros w Hw. apply (In_nth _ _ d) in Hw. destruct Hw as (ch & Hcc & <-). apply (Two ch). lia. }
  intros ch Hcc. rewrite (nth_map' w_out ws ch d) by lia. rewrite (nth_map' w_win ws ch d) by lia. rewrite (nth_map' w_start ws ch d) by lia.
  destruct (Two ch Hcc) as (A & B & D). split; auto.
Qed.
Print Assumptions C83_window_ir.
Example C83_window_ir_case : exists s' win starts, window_ir hann hann 8 true (1 / 2) true 1 1 (mkSig [ir8] None 1 true 48000) = Ok (s', win, starts) /\ nth 0 starts 7%nat = 0%nat /\ entry (s_re s') 3 0 = 1.
Proof.
  assert (Hs : sig_ok (mkSig [ir8] None 1 true 48000) 10 1).
  { constructor; cbn [s_re s_im s_constr]; try lia; try discriminate. split; auto.
    intros _ i ch Hi Hch. destruct ch; [|lia]. unfold entry. cbn [nth]. pose proof peak8 as (_ & Q & _). specialize (Q i Hi). replace (nth 3 ir8 0) with 1 in Q by reflexivity. now rewrite Rabs_R1 in Q. }
  destruct (C83_window_ir hann hann 8 true (1 / 2) 1 true 1 2 2 10 1 (fun _ => 3%nat) _ hann_type hann_type ltac:(lra) ltac:(lra) ltac:(simpl; lra) flanks8 ltac:(lia) Hs ltac:(lia) ltac:(lia)) as (s' & win & starts & E & _ & _ & _ & _ & _ & Q).
  { intros ch Hch. assert (ch = 0%nat) by lia. subst ch. split; [exact peak8|]. left. lia. }
  exists s', win, starts. split; [exact E|]. destruct (Q 0%nat ltac:(lia)) as (_ & B & _ & _ & D). cbn in B, D. split.
  - destruct starts; cbn in *; auto. exfalso. unfold window_ir in E. repeat (destruct (Rlt_dec _ _) in E || destruct (Rle_dec _ _) in E; try discriminate E). cbn [s_re map] in E.
    destruct (window_adaptive hann hann 8 (1 / 2) true 1 1 ir8); cbn in E; [|discriminate]. unfold collect in E. destruct (set_data _ _); cbn [bind] in E; [|discriminate]. destruct (same_shape _ _); discriminate.
  - unfold entry. exact D.
Qed.

(** ** window_ir_tukey *)
(** the flanks in samples: rounded durations *)
Definition flank_len (d : option R) (fs : R) (l : nat) : Prop := match d with None => l = 0%nat | Some t => floors (t * fs + 1 / 2) l end.
Definition tukey_gain (w : nat -> list R) (l r n k : nat) : R :=
  if (k <? l)%nat then nth k (w (l * 2)%nat) 0 else if (n <=? k + r)%nat then nth (r + (k + r - n)) (w (r * 2)%nat) 0 else 1.
Lemma tukey_window_ok w n l r : window_type w -> (l + r <= n)%nat ->
  length (ir_tukey_window w n l r) = n /\ forall k, (k < n)%nat -> nth k (ir_tukey_window w n l r) 0 = tukey_gain w l r n k.
Proof.
  intros (A1 & A2 & A3) H. unfold ir_tukey_window. set (w1 := if (0 <? l)%nat then _ else _).
  assert (L1 : length w1 = n). { unfold w1. destruct (Nat.ltb_spec 0 l). rewrite app_length, firstn_length, skipn_length, A1, repeat_length. lia. apply repeat_length. }
  assert (V1 : forall k, (k < n)%nat -> nth k w1 0 = if (k <? l)%nat then nth k (w (l * 2)%nat) 0 else 1).
  { intros k Hk. unfold w1. destruct (Nat.ltb_spec 0 l), (Nat.ltb_spec k l); try lia.
    - rewrite app_nth1 by (rewrite firstn_length, A1; lia). now apply nth_first.
    - rewrite app_nth2 by (rewrite firstn_length, A1; lia). rewrite firstn_length, A1, nth_skip. rewrite nth_get, get_repeat; auto. lia.
    - rewrite nth_get, get_repeat; auto. }
  destruct (Nat.ltb_spec 0 r).
  - split. { rewrite app_length, firstn_length, skipn_length, A1. lia. } intros k Hk. unfold tukey_gain.
    destruct (Nat.leb_spec n (k + r)).
    + rewrite app_nth2 by (rewrite firstn_length; lia). rewrite firstn_length, nth_skip. destruct (Nat.ltb_spec k l); [lia|]. f_equal. lia.
    + rewrite app_nth1 by (rewrite firstn_length; lia). rewrite nth_first by lia. now apply V1.
  - split; auto. intros k Hk. rewrite V1 by auto. unfold tukey_gain. destruct (k <? l)%nat; auto. destruct (Nat.leb_spec n (k + r)); [lia|reflexivity].
Qed.
Theorem C83_tukey (w : nat -> list R) (left right : option R) (l r n k : nat) (s : signal) :
  window_type w -> sig_ok s n k -> (left <> None \/ right <> None) -> flank_len left (IZR (s_fs s)) l -> flank_len right (IZR (s_fs s)) r -> (l + r <= n)%nat ->
  exists s' win, window_ir_tukey w false left right s = Ok (s', win) /\ s_fs s' = s_fs s /\ s_constr s' = s_constr s /\ shape (s_re s') n k /\ shape win n k /\
    (forall i c, (i < n)%nat -> (c < k)%nat -> entry win i c = tukey_gain w l r n i /\ entry (s_re s') i c = entry (s_re s) i c * entry win i c) /\
    (forall i c, (l <= i)%nat -> (i + r < n)%nat -> (c < k)%nat -> entry (s_re s') i c = entry (s_re s) i c).
Proof.
  intros Hw Hs Hn Hl Hr Hlr. pose proof Hs as [K1 K2 K3 K4 K5 K6 K7].
  destruct (tukey_window_ok w n l r Hw Hlr) as (Lw & Vw). set (g := ir_tukey_window w n l r) in *.
  assert (R1 : forall i, (i < n)%nat -> 0 <= nth i g 0 <= 1).
  { intros i Hi. rewrite Vw by auto. unfold tukey_gain. destruct Hw as (_ & A & _). repeat match goal with |- context [if ?b then _ else _] => destruct b end; auto; lra. }
  set (m := map (fun x => times x g) (s_re s)).
  assert (Sh : shape m n k).
  { unfold m. destruct K4 as [La Lb]. rewrite <- La. apply shape_mk_map. intros x Hx. rewrite Forall_forall in Lb. rewrite times_length; auto. rewrite Lw. auto. }
  assert (En : forall i c, (i < n)%nat -> (c < k)%nat -> entry m i c = entry (s_re s) i c * nth i g 0).
  { intros i c Hi Hc. unfold m. rewrite (entry_map _ _ [] i c) by (destruct K4; lia). rewrite times_nth. reflexivity. rewrite (shape_col _ n k) by auto. lia. }
  assert (Sw : shape (repeat g k) n k). { split. apply repeat_length. apply Forall_forall. intros x Hx. apply repeat_spec in Hx. rewrite Hx; exact Lw. }
  assert (Ew : forall i c, (c < k)%nat -> entry (repeat g k) i c = nth i g 0).
  { intros i c Hc. unfold entry. f_equal. apply (repeat_spec k g). apply nth_In. now rewrite repeat_length. }
  assert (El : flank_samples left (IZR (s_fs s)) = l). { destruct left; cbn in *; [now apply int_of_floor|auto]. }
  assert (Er : flank_samples right (IZR (s_fs s)) = r). { destruct right; cbn in *; [now apply int_of_floor|auto]. }
  exists (mkSig m None 1 (s_constr s) (s_fs s)), (repeat g k). split.
  { unfold window_ir_tukey. rewrite El, Er, (shape_nrows _ n k), (shape_ncols _ n k) by auto.
    replace (match left with Some _ => false | None => match right with Some _ => false | None => true end end) with false by (destruct left, right; auto; destruct Hn; congruence).
    destruct (Nat.ltb_spec n (l + r)); [lia|]. fold g. fold m. unfold set_data. rewrite (set_identity _ _ _ n k); auto.
    - cbn [bind i_re s_re i_im]. unfold same_shape. rewrite !(shape_nrows _ n k), !(shape_ncols _ n k), !Nat.eqb_refl by auto. reflexivity.
    - split; [exact Sh|]. simpl. discriminate.
    - intros Hc. split; [|discriminate]. intros i c Hi Hcc. cbn [i_re]. rewrite En by auto. apply rmul_bound; auto. now apply K6. }
  cbn [s_fs s_constr s_re]. split; auto. split; auto. split; auto. split; auto. split.
  - intros i c Hi Hc. rewrite Ew, En, Vw by auto. auto.
  - intros i c H1 H2 Hc. rewrite En, Vw by lia. unfold tukey_gain. destruct (Nat.ltb_spec i l); [lia|]. destruct (Nat.leb_spec n (i + r)); [lia|]. ring.
Qed.
Print Assumptions C83_tukey.
Example C83_tukey_case : exists s' win, window_ir_tukey hann false (Some (2 / 4)) None (mkSig [ir8] None 1 true 4) = Ok (s', win) /\ entry win 1 0 = 1 / 2 /\ entry (s_re s') 4 0 = 1 / 2.
Proof.
  assert (Hs : sig_ok (mkSig [ir8] None 1 true 4) 10 1).
  { constructor; cbn [s_re s_im s_constr]; try lia; try discriminate. split; auto.
    intros _ i ch Hi Hch. destruct ch; [|lia]. unfold entry. cbn [nth]. pose proof peak8 as (_ & Q & _). specialize (Q i Hi). replace (nth 3 ir8 0) with 1 in Q by reflexivity. now rewrite Rabs_R1 in Q. }
  destruct (C83_tukey hann (Some (2 / 4)) None 2 0 10 1 _ hann_type Hs) as (s' & win & E & _ & _ & _ & _ & A & B).
  left; discriminate. unfold flank_len, floors; cbn [s_fs]. simpl INR. split; lra. reflexivity. lia.
  exists s', win. split; [exact E|]. split. destruct (A 1%nat 0%nat ltac:(lia) ltac:(lia)) as (-> & _). unfold tukey_gain. cbn [Nat.ltb Nat.leb]. rewrite nth_get. unfold hann. rewrite (get_mk (HA := CRing_R)) by lia.
  replace (2 * PI * INR 1 / INR (2 * 2)) with (PI / 2) by (simpl; field). rewrite cos_PI2. lra.
  rewrite B by lia. reflexivity.
Qed.
(** no window at all, a Tukey type and overlapping flanks are refused *)
Theorem C83_tukey_checks (w : nat -> list R) (t : bool) (left right : option R) (l r n k : nat) (s : signal) :
  sig_ok s n k -> flank_len left (IZR (s_fs s)) l -> flank_len right (IZR (s_fs s)) r ->
  (left = None /\ right = None) \/ t = true \/ (n < l + r)%nat -> window_ir_tukey w t left right s = Err AssertionError.
Proof.
  intros Hs Hl Hr H. pose proof Hs as [K1 K2 K3 K4 K5 K6 K7].
  assert (El : flank_samples left (IZR (s_fs s)) = l). { destruct left; cbn in *; [now apply int_of_floor|auto]. }
  assert (Er : flank_samples right (IZR (s_fs s)) = r). { destruct right; cbn in *; [now apply int_of_floor|auto]. }
  unfold window_ir_tukey. rewrite El, Er, (shape_nrows _ n k) by auto. destruct H as [[-> ->]|[->|H]]; auto.
  - destruct left, right; auto.
  - destruct (Nat.ltb_spec n (l + r)); [|lia]. destruct left, right, t; auto.
Qed.
Print Assumptions C83_tukey_checks.
