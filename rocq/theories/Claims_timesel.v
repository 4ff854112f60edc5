(** Property C90: trimming to a time window. *)
From Coq Require Import List Arith Lia ZArith Bool Reals Lra Psatz.
From Verif Require Import Alg Spec M_arrays M_signal P_arrays P_signal M_delay M_timesel Claims_signal.
Import ListNotations.
Local Open Scope R_scope.

(** ** Specification *)
(** the time of sample i *)
Definition at_time (fs : Z) (i : nat) : R := INR i / IZR fs.
Definition from (incl : bool) (t : option R) (v : R) : Prop := match t with None => True | Some t => if incl then t <= v else t < v end.
Definition until (incl : bool) (t : option R) (v : R) : Prop := match t with None => True | Some t => if incl then v <= t else v < t end.
(** the window a user asks for *)
Definition inside (incl : bool) (start stop : option R) (fs : Z) (i : nat) : Prop := from incl start (at_time fs i) /\ until incl stop (at_time fs i).
(** the window that is used: an inclusive one starts up to one sample earlier, an exclusive one stops up to one sample earlier *)
Definition used (incl : bool) (start stop : option R) (fs : Z) (i : nat) : Prop :=
  match start with None => True | Some t => if incl then t - 1 / IZR fs < at_time fs i else t < at_time fs i end /\
  match stop with None => True | Some t => if incl then at_time fs i <= t else at_time fs i <= t - 1 / IZR fs end.
(** the samples with numbers a .. a + len - 1 are those of a window *)
Definition spans (P : nat -> Prop) (n a len : nat) : Prop := (a + len <= n)%nat /\ forall i, (i < n)%nat -> (P i <-> (a <= i < a + len)%nat).
(** y holds len samples of s from sample a on *)
Definition excerpt (s y : signal) (a len k : nat) : Prop :=
  shape (s_re y) len k /\ s_fs y = s_fs s /\ s_constr y = s_constr s /\ forall j c, (j < len)%nat -> (c < k)%nat -> entry (s_re y) j c = entry (s_re s) (a + j) c.
(** valid bounds: after the start and not after the end of a signal with n samples *)
Definition valid_start (n : nat) (fs : Z) (t : option R) : Prop := match t with None => True | Some t => 0 < t < INR n / IZR fs end.
Definition valid_stop (n : nat) (fs : Z) (t : option R) : Prop := match t with None => True | Some t => 0 < t <= INR n / IZR fs end.
Definition on_grid (fs : Z) (t : option R) : Prop := match t with None => True | Some t => exists m : nat, t = at_time fs m end.

(** ** Auxiliary facts *)
Lemma to_int_spec x m : 0 <= x -> (to_int x <= m)%nat <-> x < INR m + 1.
Proof.
  intros Hx. unfold to_int. destruct (base_Int_part x) as (A & B). assert (P : (0 <= Int_part x)%Z). { assert (IZR (-1) < IZR (Int_part x)) by lra. apply lt_IZR in H. lia. }
  rewrite INR_IZR_INZ, <- plus_IZR. split; intros H.
  - assert (IZR (Int_part x) <= IZR (Z.of_nat m)) by (apply IZR_le; lia). rewrite plus_IZR. lra.
  - assert (IZR (Int_part x) < IZR (Z.of_nat m + 1)) by lra. apply lt_IZR in H0. lia.
Qed.
Lemma to_int_lt x m : 0 <= x -> (m < to_int x)%nat <-> INR m + 1 <= x.
Proof. intros Hx. pose proof (to_int_spec x m Hx) as (A & B). split; intros H. destruct (Rle_dec (INR m + 1) x); auto. assert (to_int x <= m)%nat by (apply B; lra). lia. destruct (Nat.lt_ge_cases m (to_int x)); auto. apply A in H0. lra. Qed.
Lemma first_ok n fs incl t : (0 < fs)%Z -> valid_start n fs t -> exists a, first_sample n fs incl t = Ok a /\
  forall i, (a <= i)%nat <-> match t with None => True | Some t => if incl then t - 1 / IZR fs < at_time fs i else t < at_time fs i end.
Proof.
  intros Hf H. assert (F : 0 < IZR fs) by (now apply IZR_lt). unfold first_sample, given. destruct t as [t|]; cbn in H. 2:{ exists 0%nat. split; auto. intros i. split; auto. lia. }
  destruct (Req_EM_T t 0); [lra|]. destruct (Rlt_dec t 0); [lra|]. destruct (Rlt_dec t (INR n / IZR fs)); [|lra]. eexists. split; [reflexivity|]. intros i.
  assert (T : 0 <= t * IZR fs) by nra. assert (Q : forall u v, u * IZR fs < v <-> u < v / IZR fs). { intros u v. split; intros Hq. apply (Rmult_lt_reg_r (IZR fs)); auto. replace (v / IZR fs * IZR fs) with v by (field; lra). auto. replace v with (v / IZR fs * IZR fs) by (field; lra). apply Rmult_lt_compat_r; auto. }
  destruct incl.
  - rewrite Nat.add_0_r, to_int_spec by auto. unfold at_time. rewrite Q. replace ((INR i + 1) / IZR fs) with (INR i / IZR fs + 1 / IZR fs) by (field; lra). split; lra.
  - assert (W : (to_int (t * IZR fs) + 1 <= i)%nat <-> (to_int (t * IZR fs) < i)%nat) by lia. rewrite W. unfold at_time. rewrite <- Q. split; intros Hi.
    + assert (to_int (t * IZR fs) <= i - 1)%nat by lia. apply to_int_spec in H0; auto. rewrite minus_INR in H0 by lia. simpl in H0. lra.
    + destruct i as [|i]. simpl in Hi. lra. assert (to_int (t * IZR fs) <= i)%nat; [|lia]. apply to_int_spec; auto. rewrite S_INR in Hi. lra.
Qed.
Lemma stop_ok n fs incl t : (0 < fs)%Z -> valid_stop n fs t -> exists b, stop_sample n fs incl t = Ok b /\
  forall i, (i < n)%nat -> (i < b)%nat <-> match t with None => True | Some t => if incl then at_time fs i <= t else at_time fs i <= t - 1 / IZR fs end.
Proof.
  intros Hf H. assert (F : 0 < IZR fs) by (now apply IZR_lt). unfold stop_sample, given. destruct t as [t|]; cbn in H. 2:{ exists n. split; auto. intros i Hi. split; auto. }
  destruct (Req_EM_T t 0); [lra|]. destruct (Rlt_dec 0 t); [|lra]. destruct (Rlt_dec (INR n / IZR fs) t); [lra|]. eexists. split; [reflexivity|]. intros i Hi.
  assert (T : 0 <= t * IZR fs) by nra. assert (Q : forall u v, u <= v * IZR fs <-> u / IZR fs <= v). { intros u v. split; intros Hq. apply (Rmult_le_reg_r (IZR fs)); auto. replace (u / IZR fs * IZR fs) with u by (field; lra). auto. replace u with (u / IZR fs * IZR fs) by (field; lra). apply Rmult_le_compat_r; auto; lra. }
  destruct incl.
  - unfold at_time. rewrite <- Q. split; intros Hb.
    + destruct i as [|i]; [simpl; lra|]. assert (i < to_int (t * IZR fs))%nat by lia. apply to_int_lt in H0; auto. now rewrite S_INR.
    + destruct i as [|i]; [lia|]. rewrite S_INR in Hb. apply to_int_lt in Hb; auto. lia.
  - rewrite Nat.add_0_r, to_int_lt by auto. unfold at_time. rewrite Q. replace ((INR i + 1) / IZR fs) with (INR i / IZR fs + 1 / IZR fs) by (field; lra). split; lra.
Qed.
Lemma trim_value start stop incl s n k a b len : sig_ok s n k -> start <> None \/ stop <> None -> first_sample n (s_fs s) incl start = Ok a -> stop_sample n (s_fs s) incl stop = Ok b -> len = (min b n - a)%nat -> (k <= len)%nat -> (2 <= len)%nat ->
  exists y, trim_time start stop incl s = Ok y /\ excerpt s y a len k.
Proof.
  intros O N Ha Hb El Hk H2. pose proof (ok_re _ _ _ O) as Sh. assert (Nr : nrows (s_re s) = n) by (apply (shape_nrows _ n k); auto; apply (ok_k _ _ _ O)).
  set (m := map (fun col => firstn (b - a) (skipn a col)) (s_re s)). assert (E : trim_time start stop incl s = set_data s (mkIn m None false)).
  { unfold trim_time. destruct start, stop; try (destruct N; congruence); cbv zeta; rewrite Nr, Ha, Hb; cbn [bind]; destruct (Nat.ltb_spec a b); auto; lia. }
  assert (Shm : shape m len k). { destruct Sh as (L1 & L2). split; [unfold m; now rewrite map_length|]. rewrite Forall_forall in *. intros x Hx. apply in_map_iff in Hx as (col & <- & Hc). rewrite firstn_length, skipn_length, (L2 col Hc). lia. }
  assert (Em : forall j c, (j < len)%nat -> (c < k)%nat -> entry m j c = entry (s_re s) (a + j) c). { intros j c Hj Hc. unfold entry, m. rewrite (nth_map' _ (s_re s) c [] []) by (destruct Sh; lia). rewrite nth_firstn by lia. now rewrite nth_skipn. }
  rewrite E. unfold set_data. rewrite (set_identity _ _ _ len k); try lia.
  - eexists. split; [reflexivity|]. split; [exact Shm|]. repeat (split; auto).
  - split; [exact Shm|]. discriminate.
  - apply (ok_k _ _ _ O).
  - intros Hc. split; [|discriminate]. intros i c Hi Hc'. cbn [i_re]. rewrite Em by auto. apply (ok_bre _ _ _ O Hc); auto. lia.
Qed.
Lemma span_exists n (a b : nat) (P : nat -> Prop) : (forall i, (i < n)%nat -> (P i <-> (a <= i < b)%nat)) -> (a < min b n)%nat -> spans P n a (min b n - a).
Proof. intros H Hab. split; [lia|]. intros i Hi. rewrite H by auto. lia. Qed.
Lemma span_unique P n a len a' len' : spans P n a len -> spans P n a' len' -> (0 < len)%nat -> (0 < len')%nat -> a = a' /\ len = len'.
Proof.
  intros (A1 & A2) (B1 & B2) H H'. assert (E : forall i, (i < n)%nat -> (a <= i < a + len)%nat <-> (a' <= i < a' + len')%nat) by (intros i Hi; now rewrite <- A2, <- B2).
  pose proof (proj1 (E a ltac:(lia)) ltac:(lia)). pose proof (proj2 (E a' ltac:(lia)) ltac:(lia)). pose proof (proj1 (E (a + len - 1)%nat ltac:(lia)) ltac:(lia)). pose proof (proj2 (E (a' + len' - 1)%nat ltac:(lia)) ltac:(lia)). lia.
Qed.

(** ** C90 *)
(** The exact law, for bounds other than zero: the result holds the samples of the window [used], in order. *)
Theorem C90_law : forall (start stop : option R) (incl : bool) (s : signal) (n k a len : nat), sig_ok s n k -> (0 < s_fs s)%Z -> start <> None \/ stop <> None -> valid_start n (s_fs s) start -> valid_stop n (s_fs s) stop ->
  spans (used incl start stop (s_fs s)) n a len -> (k <= len)%nat -> (2 <= len)%nat -> exists y, trim_time start stop incl s = Ok y /\ excerpt s y a len k.
Proof.
  intros start stop incl s n k a len O Hf N V1 V2 S Hk H2. destruct (first_ok n (s_fs s) incl start Hf V1) as (a' & Ea & Ha). destruct (stop_ok n (s_fs s) incl stop Hf V2) as (b & Eb & Hb).
  assert (U : forall i, (i < n)%nat -> (used incl start stop (s_fs s) i <-> (a' <= i < b)%nat)). { intros i Hi. unfold used. rewrite <- Ha, <- Hb by auto. reflexivity. }
  assert (A : (a' < min b n)%nat). { destruct S as (S1 & S2). assert (Q : used incl start stop (s_fs s) a) by (apply S2; lia). apply U in Q; lia. }
  destruct (span_unique _ _ _ _ _ _ S (span_exists n a' b _ U A)) as (-> & ->); try lia. apply (trim_value start stop incl s n k a' b); auto.
Qed.
Print Assumptions C90_law.
(** a signal of eight samples at 4 Hz *)
Definition steps8 : signal := mkSig [[0; 1; 2; 3; 4; 5; 6; 7]; [1; 0; 1; 0; 1; 0; 1; 0]] None 1 false 4.
Lemma steps_ok : sig_ok steps8 8 2.
Proof. constructor; simpl; try lia; try discriminate. split; [reflexivity|repeat constructor]. Qed.
Ltac bins := repeat match goal with |- context [INR ?n] => progress simpl (INR n) end.
Example C90_law_case : valid_start 8 4 (Some (3 / 10)) /\ valid_stop 8 4 (Some (5 / 4)) /\ spans (used true (Some (3 / 10)) (Some (5 / 4)) 4) 8 1 5.
Proof.
  split; [simpl; lra|]. split; [simpl; lra|]. split; [lia|]. intros i Hi. unfold used, at_time. do 8 (destruct i as [|i]; [split; [intros (A & B); simpl in *; try lia; lra|intros H; try lia; simpl; lra]|]). lia.
Qed.
(** Bounds which are times of samples: the result holds the samples of the window which was asked for. *)
Theorem C90_on_grid : forall (start stop : option R) (incl : bool) (s : signal) (n k a len : nat), sig_ok s n k -> (0 < s_fs s)%Z -> start <> None \/ stop <> None -> valid_start n (s_fs s) start -> valid_stop n (s_fs s) stop ->
  on_grid (s_fs s) start -> on_grid (s_fs s) stop -> spans (inside incl start stop (s_fs s)) n a len -> (k <= len)%nat -> (2 <= len)%nat -> exists y, trim_time start stop incl s = Ok y /\ excerpt s y a len k.
Proof.
  intros start stop incl s n k a len O Hf N V1 V2 G1 G2 (S1 & S2) Hk H2. apply C90_law with (n := n); auto. split; auto. intros i Hi. rewrite <- S2 by auto. assert (F : 0 < IZR (s_fs s)) by (now apply IZR_lt). assert (I : 0 < / IZR (s_fs s)) by (now apply Rinv_0_lt_compat).
  assert (Lt : forall i j : nat, at_time (s_fs s) i < at_time (s_fs s) j <-> (i < j)%nat). { intros u v. unfold at_time. split; intros H. apply INR_lt. apply (Rmult_lt_reg_r (/ IZR (s_fs s))); auto. apply Rmult_lt_compat_r; auto. now apply lt_INR. }
  assert (Sc : forall j, at_time (s_fs s) j + 1 / IZR (s_fs s) = at_time (s_fs s) (S j)). { intros j. unfold at_time. rewrite S_INR. field. lra. }
  assert (Le : forall i j : nat, at_time (s_fs s) i <= at_time (s_fs s) j <-> (i <= j)%nat). { intros u v. pose proof (Lt v u). split; intros H'. destruct (Nat.le_gt_cases u v) as [C|C]; auto. apply H in C. lra. destruct (Rle_dec (at_time (s_fs s) u) (at_time (s_fs s) v)) as [C|C]; auto. apply Rnot_le_lt in C. apply H in C. lia. }
  unfold used, inside, from, until. destruct start as [t|], stop as [w|]; cbn in G1, G2; try destruct G1 as (p & ->); try destruct G2 as (q & ->); destruct incl; rewrite ?Lt, ?Le.
  all: assert (X : forall p, (at_time (s_fs s) p - 1 / IZR (s_fs s) < at_time (s_fs s) i) <-> (p <= i)%nat) by (intros p0; pose proof (Sc i); pose proof (Lt p0 (S i)); split; intros Q; [assert (p0 < S i)%nat by (apply H0; lra); lia|assert (at_time (s_fs s) p0 < at_time (s_fs s) (S i)) by (apply H0; lia); lra]).
  all: assert (Y : forall q, (at_time (s_fs s) i <= at_time (s_fs s) q - 1 / IZR (s_fs s)) <-> (i < q)%nat) by (intros q0; pose proof (Sc i); pose proof (Le (S i) q0); split; intros Q; [assert (S i <= q0)%nat by (apply H0; lra); lia|assert (at_time (s_fs s) (S i) <= at_time (s_fs s) q0) by (apply H0; lia); lra]).
  all: rewrite ?X, ?Y; reflexivity.
Qed.
Print Assumptions C90_on_grid.
Example C90_on_grid_case : on_grid 4 (Some (1 / 2)) /\ on_grid 4 (Some (3 / 2)) /\ spans (inside false (Some (1 / 2)) (Some (3 / 2)) 4) 8 3 3 /\ spans (inside true (Some (1 / 2)) (Some (3 / 2)) 4) 8 2 5.
Proof.
  split. { exists 2%nat. unfold at_time. simpl. lra. } split. { exists 6%nat. unfold at_time. simpl. lra. }
  split; (split; [lia|]); intros i Hi; unfold inside, from, until, at_time; (do 8 (destruct i as [|i]; [split; [intros (A & B); simpl in *; try lia; lra|intros H; try lia; simpl; lra]|])); lia.
Qed.
(** An inclusive window keeps every sample asked for; when the start is not the time of a sample it begins with a sample from before the start. *)
Theorem C90_inclusive_refuted : forall (t : R) (stop : option R) (fs : Z) (m : nat), (0 < fs)%Z -> at_time fs m < t < at_time fs (S m) ->
  (forall i, inside true (Some t) stop fs i -> used true (Some t) stop fs i) /\ ((match stop with None => True | Some w => t <= w end) -> used true (Some t) stop fs m /\ ~ inside true (Some t) stop fs m).
Proof.
  intros t stop fs m Hf (H1 & H2). assert (F : 0 < IZR fs) by (now apply IZR_lt). assert (I : 0 < / IZR fs) by (now apply Rinv_0_lt_compat). unfold at_time in *. rewrite S_INR in H2. replace ((INR m + 1) / IZR fs) with (INR m / IZR fs + 1 / IZR fs) in H2 by (field; lra).
  unfold inside, used, from, until, at_time. split. { intros i (A & B). split. unfold Rdiv at 1. lra. destruct stop; auto. } intros Hs. split. { split. lra. destruct stop; auto. lra. } intros (A & _). lra.
Qed.
Print Assumptions C90_inclusive_refuted.
Example C90_inclusive_case : at_time 4 1 < 3 / 10 < at_time 4 2 /\ exists y, trim_time (Some (3 / 10)) None true steps8 = Ok y /\ entry (s_re y) 0 0 = 1 /\ at_time 4 1 < 3 / 10.
Proof.
  assert (A : at_time 4 1 < 3 / 10 < at_time 4 2) by (unfold at_time; simpl; lra). split; auto. destruct (C90_law (Some (3 / 10)) None true steps8 8 2 1 7) as (y & E & (_ & _ & _ & X)); try apply steps_ok; try (simpl; lia).
  { left. discriminate. } { simpl. lra. } { split; [lia|]. intros i Hi. unfold used, at_time. simpl s_fs. do 8 (destruct i as [|i]; [split; [intros (P & _); simpl in *; try lia; lra|intros H; try lia; split; auto; simpl; lra]|]). lia. }
  exists y. split; auto. split; [|tauto]. rewrite X by lia. reflexivity.
Qed.
(** An exclusive window drops a sample asked for when the end is not the time of a sample. *)
Theorem C90_exclusive_refuted : forall (start : option R) (t : R) (fs : Z) (m : nat), (0 < fs)%Z -> at_time fs m < t < at_time fs (S m) -> (match start with None => True | Some w => w < at_time fs m end) ->
  inside false start (Some t) fs m /\ ~ used false start (Some t) fs m.
Proof.
  intros start t fs m Hf (H1 & H2) Hs. assert (F : 0 < IZR fs) by (now apply IZR_lt). assert (I : 0 < / IZR fs) by (now apply Rinv_0_lt_compat). unfold at_time in *. rewrite S_INR in H2. replace ((INR m + 1) / IZR fs) with (INR m / IZR fs + 1 / IZR fs) in H2 by (field; lra).
  unfold inside, used, from, until, at_time. split. { split; [destruct start; auto|lra]. } intros (_ & A). lra.
Qed.
Print Assumptions C90_exclusive_refuted.
Example C90_exclusive_case : exists y, trim_time None (Some (13 / 10)) false steps8 = Ok y /\ length (nth 0 (s_re y) []) = 5%nat /\ inside false None (Some (13 / 10)) 4 5.
Proof.
  destruct (C90_law None (Some (13 / 10)) false steps8 8 2 0 5) as (y & E & (Sh & _)); try apply steps_ok; try (simpl; lia).
  { right. discriminate. } { simpl. lra. } { split; [lia|]. intros i Hi. unfold used, at_time. simpl s_fs. do 8 (destruct i as [|i]; [split; [intros (_ & P); simpl in *; try lia; lra|intros H; try lia; split; auto; simpl; lra]|]). lia. }
  exists y. split; auto. split. { apply (shape_col _ _ _ 0%nat Sh). lia. }
  unfold inside, from, until, at_time. split; auto. simpl. lra.
Qed.
(** The part up to and including t and the part after t make up the signal, wherever t lies. *)
Theorem C90_two_parts : forall (t : R) (s : signal) (n k m : nat), sig_ok s n k -> (0 < s_fs s)%Z -> 0 < t -> at_time (s_fs s) m <= t < at_time (s_fs s) (S m) -> (max k 2 <= S m)%nat -> (max k 2 + S m <= n)%nat ->
  exists y z, trim_time None (Some t) true s = Ok y /\ trim_time (Some t) None false s = Ok z /\ forall c, (c < k)%nat -> nth c (s_re y) [] ++ nth c (s_re z) [] = nth c (s_re s) [].
Proof.
  intros t s n k m O Hf Ht (H1 & H2) Hm1 Hm2. assert (F : 0 < IZR (s_fs s)) by (now apply IZR_lt). assert (I : 0 < / IZR (s_fs s)) by (now apply Rinv_0_lt_compat).
  assert (Mo : forall i j, (i <= j)%nat -> at_time (s_fs s) i <= at_time (s_fs s) j) by (intros i j H; unfold at_time; apply Rmult_le_compat_r; [lra|now apply le_INR]).
  assert (En : t < INR n / IZR (s_fs s)) by (pose proof (Mo (S m) n ltac:(lia)) as Q; unfold at_time at 2 in Q; lra).
  destruct (C90_law None (Some t) true s n k 0 (S m)) as (y & Ey & (Y1 & _ & _ & Y2)); auto; try lia. { right. discriminate. } { exact Logic.I. } { simpl. lra. }
  { split; [lia|]. intros i Hi. unfold used. split. intros (_ & A). split; [lia|]. destruct (Nat.lt_ge_cases i (S m)) as [|C]; auto. pose proof (Mo (S m) i C). lra. intros B. split; auto. pose proof (Mo i m ltac:(lia)). lra. }
  destruct (C90_law (Some t) None false s n k (S m) (n - S m)) as (z & Ez & (Z1 & _ & _ & Z2)); auto; try lia. { left. discriminate. } { simpl. lra. } { exact Logic.I. }
  { split; [lia|]. intros i Hi. unfold used. split. intros (A & _). split; [|lia]. destruct (Nat.le_gt_cases (S m) i) as [|C]; auto. pose proof (Mo i m ltac:(lia)). lra. intros B. split; auto. pose proof (Mo (S m) i ltac:(lia)). lra. }
  exists y, z. split; auto. split; auto. intros c Hc. pose proof (ok_re _ _ _ O) as Sh. assert (L1 := shape_col _ _ _ c Y1 Hc). assert (L2 := shape_col _ _ _ c Z1 Hc). assert (L3 := shape_col _ _ _ c Sh Hc).
  apply (list_eq_nth 0). rewrite app_length. lia. intros i Hi. rewrite app_length in Hi. destruct (Nat.lt_ge_cases i (S m)).
  - rewrite app_nth1 by lia. apply (Y2 i c); auto.
  - rewrite app_nth2 by lia. rewrite L1. unfold entry in Z2. rewrite Z2 by lia. f_equal. lia.
Qed.
Print Assumptions C90_two_parts.
Example C90_two_parts_case : at_time 4 3 <= 8 / 10 < at_time 4 4 /\ (max 2 2 <= 4)%nat /\ (max 2 2 + 4 <= 8)%nat.
Proof. unfold at_time. simpl. split; [lra|lia]. Qed.
(** A bound of zero counts as no bound: the window from 0 s to 0 s is the whole signal, and an exclusive window from 0 s on holds the sample at 0 s. *)
Theorem C90_zero_refuted : forall (s : signal) (n k : nat) (incl : bool) (start stop : option R), sig_ok s n k ->
  (stop <> None -> trim_time (Some 0) stop incl s = trim_time None stop incl s) /\ (start <> None -> trim_time start (Some 0) incl s = trim_time start None incl s) /\
  exists y, trim_time (Some 0) (Some 0) incl s = Ok y /\ s_re y = s_re s.
Proof.
  intros s n k incl start stop O. assert (Z : given (Some 0) = given None) by (unfold given; destruct (Req_EM_T 0 0); [reflexivity|lra]).
  assert (A : forall N fs, first_sample N fs incl (Some 0) = first_sample N fs incl None) by (intros; unfold first_sample; now rewrite Z). assert (B : forall N fs, stop_sample N fs incl (Some 0) = stop_sample N fs incl None) by (intros; unfold stop_sample; now rewrite Z).
  split; [|split].
  - intros H. unfold trim_time. rewrite A. destruct stop; [reflexivity|easy].
  - intros H. unfold trim_time. rewrite B. destruct start; [reflexivity|easy].
  - destruct (trim_value (Some 0) (Some 0) incl s n k 0 n n) as (y & E & (Sh & _ & _ & X)); auto; try (left; discriminate); try lia. { now rewrite A. } { now rewrite B. } { apply (ok_kn _ _ _ O). } { apply (ok_n _ _ _ O). }
    exists y. split; auto. apply (mat_ext _ _ n k); auto. apply (ok_re _ _ _ O).
Qed.
Print Assumptions C90_zero_refuted.
Example C90_zero_case : ~ inside true (Some 0) (Some 0) 4 1 /\ ~ inside false (Some 0) None 4 0.
Proof. unfold inside, from, until, at_time. simpl. split; intros (A & B); lra. Qed.
(** Refused: no bounds, a negative start or one behind the end, an end behind the end or a negative one, windows without samples. *)
Theorem C90_refusals : forall (start stop : option R) (incl : bool) (s : signal) (n k : nat), sig_ok s n k -> (0 < s_fs s)%Z ->
  (start = None /\ stop = None) \/ (exists t, start = Some t /\ (t < 0 \/ INR n / IZR (s_fs s) <= t)) \/
  (valid_start n (s_fs s) start /\ exists t, stop = Some t /\ (t < 0 \/ INR n / IZR (s_fs s) < t)) \/
  (valid_start n (s_fs s) start /\ valid_stop n (s_fs s) stop /\ (forall i, (i < n)%nat -> ~ used incl start stop (s_fs s) i)) -> trim_time start stop incl s = Err AssertionError.
Proof.
  intros start stop incl s n k O Hf H. assert (F : 0 < IZR (s_fs s)) by (now apply IZR_lt). assert (Nr : nrows (s_re s) = n) by (apply (shape_nrows _ n k); [apply (ok_re _ _ _ O)|apply (ok_k _ _ _ O)]).
  assert (N0 : 0 < INR n / IZR (s_fs s)) by (apply Rdiv_lt_0_compat; auto; apply lt_0_INR; pose proof (ok_n _ _ _ O); lia).
  assert (E : start <> None \/ stop <> None -> trim_time start stop incl s = bind (first_sample n (s_fs s) incl start) (fun a => bind (stop_sample n (s_fs s) incl stop) (fun b =>
    if (a <? b)%nat then set_data s (mkIn (map (fun col => firstn (b - a) (skipn a col)) (s_re s)) None false) else Err AssertionError))).
  { intros N. unfold trim_time. rewrite Nr. destruct start, stop; try reflexivity. destruct N; congruence. }
  destruct H as [(-> & ->)|[(t & -> & H)|[(V & t & -> & H)|(V1 & V2 & H)]]].
  - reflexivity.
  - rewrite E by (left; discriminate). unfold first_sample, given. destruct (Req_EM_T t 0); [lra|]. destruct (Rlt_dec t 0); [reflexivity|]. destruct (Rlt_dec t _); [lra|reflexivity].
  - rewrite E by (right; discriminate). destruct (first_ok n (s_fs s) incl start Hf V) as (a & -> & _). cbn [bind]. unfold stop_sample, given. destruct (Req_EM_T t 0); [lra|]. destruct (Rlt_dec 0 t); [|reflexivity]. destruct (Rlt_dec _ t); [reflexivity|lra].
  - destruct (first_ok n (s_fs s) incl start Hf V1) as (a & Ea & Ha). destruct (stop_ok n (s_fs s) incl stop Hf V2) as (b & Eb & Hb).
    assert (D : {start = None /\ stop = None} + {start <> None \/ stop <> None}). { destruct start. right; left; discriminate. destruct stop. right; right; discriminate. left; auto. } destruct D as [(-> & ->)|N]; [reflexivity|].
    rewrite E, Ea, Eb by auto. cbn [bind]. destruct (Nat.ltb_spec a b) as [C|]; [|reflexivity]. exfalso.
    assert (An : (a < n)%nat). { destruct (Nat.lt_ge_cases a n) as [|C']; auto. exfalso. unfold first_sample, given in Ea. destruct start as [t|]; [|injection Ea as <-; pose proof (ok_n _ _ _ O); lia]. cbn in V1. 
      destruct incl.
      - assert (Q : (a <= n - 1)%nat); [|pose proof (ok_n _ _ _ O); lia]. apply Ha. unfold at_time. rewrite minus_INR by (pose proof (ok_n _ _ _ O); lia). simpl (INR 1). replace ((INR n - 1) / IZR (s_fs s)) with (INR n / IZR (s_fs s) - 1 / IZR (s_fs s)) by (field; lra). lra.
      - assert (Q : a = n). { assert (a <= n)%nat; [|lia]. apply Ha. unfold at_time. lra. } subst a. unfold stop_sample, given in Eb. destruct stop as [w|]; [|injection Eb as <-; lia]. cbn in V2. destruct (Req_EM_T w 0); [lra|]. destruct (Rlt_dec 0 w); [|lra]. destruct (Rlt_dec _ w); [lra|]. injection Eb as <-. rewrite Nat.add_0_r in C.
        apply to_int_lt in C; [|apply Rmult_le_pos; lra]. assert (w * IZR (s_fs s) <= INR n). { replace (INR n) with (INR n / IZR (s_fs s) * IZR (s_fs s)) by (field; lra). apply Rmult_le_compat_r; lra. } lra. }
    apply (H a An). unfold used. rewrite <- Ha, <- Hb by auto. lia.
Qed.
Print Assumptions C90_refusals.
Example C90_refusals_case : valid_start 8 4 (Some (3 / 2)) /\ valid_stop 8 4 (Some 1) /\ forall i, (i < 8)%nat -> ~ used true (Some (3 / 2)) (Some 1) 4 i.
Proof. split; [simpl; lra|]. split; [simpl; lra|]. intros i _ (A & B). lra. Qed.
(** Fewer samples than channels: the result is turned, its samples become channels. *)
Theorem C90_short_refuted : forall (s : signal) (n k a len : nat) (start stop : option R) (incl : bool), sig_ok s n k -> (0 < s_fs s)%Z -> start <> None \/ stop <> None -> valid_start n (s_fs s) start -> valid_stop n (s_fs s) stop ->
  spans (used incl start stop (s_fs s)) n a len -> (0 < len < k)%nat ->
  exists y, trim_time start stop incl s = Ok y /\ shape (s_re y) k len /\ forall j c, (j < len)%nat -> (c < k)%nat -> entry (s_re y) c j = entry (s_re s) (a + j) c.
Proof.
  intros s n k a len start stop incl O Hf N V1 V2 S Hl. destruct (first_ok n (s_fs s) incl start Hf V1) as (a' & Ea & Ha). destruct (stop_ok n (s_fs s) incl stop Hf V2) as (b & Eb & Hb).
  assert (U : forall i, (i < n)%nat -> (used incl start stop (s_fs s) i <-> (a' <= i < b)%nat)). { intros i Hi. unfold used. rewrite <- Ha, <- Hb by auto. reflexivity. }
  assert (A : (a' < min b n)%nat). { destruct S as (S1 & S2). assert (Q : used incl start stop (s_fs s) a) by (apply S2; lia). apply U in Q; lia. }
  destruct (span_unique _ _ _ _ _ _ S (span_exists n a' b _ U A)) as (-> & El); try lia.
  pose proof (ok_re _ _ _ O) as Sh. assert (Nr : nrows (s_re s) = n) by (apply (shape_nrows _ n k); auto; apply (ok_k _ _ _ O)).
  set (m := map (fun col => firstn (b - a') (skipn a' col)) (s_re s)). assert (E : trim_time start stop incl s = set_data s (mkIn m None false)).
  { unfold trim_time. destruct start, stop; try (destruct N; congruence); cbv zeta; rewrite Nr, Ea, Eb; cbn [bind]; destruct (Nat.ltb_spec a' b); auto; lia. }
  assert (Shm : shape m len k). { destruct Sh as (L1 & L2). split; [unfold m; now rewrite map_length|]. rewrite Forall_forall in *. intros x Hx. apply in_map_iff in Hx as (col & <- & Hc). rewrite firstn_length, skipn_length, (L2 col Hc). lia. }
  assert (Em : forall j c, (j < len)%nat -> (c < k)%nat -> entry m j c = entry (s_re s) (a' + j) c). { intros j c Hj Hc. unfold entry, m. rewrite (nth_map' _ (s_re s) c [] []) by (destruct Sh; lia). rewrite nth_firstn by lia. now rewrite nth_skipn. }
  assert (Im : in_shape (mkIn m None false) len k) by (split; [exact Shm|discriminate]). destruct (is_peak_exists _ len k Im ltac:(lia) ltac:(lia)) as (p & Hp).
  rewrite E. unfold set_data. destruct (set_time_data_spec (s_constr s) (s_fs s) (mkIn m None false) len k p Im) as (y & Ey & _ & _ & Sc & Sy & X & _); auto; try lia. { intros Q. assert (len = 1 /\ k = 1)%nat as (-> & ->) by nia. lia. }
  exists y. split; auto. rewrite Nat.max_r, Nat.min_l in * by lia. split; auto. intros j c Hj Hc. rewrite X by auto. unfold oriented. cbn [i_re]. destruct (Nat.ltb_spec len k); [|lia]. rewrite Em by auto.
  assert (S1 : s_scale y = 1). { rewrite Sc. destruct (s_constr s) eqn:Hcs; auto. destruct (Rlt_dec 1 p); auto. exfalso. destruct Hp as (_ & (i & c' & Hi & Hc' & [Hv|(im & Him & _)])); [|discriminate]. cbn [i_re] in Hv. rewrite Em in Hv by auto. pose proof (ok_bre _ _ _ O Hcs (a' + i)%nat c' ltac:(lia) Hc'). lra. }
  rewrite S1. ring.
Qed.
Print Assumptions C90_short_refuted.
Example C90_short_case : spans (used true (Some (1 / 4)) (Some (1 / 4)) 4) 8 1 1.
Proof. split; [lia|]. intros i Hi. unfold used, at_time. do 8 (destruct i as [|i]; [split; [intros (A & B); simpl in *; try lia; lra|intros H; try lia; simpl; lra]|]). lia. Qed.
(** Every band of a multi-band signal is cut alike. *)
Theorem C90_bands : forall (start stop : option R) (incl : bool) (l ys : list signal), trim_time_bands start stop incl l = Ok ys <-> Forall2 (fun s y => trim_time start stop incl s = Ok y) l ys.
Proof.
  intros start stop incl l. unfold trim_time_bands. induction l as [|s l IH]; intros ys; cbn [map seq_result].
  - split; intros H. injection H as <-. constructor. inversion H. reflexivity.
  - destruct (trim_time start stop incl s) as [y|e] eqn:E; cbn [bind].
    + destruct (seq_result (map (trim_time start stop incl) l)) as [vs|e] eqn:E2; cbn [bind].
      * split; intros H. injection H as <-. constructor; auto. now apply IH. inversion H; subst. rewrite E in H2. injection H2 as <-. apply IH in H4. now injection H4 as <-.
      * split; intros H. discriminate. inversion H; subst. apply IH in H4. discriminate.
    + split; intros H. discriminate. inversion H; subst. congruence.
Qed.
Print Assumptions C90_bands.
Example C90_bands_case : exists y, trim_time_bands (Some 0) (Some 0) true [steps8; steps8] = Ok [y; y] /\ s_re y = s_re steps8.
Proof. destruct (C90_zero_refuted steps8 8 2 true None None steps_ok) as (_ & _ & y & E & V). exists y. split; auto. apply C90_bands. repeat constructor; auto. Qed.
(** The imaginary part of a complex signal is lost. *)
Theorem C90_complex_refuted : forall (start stop : option R) (incl : bool) (s y : signal), trim_time start stop incl s = Ok y -> s_im y = None.
Proof.
  intros start stop incl s y H. assert (G : forall m, set_data s (mkIn m None false) = Ok y -> s_im y = None).
  { intros m. unfold set_data, set_time_data. cbn [i_re i_im i_int]. destruct (_ && _); [discriminate|]. destruct (s_constr s); [destruct (Rlt_dec _ _)|]; simpl; intros E; inversion E; reflexivity. }
  unfold trim_time in H. destruct start, stop; try discriminate; cbv zeta in H; (destruct (first_sample _ _ _ _); [|discriminate]); (destruct (stop_sample _ _ _ _); [|discriminate]); cbn [bind] in H; (destruct (_ <? _)%nat; [|discriminate]); eapply G; exact H.
Qed.
Print Assumptions C90_complex_refuted.
Example C90_complex_case : exists y, trim_time (Some 0) (Some 0) true (mkSig [[1; 2]] (Some [[3; 4]]) 1 false 4) = Ok y.
Proof.
  destruct (C90_zero_refuted (mkSig [[1; 2]] (Some [[3; 4]]) 1 false 4) 2 1 true None None) as (_ & _ & y & E & _); eauto.
  constructor; simpl; try lia; try discriminate. split; [reflexivity|repeat constructor]. intros im E. injection E as <-. split; [reflexivity|repeat constructor].
Qed.
