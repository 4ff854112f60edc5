(** C105 reverberation time. *)
From Coq Require Import List Arith Lia ZArith Bool Reals Lra.
From Verif Require Import Alg Spec Dft M_arrays M_signal P_signal M_latency M_dynamics M_level M_room M_beam M_specdiff.
From Verif Require Import Claims_level Claims_dynamics Claims_room Claims_specdiff Claims_linphase M_reverb.
Import ListNotations.
Local Open Scope R_scope.

Notation sm := (sum (HA := CRing_R)).
Notation gt := (get (HA := CRing_R)).

(** ** Specification *)
(** The curve never rises. *)
Definition falling (e : list R) : Prop := forall i j, (i <= j)%nat -> (j < length e)%nat -> gt e j <= gt e i.
(** The squared error of the line a t + b on the samples i1 .. i2 - 1. *)
Definition line_error (t : nat -> R) (e : list R) (i1 i2 : nat) (a b : R) : R :=
  sm (i2 - i1) (fun k => (gt e (i1 + k) - (a * t (i1 + k)%nat + b)) ^ 2).
(** The energy that comes after sample i. *)
Definition after (p : list R) (i : nat) : R := sm (length p - S i) (fun k => gt p (S i + k)).
(** The level of a power, not below that of the smallest normal number. *)
Definition lev (v : R) : R := level false (Rmax (Rabs v) smallest_normal).
(** Schroeder's backward integration. *)
Definition schroeder (p e : list R) : Prop := forall i, (i < length e)%nat -> gt e i = lev (after p i) - lev (after p 0).
Definition limits (m : rmode) : R * R := match m with T20 => (-5, -25) | T30 => (-5, -35) | T60 => (-5, -65) | _ => (0, -10) end.
Definition span (m : rmode) : R := match m with EDT => 10 | _ => 60 end.
(** The sample times the code attributes to a curve of L samples. *)
Definition shown_time (L fs : nat) (i : nat) : R := INR i * (INR L / (INR fs * INR (L - 1))).

(** ** Sums *)
Lemma sm_ext n f g : (forall i, (i < n)%nat -> f i = g i) -> sm n f = sm n g. Proof. apply sum_ext. Qed.
Lemma sm_lin n f g a b : sm n (fun i => a * f i + b * g i) = a * sm n f + b * sm n g.
Proof.
  induction n; cbn [sum]; [cbn; ring|]. rewrite IHn. cbn. ring.
Qed.
Lemma sm_const n c : sm n (fun _ => c) = INR n * c.
Proof. induction n; [cbn; ring|]. cbn [sum]. rewrite IHn, S_INR. cbn. ring. Qed.
Lemma sm_nonneg n f : (forall i, (i < n)%nat -> 0 <= f i) -> 0 <= sm n f.
Proof. induction n; intros H; cbn [sum]; [cbn; lra|]. specialize (IHn ltac:(auto)). specialize (H n ltac:(lia)). cbn in *. lra. Qed.
Lemma sm_nonpos n f : (forall i, (i < n)%nat -> f i <= 0) -> sm n f <= 0.
Proof. induction n; intros H; cbn [sum]; [cbn; lra|]. specialize (IHn ltac:(auto)). specialize (H n ltac:(lia)). cbn in *. lra. Qed.
Lemma sm_strict n f k : (forall i, (i < n)%nat -> f i <= 0) -> (k < n)%nat -> f k < 0 -> sm n f < 0.
Proof.
  induction n; intros H Hk L; [lia|]. cbn [sum]. change (sm n f + f n < 0). destruct (Nat.eq_dec k n) as [->|].
  - pose proof (sm_nonpos n f ltac:(auto)). lra.
  - assert (sm n f < 0) by (apply IHn; auto; lia). specialize (H n ltac:(lia)). lra.
Qed.

(** ** Regression *)
Lemma dev_sum x : (0 < length x)%nat -> sm (length x) (fun i => gt x i - average x) = 0.
Proof.
  intros H. assert (INR (length x) <> 0) by (apply not_0_INR; lia).
  rewrite (sm_ext _ _ (fun i => 1 * gt x i + (- average x) * 1)) by (intros; ring). rewrite (sm_lin _ (gt x) (fun _ => 1)), sm_const. unfold average, rtotal. field. auto.
Qed.
(** any constant may be taken instead of the average of the second series *)
Lemma cov_shift x y c : length y = length x -> (0 < length x)%nat -> cov x y = sm (length x) (fun i => (gt x i - average x) * (gt y i - c)).
Proof.
  intros E H. unfold cov. pose proof (dev_sum x H) as D.
  rewrite (sm_ext _ _ (fun i => 1 * ((gt x i - average x) * (gt y i - c)) + (c - average y) * (gt x i - average x))) by (intros; ring).
  rewrite sm_lin, D. ring.
Qed.
Lemma cov_pos x : 0 <= cov x x.
Proof. apply sm_nonneg. intros. apply Rle_0_sqr. Qed.
Lemma cov_inc x : (2 <= length x)%nat -> (forall i j, (i < j < length x)%nat -> gt x i < gt x j) -> 0 < cov x x.
Proof.
  intros H I. destruct (cov_pos x) as [L|L]; auto. exfalso. assert (P : sm (length x) (fun i => - ((gt x i - average x) * (gt x i - average x))) = 0).
  { rewrite (sm_ext _ _ (fun i => (-1) * ((gt x i - average x) * (gt x i - average x)) + 0 * 0)) by (intros; ring). rewrite sm_lin. fold (cov x x). rewrite <- L. ring. }
  specialize (I 0%nat 1%nat ltac:(lia)).
  assert (N : gt x 0 - average x <> 0 \/ gt x 1 - average x <> 0) by (destruct (Req_dec (gt x 0) (average x)); [right|left]; lra).
  assert (Q : forall i, (i < length x)%nat -> - ((gt x i - average x) * (gt x i - average x)) <= 0).
  { intros i _. pose proof (Rle_0_sqr (gt x i - average x)) as U. unfold Rsqr in U. lra. }
  destruct N as [N|N].
  - pose proof (sm_strict _ _ 0%nat Q ltac:(lia)) as S. cbv beta in S. pose proof (Rlt_0_sqr _ N) as U. unfold Rsqr in U. lra.
  - pose proof (sm_strict _ _ 1%nat Q ltac:(lia)) as S. cbv beta in S. pose proof (Rlt_0_sqr _ N) as U. unfold Rsqr in U. lra.
Qed.
Definition err2 (x y : list R) (a b : R) : R := sm (length x) (fun i => (gt y i - (a * gt x i + b)) ^ 2).
Lemma err2_split x y a b : length y = length x -> (0 < length x)%nat -> 0 < cov x x ->
  let s := cov x y / cov x x in
  err2 x y a b = cov y y - s * cov x y + (a - s) ^ 2 * cov x x + INR (length x) * (average y - a * average x - b) ^ 2.
Proof.
  intros E H P s. set (d := average y - a * average x - b).
  assert (Dx := dev_sum x H). assert (Dy : sm (length x) (fun i => gt y i - average y) = 0) by (rewrite <- E; apply dev_sum; lia).
  unfold err2. rewrite (sm_ext _ _ (fun i => 1 * (1 * ((gt y i - average y) * (gt y i - average y)) + (a * a) * ((gt x i - average x) * (gt x i - average x)))
     + 1 * ((- 2 * a) * ((gt x i - average x) * (gt y i - average y)) + 1 * (2 * d * (gt y i - average y) + 1 * (- 2 * a * d * (gt x i - average x) + d * d * 1)))))
    by (intros; unfold d; ring).
  rewrite !sm_lin, sm_const, Dx, Dy. fold (cov x x) (cov x y). replace (sm (length x) (fun i => (gt y i - average y) * (gt y i - average y))) with (cov y y) by (unfold cov; now rewrite E).
  unfold s. field. lra.
Qed.
Lemma cauchy x y : length y = length x -> (0 < length x)%nat -> 0 < cov x x -> cov x y * cov x y <= cov x x * cov y y.
Proof.
  intros E H P. set (s := cov x y / cov x x). pose proof (err2_split x y s (average y - s * average x) E H P) as S. cbv zeta in S. fold s in S.
  assert (N : 0 <= err2 x y s (average y - s * average x)) by (apply sm_nonneg; intros; apply pow2_ge_0).
  rewrite S in N. match type of N with 0 <= ?e => replace e with (cov y y - s * cov x y) in N by ring end.
  replace (cov x y * cov x y) with (cov x x * (s * cov x y)) by (unfold s; field; lra). apply Rmult_le_compat_l; lra.
Qed.
(** Rising times and a falling curve: the covariance is not positive, and negative unless the curve is constant. *)
Lemma split_point x : (forall i j, (i < j < length x)%nat -> gt x i < gt x j) -> forall m, exists k, (k <= length x)%nat /\
  (forall i, (i < k)%nat -> gt x i <= m) /\ (forall i, (k <= i < length x)%nat -> m < gt x i).
Proof.
  intros I m. assert (G : forall n, (n <= length x)%nat -> exists k, (k <= n)%nat /\ (forall i, (i < k)%nat -> gt x i <= m) /\ (forall i, (k <= i < n)%nat -> m < gt x i)).
  { induction n; intros Hn. exists 0%nat. repeat split; intros; lia. destruct IHn as (k & K1 & K2 & K3). lia.
    destruct (Rle_dec (gt x n) m) as [L|L].
    - exists (S n). split. lia. split. intros i Hi. destruct (Nat.eq_dec i n) as [->|]; auto. specialize (I i n ltac:(lia)). lra. intros; lia.
    - exists k. split. lia. split; auto. intros i Hi. destruct (Nat.eq_dec i n) as [->|]. lra. apply K3. lia. }
  destruct (G (length x) (le_n _)) as (k & A). exists k. tauto.
Qed.
Lemma cov_falling x y : length y = length x -> (2 <= length x)%nat -> (forall i j, (i < j < length x)%nat -> gt x i < gt x j) -> falling y ->
  cov x y <= 0 /\ (gt y (length y - 1) < gt y 0 -> cov x y < 0).
Proof.
  intros E H I F. destruct (split_point x I (average x)) as (k & K1 & K2 & K3). set (k' := Nat.min k (length x - 1)).
  assert (K0 : forall i, (i < length x)%nat -> (gt x i - average x) * (gt y i - gt y k') <= 0).
  { intros i Hi. destruct (Nat.lt_ge_cases i k) as [L|L].
    - specialize (K2 i L). specialize (F i k' ltac:(unfold k'; lia) ltac:(unfold k'; lia)). nra.
    - specialize (K3 i ltac:(lia)). specialize (F k' i ltac:(unfold k'; lia) ltac:(lia)). nra. }
  rewrite (cov_shift x y (gt y k')) by lia. split. now apply sm_nonpos.
  intros SL.
  (* the first sample is below the average and the last above *)
  assert (D := dev_sum x ltac:(lia)).
  assert (A0 : gt x 0 < average x).
  { apply Rnot_le_lt. intros Q. assert (0 < sm (length x) (fun i => gt x i - average x)); [|lra].
    assert (sm (length x) (fun i => - (gt x i - average x)) < 0).
    { apply sm_strict with 1%nat; try lia. intros i Hi. destruct i. lra. specialize (I 0%nat (S i) ltac:(lia)). lra. specialize (I 0%nat 1%nat ltac:(lia)). lra. }
    rewrite (sm_ext _ _ (fun i => (-1) * (gt x i - average x) + 0 * 0)) in H0 by (intros; ring). rewrite sm_lin in H0. lra. }
  assert (A1 : average x < gt x (length x - 1)).
  { apply Rnot_le_lt. intros Q. assert (sm (length x) (fun i => gt x i - average x) < 0); [|lra].
    apply sm_strict with 0%nat; try lia; try lra. intros i Hi. destruct (Nat.eq_dec i (length x - 1)) as [->|]. lra. specialize (I i (length x - 1)%nat ltac:(lia)). lra. }
  destruct (Rle_lt_dec (gt y 0) (gt y k')) as [L|L].
  - apply sm_strict with (length x - 1)%nat; auto. lia. rewrite E in SL. nra.
  - apply sm_strict with 0%nat; auto. lia. nra.
Qed.

(** ** Bisection *)
Lemma bisect_spec a v : (forall i j, (i <= j < length a)%nat -> gt a i <= gt a j) -> forall fuel lo hi, (lo <= hi <= length a)%nat -> (hi - lo < fuel)%nat ->
  (forall i, (i < lo)%nat -> gt a i < v) -> (forall i, (hi <= i < length a)%nat -> v <= gt a i) ->
  (bisect fuel a v lo hi <= length a)%nat /\ (forall i, (i < bisect fuel a v lo hi)%nat -> gt a i < v) /\
  (forall i, (bisect fuel a v lo hi <= i < length a)%nat -> v <= gt a i).
Proof.
  intros S. induction fuel; intros lo hi H F A B; [lia|]. cbn [bisect]. destruct (Nat.ltb_spec lo hi) as [L|L].
  - set (mid := (lo + (hi - lo) / 2)%nat). assert (M : (lo <= mid < hi)%nat).
    { unfold mid. pose proof (Nat.div_lt (hi - lo) 2 ltac:(lia) ltac:(lia)). lia. }
    cbv zeta. destruct (Rlt_dec (gt a mid) v) as [Q|Q].
    + apply IHfuel; try lia; auto. intros i Hi. specialize (S i mid ltac:(lia)). lra.
    + apply IHfuel; try lia; auto. intros i Hi. specialize (S mid i ltac:(lia)). lra.
  - assert (lo = hi) by lia. subst. repeat split; auto. lia.
Qed.
Lemma get_rev (e : list R) i : (i < length e)%nat -> gt (rev e) i = gt e (length e - S i).
Proof. intros. unfold get. now apply rev_nth. Qed.
Lemma cut_spec e v : falling e -> (cut_index e v <= length e)%nat /\
  (forall i, (i < cut_index e v)%nat -> v <= gt e i) /\ (forall i, (cut_index e v <= i < length e)%nat -> gt e i < v).
Proof.
  intros F. destruct (bisect_spec (rev e) v) with (fuel := S (length (rev e))) (lo := 0%nat) (hi := length (rev e)) as (A & B & D); try lia.
  { rewrite rev_length. intros i j H. rewrite !get_rev by lia. apply F; lia. }
  fold (searchsorted (rev e) v) in *. rewrite rev_length in *. unfold cut_index. set (k := searchsorted (rev e) v) in *. split. lia. split.
  - intros i Hi. specialize (D (length e - S i)%nat ltac:(lia)). rewrite get_rev in D by lia. replace (length e - S (length e - S i))%nat with i in D by lia. exact D.
  - intros i Hi. specialize (B (length e - S i)%nat ltac:(lia)). rewrite get_rev in B by lia. replace (length e - S (length e - S i))%nat with i in B by lia. exact B.
Qed.
Lemma cut_unique e v c : falling e -> (c <= length e)%nat -> (forall i, (i < c)%nat -> v <= gt e i) -> (forall i, (c <= i < length e)%nat -> gt e i < v) -> cut_index e v = c.
Proof.
  intros F H A B. destruct (cut_spec e v F) as (P & Q & S). destruct (lt_eq_lt_dec (cut_index e v) c) as [[L|L]|L]; auto; exfalso.
  - specialize (A _ L). specialize (S (cut_index e v) ltac:(lia)). lra.
  - specialize (B c ltac:(lia)). specialize (Q _ L). lra.
Qed.
Lemma slice_len {T} i1 i2 (l : list T) : (i2 <= length l)%nat -> length (slice i1 i2 l) = (i2 - i1)%nat.
Proof. intros. unfold slice. rewrite firstn_length, skipn_length. lia. Qed.
Lemma slice_get i1 i2 (l : list R) k : (k < i2 - i1)%nat -> gt (slice i1 i2 l) k = gt l (i1 + k).
Proof. intros H. unfold slice. rewrite get_first by auto. apply get_skip. Qed.
Lemma time_get L fs i : (2 <= L)%nat -> (0 < fs)%nat -> (i < L)%nat -> gt (time_vector L (INR fs)) i = shown_time L fs i.
Proof.
  intros H F Hi. unfold time_vector, linspace. destruct L as [|[|L]]; [lia|lia|]. rewrite (get_mk (HA := CRing_R)) by auto. unfold shown_time.
  assert (INR (S (S L) - 1) <> 0) by (apply not_0_INR; lia). assert (INR fs <> 0) by (apply not_0_INR; lia). field. auto.
Qed.
Lemma time_len L fs : length (time_vector L fs) = L.
Proof. unfold time_vector, linspace. destruct L as [|[|L]]; auto. apply mk_length. Qed.
Lemma step_pos L fs : (2 <= L)%nat -> (0 < fs)%nat -> 0 < INR L / (INR fs * INR (L - 1)).
Proof. intros. apply Rdiv_lt_0_compat. apply lt_0_INR; lia. apply Rmult_lt_0_compat; apply lt_0_INR; lia. Qed.
Lemma err2_line L fs e i1 i2 a b : length e = L -> (2 <= L)%nat -> (0 < fs)%nat -> (i2 <= L)%nat ->
  err2 (slice i1 i2 (time_vector L (INR fs))) (slice i1 i2 e) a b = line_error (shown_time L fs) e i1 i2 a b.
Proof.
  intros E HL F H. unfold err2, line_error. rewrite slice_len by (rewrite time_len; auto). apply sm_ext. intros k Hk.
  rewrite !slice_get by auto. rewrite time_get by lia. reflexivity.
Qed.
Lemma time_slice_inc L fs i1 i2 : (2 <= L)%nat -> (0 < fs)%nat -> (i2 <= L)%nat -> let x := slice i1 i2 (time_vector L (INR fs)) in
  forall i j, (i < j < length x)%nat -> gt x i < gt x j.
Proof.
  intros H F Hi x i j. unfold x. rewrite slice_len by (rewrite time_len; auto). intros Hj. rewrite !slice_get by lia. rewrite !time_get by lia.
  unfold shown_time. apply Rmult_lt_compat_r. now apply step_pos. apply lt_INR. lia.
Qed.
Lemma falling_slice e i1 i2 : falling e -> (i2 <= length e)%nat -> falling (slice i1 i2 e).
Proof. intros F H i j Hi Hj. rewrite slice_len in Hj by auto. rewrite !slice_get by lia. apply F; lia. Qed.
Lemma coeffs_eq one t e sv ev : length t = length e -> (cut_index e ev <= length e)%nat -> (S (cut_index e sv) < cut_index e ev)%nat ->
  let x := slice (cut_index e sv) (cut_index e ev) t in let y := slice (cut_index e sv) (cut_index e ev) e in
  coeffs one t e sv ev = Ok ((cov x y / cov x x, average y - cov x y / cov x x * average x),
    if Req_EM_T (cov x x) 0 then None else if Req_EM_T (cov y y) 0 then None else Some (cov x y / (sqrt (cov x x) * sqrt (cov y y)))).
Proof.
  intros T H I x y. unfold coeffs. fold x y. assert (Lx : length x = (cut_index e ev - cut_index e sv)%nat) by (apply slice_len; lia).
  unfold polyfit1, pearsonr. destruct (Nat.ltb_spec (length x) 2); [lia|]. destruct x as [|a [|b x']]; [cbn in Lx; lia|cbn in Lx; lia|]. reflexivity.
Qed.
Lemma coeffs_fit one fs e sv ev : falling e -> (0 < fs)%nat -> (S (cut_index e sv) < cut_index e ev)%nat ->
  let i1 := cut_index e sv in let i2 := cut_index e ev in let le := line_error (shown_time (length e) fs) e i1 i2 in
  exists s b r, coeffs one (time_vector (length e) (INR fs)) e sv ev = Ok ((s, b), r) /\ (forall a' b', le s b <= le a' b') /\
    (forall a' b', le a' b' <= le s b -> a' = s /\ b' = b) /\
    (gt e (i2 - 1) < gt e i1 -> s < 0 /\ exists c, r = Some c /\ -1 <= c < 0) /\ (gt e (i2 - 1) = gt e i1 -> s = 0 /\ r = None).
Proof.
  intros F Hf I i1 i2 le. destruct (cut_spec e ev F) as (C & _ & _). fold i1 i2 in I, C. set (L := length e) in *.
  assert (HL : (2 <= L)%nat) by lia. set (x := slice i1 i2 (time_vector L (INR fs))). set (y := slice i1 i2 e).
  assert (Lx : length x = (i2 - i1)%nat) by (apply slice_len; rewrite time_len; auto). assert (Ly : length y = length x) by (rewrite Lx; now apply slice_len).
  assert (Px : 0 < cov x x) by (apply cov_inc; [lia|now apply time_slice_inc]).
  assert (LE : forall a b, le a b = err2 x y a b) by (intros; symmetry; now apply err2_line).
  pose proof (coeffs_eq one (time_vector L (INR fs)) e sv ev (time_len _ _) C I) as Q. cbv zeta in Q. fold i1 i2 in Q. fold x y in Q. rewrite Q.
  set (s := cov x y / cov x x). set (b := average y - s * average x). eexists s, b, _. split. reflexivity.
  assert (SP : forall a' b', le a' b' = le s b + (a' - s) ^ 2 * cov x x + INR (length x) * (average y - a' * average x - b') ^ 2).
  { intros. rewrite !LE. rewrite !err2_split by (auto; lia). fold s. unfold b. ring. }
  assert (Np : 0 < INR (length x)) by (apply lt_0_INR; lia).
  assert (Y0 : gt y 0 = gt e i1) by (unfold y; rewrite slice_get by lia; now rewrite Nat.add_0_r).
  assert (Y1 : gt y (length y - 1) = gt e (i2 - 1)) by (rewrite Ly, Lx; unfold y; rewrite slice_get by lia; f_equal; lia).
  split. { intros a' b'. rewrite (SP a' b'). pose proof (pow2_ge_0 (a' - s)). pose proof (pow2_ge_0 (average y - a' * average x - b')). nra. }
  split. { intros a' b' H. rewrite (SP a' b') in H. pose proof (pow2_ge_0 (a' - s)) as U. pose proof (pow2_ge_0 (average y - a' * average x - b')) as V.
    assert (U0 : (a' - s) ^ 2 = 0) by nra. assert (A : a' = s) by (apply Rminus_diag_uniq; destruct (Req_dec (a' - s) 0) as [|K]; auto; pose proof (Rlt_0_sqr _ K) as W; unfold Rsqr in W; nra).
    subst a'. split; auto. assert (V0 : (average y - s * average x - b') ^ 2 = 0) by nra. fold b in V0.
    symmetry. apply Rminus_diag_uniq. destruct (Req_dec (b - b') 0) as [|K]; auto. pose proof (Rlt_0_sqr _ K) as W. unfold Rsqr in W. nra. }
  assert (FY : falling y) by (apply falling_slice; auto). destruct (cov_falling x y Ly ltac:(lia) ltac:(now apply time_slice_inc) FY) as (_ & CN).
  rewrite Y0, Y1 in CN. split.
  - intros SL. specialize (CN SL). assert (S0 : s < 0) by (unfold s; apply Rmult_lt_reg_r with (cov x x); auto; unfold Rdiv; rewrite Rmult_assoc, Rinv_l by lra; lra).
    split; auto. destruct (Req_EM_T (cov x x) 0); [lra|]. pose proof (cauchy x y Ly ltac:(lia) Px) as CS.
    assert (Py : 0 < cov y y) by (pose proof (cov_pos y); nra). destruct (Req_EM_T (cov y y) 0); [lra|]. eexists. split. reflexivity.
    set (u := sqrt (cov x x)). set (v := sqrt (cov y y)). assert (Pu : 0 < u) by now apply sqrt_lt_R0. assert (Pv : 0 < v) by now apply sqrt_lt_R0.
    assert (Eu : u * u = cov x x) by (apply sqrt_sqrt; lra). assert (Ev : v * v = cov y y) by (apply sqrt_sqrt; lra).
    assert (Puv : 0 < u * v) by nra. split.
    + apply Rmult_le_reg_r with (u * v); auto. unfold Rdiv. rewrite Rmult_assoc, Rinv_l by lra. rewrite Rmult_1_r.
      assert ((- cov x y) * (- cov x y) <= (u * v) * (u * v)) by nra. apply Rnot_lt_le. intros K. nra.
    + apply Rmult_lt_reg_r with (u * v); auto. unfold Rdiv. rewrite Rmult_assoc, Rinv_l by lra. lra.
  - intros EQ. assert (K : forall k, (k < length y)%nat -> gt y k = gt e i1).
    { intros k Hk. apply Rle_antisym. rewrite <- Y0. apply FY; lia. rewrite <- EQ, <- Y1. apply FY; lia. }
    assert (CY : forall i, (i < length y)%nat -> gt y i - average y = 0).
    { intros i Hi. rewrite K by auto. unfold average, rtotal. rewrite (sm_ext _ _ (fun _ => gt e i1)) by auto. rewrite sm_const. assert (INR (length y) <> 0) by (rewrite Ly; lra). field. auto. }
    assert (cov x y = 0). { unfold cov. rewrite (sm_ext _ _ (fun _ => 0)). rewrite sm_const. ring. intros i Hi. rewrite CY by lia. ring. }
    assert (cov y y = 0). { unfold cov. rewrite (sm_ext _ _ (fun _ => 0)). rewrite sm_const. ring. intros i Hi. rewrite CY by lia. ring. }
    split. unfold s. rewrite H. unfold Rdiv. ring. destruct (Req_EM_T (cov x x) 0); auto. destruct (Req_EM_T (cov y y) 0); [auto|lra].
Qed.

(** ** The time of a fixed mode *)
(** For every curve that never rises, the samples used are exactly those from the upper down to the lower level, if there are at
    least two of them; the time is the time in which their least squares line (which is unique) falls by the span of the mode,
    and the coefficient lies between -1 and 0. A curve constant in that region gives no time. *)
Theorem C105_regression one fs m e i1 i2 : falling e -> (0 < fs)%nat -> m <> Adaptive -> (S i1 < i2)%nat -> (i2 <= length e)%nat ->
  (forall i, (i < length e)%nat -> (i1 <= i < i2)%nat <-> snd (limits m) <= gt e i < fst (limits m)) ->
  let le := line_error (shown_time (length e) fs) e i1 i2 in
  exists s b, (forall a' b', le s b <= le a' b') /\ (forall a' b', le a' b' <= le s b -> a' = s /\ b' = b) /\
    (gt e (i2 - 1) < gt e i1 -> s < 0 /\ exists c, -1 <= c < 0 /\ reverb_of_curve one fs m e = Ok (Some (- span m / s), Some c)) /\
    (gt e (i2 - 1) = gt e i1 -> reverb_of_curve one fs m e = Ok (None, None)).
Proof.
  intros F Hf Hm I H R le.
  assert (C : cut_index e (fst (limits m)) = i1 /\ cut_index e (snd (limits m)) = i2).
  { split; apply cut_unique; auto; try lia.
    - intros i Hi. destruct (Rle_dec (fst (limits m)) (gt e i)) as [L|L]; auto. destruct (R i1) as [R1 _]; try lia. specialize (R1 ltac:(lia)). pose proof (F i i1 ltac:(lia) ltac:(lia)) as K.
      destruct (R i ltac:(lia)) as [_ R2]. specialize (R2 ltac:(lra)). lia.
    - intros i Hi. destruct (R i1) as [R1 _]; try lia. specialize (R1 ltac:(lia)). pose proof (F i1 i ltac:(lia) ltac:(lia)). lra.
    - intros i Hi. destruct (R (i2 - 1)%nat) as [R1 _]; try lia. specialize (R1 ltac:(lia)). pose proof (F i (i2 - 1)%nat ltac:(lia) ltac:(lia)). lra.
    - intros i Hi. destruct (R i ltac:(lia)) as [_ R2]. destruct (Rlt_dec (gt e i) (snd (limits m))) as [L|L]; auto.
      destruct (R i1) as [R1 _]; try lia. specialize (R1 ltac:(lia)). pose proof (F i1 i ltac:(lia) ltac:(lia)). specialize (R2 ltac:(lra)). lia. }
  destruct C as (C1 & C2). pose proof (coeffs_fit one fs e (fst (limits m)) (snd (limits m)) F Hf) as CF. rewrite C1, C2 in CF. specialize (CF I). cbv zeta in CF. fold le in CF.
  destruct CF as (s & b & r & E & M1 & M2 & N & Z). exists s, b. split; auto. split; auto.
  assert (RC : reverb_of_curve one fs m e = Ok (decay_time (span m) s, r)) by (destruct m; try easy; unfold reverb_of_curve; cbn [limits fst snd] in E; rewrite E; reflexivity).
  rewrite RC. split.
  - intros SL. destruct (N SL) as (S0 & c & -> & Hc). split; auto. exists c. split; auto. unfold decay_time. destruct (Req_EM_T s 0); [lra|]. rewrite Rabs_left by auto.
    do 3 f_equal. field. lra.
  - intros EQ. destruct (Z EQ) as (-> & ->). unfold decay_time. destruct (Req_EM_T 0 0); [reflexivity|lra].
Qed.
Print Assumptions C105_regression.

Lemma cov_line x y k c : length y = length x -> (0 < length x)%nat -> (forall i, (i < length x)%nat -> gt y i = k * gt x i + c) ->
  cov x y = k * cov x x /\ cov y y = k * k * cov x x /\ average y = k * average x + c.
Proof.
  intros E H L. assert (N : INR (length x) <> 0) by (apply not_0_INR; lia).
  assert (A : average y = k * average x + c).
  { unfold average, rtotal. rewrite E. rewrite (sm_ext _ _ (fun i => k * gt x i + c * 1)) by (intros; rewrite L by auto; ring).
    rewrite (sm_lin _ (gt x) (fun _ => 1)), sm_const. field. auto. }
  split; [|split; auto]; unfold cov.
  - rewrite (sm_ext _ _ (fun i => k * ((gt x i - average x) * (gt x i - average x)) + 0 * 0)) by (intros; rewrite L, A by auto; ring). rewrite sm_lin. ring.
  - rewrite E. rewrite (sm_ext _ _ (fun i => k * k * ((gt x i - average x) * (gt x i - average x)) + 0 * 0)) by (intros; rewrite L, A by auto; ring). rewrite sm_lin. ring.
Qed.
(** the slope in dB per second of the times the code attributes *)
Definition shown_slope (L fs : nat) (rho : R) : R := - (rho * (INR fs * INR (L - 1)) / INR L).
Lemma coeffs_line one fs e sv ev rho al : (0 < fs)%nat -> (cut_index e ev <= length e)%nat -> (S (cut_index e sv) < cut_index e ev)%nat -> 0 < rho ->
  (forall i, (cut_index e sv <= i < cut_index e ev)%nat -> gt e i = al - rho * INR i) ->
  coeffs one (time_vector (length e) (INR fs)) e sv ev = Ok ((shown_slope (length e) fs rho, al), Some (-1)).
Proof.
  intros Hf C I Hr LN. pose proof (coeffs_eq one (time_vector (length e) (INR fs)) e sv ev (time_len _ _) C I) as Q. cbv zeta in Q.
  set (L := length e) in *. set (i1 := cut_index e sv) in *. set (i2 := cut_index e ev) in *. set (x := slice i1 i2 (time_vector L (INR fs))) in *. set (y := slice i1 i2 e) in *.
  assert (Lx : length x = (i2 - i1)%nat) by (apply slice_len; rewrite time_len; auto). assert (Ly : length y = length x) by (rewrite Lx; now apply slice_len).
  assert (Px : 0 < cov x x) by (apply cov_inc; [lia|apply time_slice_inc; auto; lia]).
  assert (P1 : INR L <> 0) by (apply not_0_INR; lia). assert (P2 : INR (L - 1) <> 0) by (apply not_0_INR; lia). assert (P3 : INR fs <> 0) by (apply not_0_INR; lia).
  set (k := shown_slope L fs rho). assert (K0 : k < 0).
  { unfold k, shown_slope. assert (0 < rho * (INR fs * INR (L - 1)) / INR L); [|lra].
    apply Rdiv_lt_0_compat; [|apply lt_0_INR; lia]. repeat apply Rmult_lt_0_compat; auto; apply lt_0_INR; lia. }
  destruct (cov_line x y k al Ly ltac:(lia)) as (A & B & D).
  { intros i Hi. unfold y, x. rewrite !slice_get by lia. rewrite time_get by lia. rewrite LN by lia. unfold k, shown_slope, shown_time. field. auto. }
  rewrite Q. rewrite A, B, D. destruct (Req_EM_T (cov x x) 0); [lra|]. assert (Pk : 0 < k * k) by nra.
  destruct (Req_EM_T (k * k * cov x x) 0) as [Z|Z]; [nra|]. rewrite sqrt_mult by lra.
  replace (sqrt (k * k)) with (- k) by (rewrite <- (sqrt_square (- k)) by lra; f_equal; ring). set (u := sqrt (cov x x)).
  assert (Pu : 0 < u) by now apply sqrt_lt_R0. assert (Eu : u * u = cov x x) by (apply sqrt_sqrt; lra). repeat f_equal.
  - field. lra.
  - field. lra.
  - rewrite <- Eu. field. lra.
Qed.
Lemma cuts e m i1 i2 : falling e -> (i1 < i2)%nat -> (i2 <= length e)%nat ->
  (forall i, (i < length e)%nat -> (i1 <= i < i2)%nat <-> snd m <= gt e i < fst m) -> cut_index e (fst m) = i1 /\ cut_index e (snd m) = i2.
Proof.
  intros F I H R. split; apply cut_unique; auto; try lia.
  - intros i Hi. destruct (Rle_dec (fst m) (gt e i)) as [L|L]; auto. destruct (R i1) as [R1 _]; try lia. specialize (R1 ltac:(lia)). pose proof (F i i1 ltac:(lia) ltac:(lia)) as K.
    destruct (R i ltac:(lia)) as [_ R2]. specialize (R2 ltac:(lra)). lia.
  - intros i Hi. destruct (R i1) as [R1 _]; try lia. specialize (R1 ltac:(lia)). pose proof (F i1 i ltac:(lia) ltac:(lia)). lra.
  - intros i Hi. destruct (R (i2 - 1)%nat) as [R1 _]; try lia. specialize (R1 ltac:(lia)). pose proof (F i (i2 - 1)%nat ltac:(lia) ltac:(lia)). lra.
  - intros i Hi. destruct (R i ltac:(lia)) as [_ R2]. destruct (Rlt_dec (gt e i) (snd m)) as [L|L]; auto.
    destruct (R i1) as [R1 _]; try lia. specialize (R1 ltac:(lia)). pose proof (F i1 i ltac:(lia) ltac:(lia)). specialize (R2 ltac:(lra)). lia.
Qed.
Lemma time_of_slope L fs rho f : (2 <= L)%nat -> (0 < fs)%nat -> 0 < rho -> decay_time f (shown_slope L fs rho) = Some (f / (rho * INR fs) * (INR L / INR (L - 1))).
Proof.
  intros HL Hf Hr. assert (0 < INR L) by (apply lt_0_INR; lia). assert (0 < INR (L - 1)) by (apply lt_0_INR; lia). assert (0 < INR fs) by (apply lt_0_INR; lia).
  assert (0 < rho * (INR fs * INR (L - 1)) / INR L) by (apply Rdiv_lt_0_compat; auto; repeat apply Rmult_lt_0_compat; auto).
  unfold decay_time, shown_slope. destruct (Req_EM_T _ 0); [lra|]. rewrite Rabs_Ropp, Rabs_right by lra. f_equal. field. lra.
Qed.
(** A curve that falls by rho dB per sample between the limits of the mode has the coefficient -1 and the time in which it falls by the
    span, up to the factor L / (L - 1) of the time axis, L being the length of the curve. *)
Theorem C105_exact one fs m e i1 i2 rho al : falling e -> (0 < fs)%nat -> m <> Adaptive -> (S i1 < i2)%nat -> (i2 <= length e)%nat ->
  (forall i, (i < length e)%nat -> (i1 <= i < i2)%nat <-> snd (limits m) <= gt e i < fst (limits m)) ->
  0 < rho -> (forall i, (i1 <= i < i2)%nat -> gt e i = al - rho * INR i) ->
  reverb_of_curve one fs m e = Ok (Some (span m / (rho * INR fs) * (INR (length e) / INR (length e - 1))), Some (-1)).
Proof.
  intros F Hf Hm I H R Hr LN. destruct (cuts e (limits m) i1 i2 F ltac:(lia) H R) as (C1 & C2).
  assert (E : coeffs one (time_vector (length e) (INR fs)) e (fst (limits m)) (snd (limits m)) = Ok ((shown_slope (length e) fs rho, al), Some (-1)))
    by (apply coeffs_line; rewrite ?C1, ?C2; auto).
  rewrite <- time_of_slope by (auto; lia). destruct m; try easy; unfold reverb_of_curve; cbn [limits fst snd] in E; rewrite E; reflexivity.
Qed.
Print Assumptions C105_exact.
(** Refuted: the true time of such a decay, span / (rho fs), is never reported, but a longer one. *)
Theorem C105_true_time_refuted one fs m e i1 i2 rho al : falling e -> (0 < fs)%nat -> m <> Adaptive -> (S i1 < i2)%nat -> (i2 <= length e)%nat ->
  (forall i, (i < length e)%nat -> (i1 <= i < i2)%nat <-> snd (limits m) <= gt e i < fst (limits m)) ->
  0 < rho -> (forall i, (i1 <= i < i2)%nat -> gt e i = al - rho * INR i) ->
  exists t, reverb_of_curve one fs m e = Ok (Some t, Some (-1)) /\ span m / (rho * INR fs) < t /\ t = span m / (rho * INR fs) + span m / (rho * INR fs) / INR (length e - 1).
Proof.
  intros F Hf Hm I H R Hr LN. eexists. split. eapply C105_exact; eauto. assert (0 < INR (length e - 1)) by (apply lt_0_INR; lia).
  assert (E : INR (length e) = INR (length e - 1) + 1) by (rewrite <- S_INR; f_equal; lia). assert (0 < INR fs) by (apply lt_0_INR; lia).
  assert (0 < span m / (rho * INR fs)) by (apply Rdiv_lt_0_compat; [destruct m; cbn; lra|nra]). set (q := span m / (rho * INR fs)) in *.
  assert (T : q * (INR (length e) / INR (length e - 1)) = q + q / INR (length e - 1)) by (rewrite E; field; lra). rewrite T. split; auto.
  assert (0 < q / INR (length e - 1)) by (apply Rdiv_lt_0_compat; auto). lra.
Qed.
Print Assumptions C105_true_time_refuted.
(** A curve that ends before the lower limit of T30 (or T20) gives for T60 (or T30) the same result: nothing tells that the level was not reached. *)
Theorem C105_unreached one fs e : falling e -> (forall i, (i < length e)%nat -> -35 <= gt e i) ->
  reverb_of_curve one fs T60 e = reverb_of_curve one fs T30 e /\
  ((forall i, (i < length e)%nat -> -25 <= gt e i) -> reverb_of_curve one fs T30 e = reverb_of_curve one fs T20 e).
Proof.
  intros F H. assert (G : forall v, (forall i, (i < length e)%nat -> v <= gt e i) -> cut_index e v = length e) by (intros; apply cut_unique; auto; intros; lia).
  assert (E : forall a b, (forall i, (i < length e)%nat -> a <= gt e i) -> (forall i, (i < length e)%nat -> b <= gt e i) -> forall t,
    coeffs one t e (-5) a = coeffs one t e (-5) b) by (intros a b A B t; unfold coeffs; now rewrite (G a A), (G b B)).
  unfold reverb_of_curve. split.
  - rewrite (E (-65) (-35)); auto. intros i Hi. specialize (H i Hi). lra.
  - intros H2. rewrite (E (-35) (-25)); auto.
Qed.
Print Assumptions C105_unreached.
(** Fewer than two samples between the limits raise an error. *)
Theorem C105_too_few one fs m e i1 i2 : falling e -> (0 < fs)%nat -> m <> Adaptive -> (i1 <= i2 <= S i1)%nat -> (i2 <= length e)%nat ->
  (forall i, (i < i1)%nat -> fst (limits m) <= gt e i) -> (forall i, (i1 <= i < i2)%nat -> snd (limits m) <= gt e i < fst (limits m)) ->
  (forall i, (i2 <= i < length e)%nat -> gt e i < snd (limits m)) -> exists x, reverb_of_curve one fs m e = Err x.
Proof.
  intros F Hf Hm I H A B D. assert (O : snd (limits m) < fst (limits m)) by (destruct m; cbn; lra).
  assert (C1 : cut_index e (fst (limits m)) = i1).
  { apply cut_unique; auto. lia. intros i Hi. destruct (Nat.lt_ge_cases i i2). apply B; lia. specialize (D i ltac:(lia)). lra. }
  assert (C2 : cut_index e (snd (limits m)) = i2).
  { apply cut_unique; auto. intros i Hi. destruct (Nat.lt_ge_cases i i1). specialize (A i H0). lra. apply B. lia. }
  assert (E : exists x, coeffs one (time_vector (length e) (INR fs)) e (fst (limits m)) (snd (limits m)) = Err x).
  { unfold coeffs. rewrite C1, C2. assert (Lx : length (slice i1 i2 (time_vector (length e) (INR fs))) = (i2 - i1)%nat) by (apply slice_len; rewrite time_len; auto).
    destruct (slice i1 i2 (time_vector (length e) (INR fs))) as [|a [|b t]]; cbn [length] in Lx; [eexists; reflexivity|eexists; reflexivity|lia]. }
  destruct E as (x & E). exists x. destruct m; try easy; unfold reverb_of_curve; cbn [limits fst snd] in E; rewrite E; reflexivity.
Qed.
Print Assumptions C105_too_few.

Lemma seq_const {T U} (f : T -> result U) c l : (forall v, In v l -> f v = Ok c) -> seq_result (map f l) = Ok (repeat c (length l)).
Proof. induction l; intros H; cbn; auto. rewrite H by (now left). rewrite IHl by (intros; apply H; now right). reflexivity. Qed.
Lemma first_none_rep {T} (c : T) n : first_none (repeat (Some c) n) = None.
Proof. induction n; cbn; auto. now rewrite IHn. Qed.
Lemma cut_mono e u v : falling e -> v <= u -> (cut_index e u <= cut_index e v)%nat.
Proof.
  intros F H. destruct (cut_spec e u F) as (A & B & D). destruct (cut_spec e v F) as (A' & B' & D'). apply Nat.nlt_ge. intros L.
  specialize (B _ L). specialize (D' (cut_index e v) ltac:(lia)). lra.
Qed.
(** A curve that falls by rho dB per sample from its start, with two samples in the first 10 dB and two below -5 dB: the adaptive mode
    gives the same time as T20, T30 and T60. *)
Theorem C105_adaptive_exact one fs e rho : (0 < fs)%nat -> 0 < rho <= 5 -> (3 <= length e)%nat -> 5 < rho * INR (length e - 2) ->
  (forall i, (i < length e)%nat -> gt e i = - rho * INR i) ->
  reverb_of_curve one fs Adaptive e = Ok (Some (60 / (rho * INR fs) * (INR (length e) / INR (length e - 1))), Some (-1)).
Proof.
  intros Hf Hr HL H5 LN. set (L := length e) in *.
  assert (F : falling e). { intros i j Hi Hj. fold L in Hj. rewrite !LN by lia. apply le_INR in Hi. nra. }
  assert (CP : forall sv ev, ev <= sv -> (S (cut_index e sv) < cut_index e ev)%nat ->
    coeffs one (time_vector L (INR fs)) e sv ev = Ok ((shown_slope L fs rho, 0), Some (-1))).
  { intros sv ev _ I. apply coeffs_line; auto; try lra. apply cut_spec; auto. intros i Hi. rewrite LN. ring. pose proof (cut_spec e ev F). fold L in H. lia. }
  assert (GE : forall v k, (k < L)%nat -> - rho * INR k >= v -> (k < cut_index e v)%nat).
  { intros v k Hk Q. apply Nat.nle_gt. intros N. destruct (cut_spec e v F) as (_ & _ & D). specialize (D k ltac:(fold L; lia)). rewrite LN in D by auto. lra. }
  assert (LT : forall v k, (k <= L)%nat -> (forall j, (k <= j < L)%nat -> - rho * INR j < v) -> (cut_index e v <= k)%nat).
  { intros v k Hk Q. apply Nat.nlt_ge. intros N. destruct (cut_spec e v F) as (A & B & _). specialize (B k N). rewrite LN in B by (fold L in A; lia). specialize (Q k ltac:(fold L in A; lia)). lra. }
  assert (E0 : (S (cut_index e 0) < cut_index e (-10))%nat).
  { assert ((cut_index e 0 <= 1)%nat) by (apply LT; [lia|]; intros j Hj; assert (1 <= INR j) by (apply (le_INR 1); lia); nra).
    assert ((2 < cut_index e (-10))%nat) by (apply GE; [lia|]; cbn [INR]; lra). lia. }
  set (i1 := cut_index e (-5)). assert (I1 : (S i1 < L)%nat).
  { assert ((i1 <= L - 2)%nat); [|lia]. apply LT. lia. intros j Hj. assert (INR (L - 2) <= INR j) by (apply le_INR; lia). nra. }
  assert (P1 : (0 < i1)%nat) by (apply GE; [lia|]; cbn [INR]; lra).
  assert (E1 : forall v, v <= -25 -> (S i1 < cut_index e v)%nat).
  { intros v Hv. apply GE. lia. destruct (cut_spec e (-5) F) as (_ & B & _). fold i1 in B. specialize (B (i1 - 1)%nat ltac:(lia)). rewrite LN in B by lia.
    replace (INR (S i1)) with (INR (i1 - 1) + 2) by (replace 2 with (INR 2) by reflexivity; rewrite <- plus_INR; f_equal; lia). nra. }
  assert (D0 : shown_slope L fs rho < 0).
  { unfold shown_slope. assert (0 < rho * (INR fs * INR (L - 1)) / INR L); [|lra]. apply Rdiv_lt_0_compat; [|apply lt_0_INR; lia]. repeat apply Rmult_lt_0_compat; try lra; apply lt_0_INR; lia. }
  unfold reverb_of_curve, optimal. fold L. rewrite (CP 0 (-10)) by (auto; lra). cbn [bind]. rewrite (CP (-5) (-35)) by (fold i1; try apply E1; lra). cbn [bind fst snd].
  destruct (Req_EM_T (shown_slope L fs rho) 0); [lra|].
  destruct (Rlt_dec (-6 * 10 / shown_slope L fs rho * 10) (-60 / shown_slope L fs rho)) as [K|_].
  { exfalso. assert (0 < -60 / shown_slope L fs rho) by (replace (-60 / shown_slope L fs rho) with (60 / - shown_slope L fs rho) by (field; lra); apply Rdiv_lt_0_compat; lra).
    replace (-6 * 10 / shown_slope L fs rho * 10) with (10 * (-60 / shown_slope L fs rho)) in K by (field; lra). lra. }
  assert (ST : forall v, In v (end_steps (-5)) -> v <= -25).
  { intros v Hv. unfold end_steps, mk in Hv. apply in_map_iff in Hv as (k & <- & _). pose proof (pos_INR k). lra. }
  assert (RS : seq_result (map (fun st => pearsonr (slice (cut_index e (-5)) (cut_index e st) (time_vector L (INR fs))) (slice (cut_index e (-5)) (cut_index e st) e)) (end_steps (-5)))
    = Ok (repeat (Some (-1)) 40)).
  { rewrite (seq_const _ (Some (-1))). { unfold end_steps. now rewrite mk_length. }
    intros v Hv. pose proof (CP (-5) v ltac:(specialize (ST v Hv); lra) (E1 v (ST v Hv))) as Q. unfold coeffs in Q. apply bind_inv in Q as (p & _ & Q). apply bind_inv in Q as (r & Q1 & Q2). rewrite Q1. injection Q2 as _ ->. reflexivity. }
  unfold best_fit. cbv zeta. rewrite RS. cbn [bind fst snd]. set (k := argmin_nan (repeat (Some (-1)) 40)).
  assert (Hk : (k < 40)%nat).
  { unfold k, argmin_nan. rewrite first_none_rep. unfold argmin. destruct (argmax_spec (map Ropp (map (fun o => match o with Some v => v | None => 0 end) (repeat (Some (-1)) 40)))) as (A & _). discriminate.
    rewrite !map_length, repeat_length in A. exact A. }
  rewrite (CP (-5) (gt (end_steps (-5)) k)).
  - cbn [bind fst snd]. rewrite (nth_repeat_lt _ _ _ _ Hk). rewrite time_of_slope by (auto; try lia; lra). reflexivity.
  - assert (gt (end_steps (-5)) k <= -25); [|lra]. apply ST. apply nth_In. unfold end_steps. now rewrite mk_length.
  - apply E1. apply ST. apply nth_In. unfold end_steps. now rewrite mk_length.
Qed.
Print Assumptions C105_adaptive_exact.
(** The adaptive mode on any curve that never rises: if there is a time, it is the time in which the least squares line of some region falls by
    60 dB. The region holds the samples below a start level, down to a level 20 to 59 dB lower, and the start level is -5 dB or the level at
    which the lines of the first 10 dB and of -5 to -35 dB meet. No other end of the region has a stronger correlation. *)
Definition least_line (fs : nat) (e : list R) (u v s b : R) : Prop := exists i1 i2, (S i1 < i2)%nat /\ (i2 <= length e)%nat /\
  (forall i, (i < length e)%nat -> (i1 <= i < i2)%nat <-> v <= gt e i < u) /\
  let le := line_error (shown_time (length e) fs) e i1 i2 in (forall a' b', le s b <= le a' b') /\ (forall a' b', le a' b' <= le s b -> a' = s /\ b' = b).
Lemma pearson_two x y r : pearsonr x y = Ok r -> (2 <= length x)%nat.
Proof. unfold pearsonr. destruct (Nat.ltb_spec (length x) 2); [discriminate|auto]. Qed.
Lemma coeffs_least one fs e sv ev p r : falling e -> (0 < fs)%nat -> coeffs one (time_vector (length e) (INR fs)) e sv ev = Ok (p, r) ->
  least_line fs e sv ev (fst p) (snd p) /\ fst p <= 0 /\ (fst p <> 0 -> exists c, r = Some c /\ -1 <= c < 0).
Proof.
  intros F Hf E. assert (I : (S (cut_index e sv) < cut_index e ev)%nat).
  { pose proof E as E'. unfold coeffs in E'. apply bind_inv in E' as (q & _ & E'). apply bind_inv in E' as (r' & P & _). apply pearson_two in P.
    rewrite slice_len in P; [lia|]. rewrite time_len. apply cut_spec; auto. }
  destruct (coeffs_fit one fs e sv ev F Hf I) as (s & b & r' & E' & M & U & N & Z). rewrite E in E'. injection E' as -> ->. cbn [fst snd].
  destruct (cut_spec e sv F) as (A1 & B1 & D1). destruct (cut_spec e ev F) as (A2 & B2 & D2). split; [|split].
  - exists (cut_index e sv), (cut_index e ev). split; auto. split; auto. split; [|split; auto]. intros i Hi. split.
    + intros (H1 & H2). split; [apply B2; lia|apply D1; lia].
    + intros (H1 & H2). split. apply Nat.nlt_ge. intros K. specialize (B1 i K). lra. apply Nat.nle_gt. intros K. specialize (D2 i ltac:(lia)). lra.
  - assert (G : gt e (cut_index e ev - 1) <= gt e (cut_index e sv)) by (apply F; lia). destruct (Rle_lt_or_eq_dec _ _ G) as [G'|G']. destruct (N G'). lra. destruct (Z G'). lra.
  - intros S0. assert (G : gt e (cut_index e ev - 1) <= gt e (cut_index e sv)) by (apply F; lia). destruct (Rle_lt_or_eq_dec _ _ G) as [G'|G']. apply (N G'). destruct (Z G'). contradiction.
Qed.
Lemma first_none_spec {T} (l : list (option T)) : match first_none l with Some i => (i < length l)%nat /\ nth i l None = None | None => forall i, (i < length l)%nat -> nth i l None <> None end.
Proof.
  induction l as [|[a|] l IH]; cbn [first_none length].
  - intros; lia.
  - destruct (first_none l) as [i|]; cbn [option_map]. destruct IH. split; auto. lia. intros [|i] Hi. discriminate. cbn [nth]. apply IH. lia.
  - split; [lia|reflexivity].
Qed.
Theorem C105_adaptive_fit one fs e t r : falling e -> (0 < fs)%nat -> reverb_of_curve one fs Adaptive e = Ok (Some t, r) ->
  exists sv k s b c, (k < 40)%nat /\ least_line fs e sv (sv - 20 - INR k) s b /\ s < 0 /\ t = - 60 / s /\ r = Some c /\ -1 <= c < 0 /\
    (forall j, (j < 40)%nat -> exists c', pearsonr (slice (cut_index e sv) (cut_index e (sv - 20 - INR j)) (time_vector (length e) (INR fs)))
       (slice (cut_index e sv) (cut_index e (sv - 20 - INR j)) e) = Ok (Some c') /\ c <= c') /\
    (sv = -5 \/ exists es ei hs hi m, least_line fs e 0 (-10) es ei /\ least_line fs e (-5) (-35) hs hi /\ sv = es * m + ei /\ sv = hs * m + hi).
Proof.
  intros F Hf E. cbn [reverb_of_curve] in E. set (T := time_vector (length e) (INR fs)) in *. unfold optimal in E.
  apply bind_inv in E as ([[es ei] re] & E1 & E). apply bind_inv in E as ([[hs hi] rh] & E2 & E). cbn [fst] in E.
  destruct (coeffs_least _ _ _ _ _ _ _ F Hf E1) as (L1 & N1 & _). destruct (coeffs_least _ _ _ _ _ _ _ F Hf E2) as (L2 & N2 & _). cbn [fst snd] in *.
  destruct (Req_EM_T es 0); [discriminate|]. destruct (Req_EM_T hs 0); [discriminate|].
  set (sv := if Rlt_dec _ _ then _ else _) in E. apply bind_inv in E as ([ev rb] & E3 & E). apply bind_inv in E as ([[s b] rc] & E4 & E). cbn [fst snd] in *.
  destruct (coeffs_least _ _ _ _ _ _ _ F Hf E4) as (L3 & N3 & C3). cbn [fst snd] in *. injection E as ET <-.
  unfold decay_time in ET. destruct (Req_EM_T s 0) as [|S0]; [discriminate|]. injection ET as ET. destruct (C3 S0) as (c & -> & Hc).
  unfold best_fit in E3. cbv zeta in E3. apply bind_inv in E3 as (rs & E5 & E3). apply seq_result_inv in E5.
  assert (LR : length rs = 40%nat). { apply (f_equal (@length _)) in E5. rewrite !map_length in E5. unfold end_steps in E5. rewrite mk_length in E5. auto. }
  set (k := argmin_nan rs) in *. injection E3 as EV ER.
  assert (PR : forall j, (j < 40)%nat -> pearsonr (slice (cut_index e sv) (cut_index e (sv - 20 - INR j)) T) (slice (cut_index e sv) (cut_index e (sv - 20 - INR j)) e) = Ok (nth j rs None)).
  { intros j Hj. pose proof (f_equal (fun l => nth j l (Err ValueError)) E5) as Q. cbv beta in Q. rewrite (nth_map' _ _ _ 0) in Q by (unfold end_steps; rewrite mk_length; auto).
    rewrite (nth_map' _ _ _ None) in Q by lia. unfold end_steps in Q. rewrite nth_mk in Q by auto. exact Q. }
  assert (K : (k < 40)%nat /\ (nth k rs None = None \/ forall j, (j < 40)%nat -> exists c c', nth k rs None = Some c /\ nth j rs None = Some c' /\ c <= c')).
  { unfold k, argmin_nan. pose proof (first_none_spec rs) as FN. destruct (first_none rs) as [i|]. { destruct FN. split; [lia|auto]. }
    unfold argmin. set (w := fun o : option R => match o with Some v => v | None => 0 end). destruct (argmax_spec (map Ropp (map w rs))) as (A & B).
    { destruct rs; [discriminate|]. discriminate. } rewrite !map_length, LR in A. split; auto. right. intros j Hj.
    set (q := argmax _) in *. specialize (FN q ltac:(lia)) as Fq. specialize (FN j ltac:(lia)) as Fj. destruct (nth q rs None) as [cq|] eqn:Eq; [|congruence]. destruct (nth j rs None) as [cj|] eqn:Ej; [|congruence].
    exists cq, cj. split; auto. split; auto. rewrite !map_length in B. destruct B as (B & _). specialize (B j ltac:(lia)). unfold get in B.
    rewrite !(nth_map' Ropp _ _ (w None)) in B by (rewrite map_length; lia). rewrite !(nth_map' w _ _ None) in B by lia. rewrite Eq, Ej in B. cbn [w] in B. lra. }
  destruct K as (K & KM).
  assert (EVk : ev = sv - 20 - INR k). { rewrite <- EV. unfold get, end_steps. now rewrite nth_mk by auto. }
  assert (RK : nth k rs None = Some c). { specialize (PR k K). rewrite <- EVk in PR. unfold coeffs in E4. apply bind_inv in E4 as (q & _ & E4). apply bind_inv in E4 as (r' & P & E4). rewrite P in PR. injection PR as <-. now injection E4 as _ ->. }
  exists sv, k, s, b, c. split; auto. rewrite <- EVk at 1. split; auto. assert (s < 0) by lra. split; auto. split. { rewrite <- ET. rewrite Rabs_left by auto. field. auto. }
  split. { rewrite <- ER. exact RK. } split; auto. split.
  - intros j Hj. destruct KM as [KM|KM]; [congruence|]. destruct (KM j Hj) as (c1 & c' & Q1 & Q2 & Q3). exists c'. rewrite PR by auto. rewrite Q2. split; auto. congruence.
  - unfold sv. destruct (Rlt_dec (-6 * 10 / es * 10) (-60 / hs)) as [Q|]; [|now left]. right. exists es, ei, hs, hi, ((ei - hi) / (hs - es)). split; auto. split; auto. split; auto.
    assert (hs <> es). { intros ->. assert (0 < -60 / es) by (replace (-60 / es) with (60 / - es) by (field; lra); apply Rdiv_lt_0_compat; lra). replace (-6 * 10 / es * 10) with (10 * (-60 / es)) in Q by (field; lra). lra. }
    field. lra.
Qed.
Print Assumptions C105_adaptive_fit.
(** The hypotheses hold for a curve that falls by 1 dB per sample. *)
Example C105_adaptive_fit_inst one : exists t r, reverb_of_curve one 100 Adaptive (mk 30 (fun i => -1 * INR i)) = Ok (Some t, r) /\ falling (mk 30 (fun i => -1 * INR i)).
Proof.
  do 2 eexists. split.
  - apply (C105_adaptive_exact one 100 _ 1); try lia; try lra; rewrite mk_length. lia. cbn [INR Nat.sub]. lra. intros i Hi. rewrite (get_mk (HA := CRing_R)) by auto. lra.
  - intros i j H J. rewrite mk_length in J. rewrite !(get_mk (HA := CRing_R)) by lia. apply le_INR in H. lra.
Qed.

(** ** The energy decay curve *)
Lemma after_cumsum p i : (i < length p)%nat -> rtotal p - cumsum p i = after p i.
Proof.
  intros H. unfold rtotal, cumsum, after. replace (length p) with (S i + (length p - S i))%nat at 1 by lia. rewrite sum_split. cbn [radd CRing_R].
  match goal with |- ?a + ?b - ?c = ?d => replace (a + b - c) with b by ring end. reflexivity.
Qed.
Lemma first_index_spec {T} (P : T -> bool) l d : match first_index P l with
  | Some i => (i < length l)%nat /\ P (nth i l d) = true /\ forall j, (j < i)%nat -> P (nth j l d) = false
  | None => forall j, (j < length l)%nat -> P (nth j l d) = false end.
Proof.
  induction l as [|v t IH]; cbn [first_index length]. intros; lia. destruct (P v) eqn:E.
  - repeat split; auto. lia. intros; lia.
  - destruct (first_index P t) as [i|]; cbn [option_map].
    + destruct IH as (A & B & D). repeat split; auto. lia. intros [|j] Hj; auto. apply D. lia.
    + intros [|j] Hj; auto. apply IH. lia.
Qed.
Lemma leb_true a b : leb a b = true <-> a <= b. Proof. unfold leb. destruct (Rle_dec a b); split; auto; discriminate. Qed.
Lemma leb_false a b : leb a b = false <-> b < a. Proof. unfold leb. destruct (Rle_dec a b); split; intros; auto; try discriminate; lra. Qed.
Lemma get_sub p nz i : (i < length p)%nat -> gt (map (fun v => v - nz) p) i = gt p i - nz.
Proof. intros. unfold get. now rewrite (nth_map' (fun v => v - nz) p i (r0 : R) (r0 : R)). Qed.
Lemma after_ext p q i : length p = length q -> (forall j, (j < length p)%nat -> gt p j = gt q j) -> after p i = after q i.
Proof. intros E H. unfold after. rewrite E. apply sm_ext. intros k Hk. apply H. lia. Qed.
(** The two possible outcomes of the integration. *)
Lemma integrate_spec fs nz av c p : let e := integrate fs nz av c p in
  (length e = (length p * 95 / 100)%nat /\ (forall i, (i < length e)%nat -> gt e i = after p i)) \/
  (av = false /\ (length e <= length p)%nat /\ ((0 < length p)%nat -> (0 < length e)%nat) /\
   (forall i, (i < length e)%nat -> 0 < gt e i /\ gt e i = after (map (fun v => v - nz) p) i + c) /\
   ((length e < length p)%nat -> after (map (fun v => v - nz) p) (length e) + c <= 0)).
Proof.
  intros e. unfold e, integrate. set (q := map (fun v => v - nz) p). assert (Lq : length q = length p) by apply map_length.
  set (w := mk (length q) (fun i => rtotal q + c - cumsum q i)). assert (Lw : length w = length p) by (unfold w; now rewrite mk_length).
  assert (W : forall i, (i < length p)%nat -> gt w i = after q i + c).
  { intros i Hi. unfold w. rewrite (get_mk (HA := CRing_R)) by lia. rewrite <- after_cumsum by lia. ring. }
  assert (N95 : (length p * 95 / 100 <= length p)%nat) by (apply Nat.div_le_upper_bound; lia).
  assert (S : let l := mk (length p * 95 / 100) (fun i => rtotal p - cumsum p i) in length l = (length p * 95 / 100)%nat /\ (forall i, (i < length l)%nat -> gt l i = after p i)).
  { cbv zeta. rewrite mk_length. split; auto. intros i Hi. rewrite (get_mk (HA := CRing_R)) by auto. apply after_cumsum. lia. }
  pose proof (first_index_spec (fun v => leb v 0) w 0) as FI. destruct (first_index (fun v => leb v 0) w) as [k|]; cbv zeta.
  - destruct FI as (A & B & D). apply leb_true in B. destruct av; cbn [orb]; [left; exact S|]. destruct (Nat.leb_spec k ((30 * fs + 500) / 1000)) as [K|K]; [left; exact S|].
    right. rewrite firstn_length_le by lia. split; auto. split. lia. split. lia. split.
    + intros i Hi. rewrite get_first by auto. specialize (D i Hi). apply leb_false in D. rewrite <- W by lia. split; auto.
    + intros Hk. rewrite <- W by lia. exact B.
  - destruct av; [left; exact S|]. right. rewrite Lw. repeat split; auto; try lia.
    + specialize (FI i ltac:(lia)). now apply leb_false in FI.
Qed.
Lemma to_levels_spec w e : to_levels w = Ok e -> (0 < length e)%nat /\ length e = length w /\ gt e 0 = 0 /\ forall i, (i < length e)%nat -> gt e i = lev (gt w i) - lev (gt w 0).
Proof.
  intros H. unfold to_levels in H. destruct w as [|v t]; [discriminate|]. injection H as <-. cbn [length]. rewrite map_length. repeat split; try lia.
  - cbn. ring.
  - intros i Hi. unfold get. change (db_power v - db_power v :: map (fun w => db_power w - db_power v) t) with (map (fun w => db_power w - db_power v) (v :: t)).
    rewrite (nth_map' (fun w => db_power w - db_power v) (v :: t) i (r0 : R) (r0 : R)) by (cbn; lia). reflexivity.
Qed.
(** The noise power the code uses: the variance after the stop index or, without trimming, of the samples before the start. *)
Definition noise_of (trim : option nat) (start : nat) (x : list R) : option R :=
  if (stop_index trim x =? length x)%nat then variance (firstn start x) else variance (skipn (stop_index trim x) x).
Definition power_of (trim : option nat) (start : nat) (x : list R) : list R := map (fun v => v * v) (slice start (stop_index trim x) x).
(** Every curve starts at 0 dB. It is either Schroeder's curve of the first 95 % of the samples, or the curve with the noise power
    removed and a constant added, as far as that is positive. *)
Theorem C105_curve one fs trim x e : decay_curve one fs trim x = Ok e ->
  exists start nz, find_ir_start1 (-20) x = Ok start /\ noise_of trim start x = Some nz /\ let p := power_of trim start x in
  (0 < length e)%nat /\ gt e 0 = 0 /\
  ((length e = (length p * 95 / 100)%nat /\ schroeder p e) \/
   ((length e <= length p)%nat /\ exists c, let w i := after (map (fun v => v - nz) p) i + c in
     (nz = 0 -> c = 0) /\ (forall i, (i < length e)%nat -> 0 < w i /\ gt e i = lev (w i) - lev (w 0%nat)) /\ ((length e < length p)%nat -> w (length e) <= 0))).
Proof.
  intros H. unfold decay_curve in H. apply bind_inv in H as (start & E & H). exists start. fold (noise_of trim start x) (power_of trim start x) in H.
  assert (H' : bind (time_smoothing (power_of trim start x) (INR fs) (20 / 1000) None) (fun sm =>
    match fit_start (noise_of trim start x) (power_of trim start x) (map db_power sm), noise_of trim start x with
    | Some k, Some nz => bind (polyfit1 one (skipn k (time_vector (length (power_of trim start x)) (INR fs))) (skipn k (map db_power sm))) (fun fit =>
        let '(av, e) := compensation fs nz fit in to_levels (integrate fs nz av e (power_of trim start x)))
    | _, _ => Err IndexError end) = Ok e) by (destruct (power_of trim start x); [discriminate|exact H]). clear H.
  apply bind_inv in H' as (s & _ & H). destruct (fit_start _ _ _) as [k|]; [|discriminate]. destruct (noise_of trim start x) as [nz|] eqn:NZ; [|discriminate].
  exists nz. split; auto. split; auto. apply bind_inv in H as (fit & _ & H). set (p := power_of trim start x) in *. cbv zeta.
  destruct (compensation fs nz fit) as (av, c) eqn:CO. apply to_levels_spec in H as (A & B & D & G). split; auto. split; auto.
  assert (C0 : nz = 0 -> c = 0). { intros ->. unfold compensation in CO. destruct fit. destruct (Req_EM_T 0 0); [|lra]. now injection CO. }
  destruct (integrate_spec fs nz av c p) as [(I1 & I2)|(I1 & I2 & I3 & I4 & I5)].
  - left. split. congruence. intros i Hi. rewrite G by auto. rewrite !I2 by lia. reflexivity.
  - right. split. lia. exists c. split; auto. rewrite B. split; auto. intros i Hi. rewrite G by lia. destruct (I4 i Hi) as (P & Q). rewrite <- Q. split; auto.
    destruct (I4 0%nat ltac:(lia)) as (_ & Q0). rewrite <- Q0. reflexivity.
Qed.
Print Assumptions C105_curve.
Lemma after_mono p i j : (forall k, 0 <= gt p k) -> (i <= j)%nat -> after p j <= after p i.
Proof.
  intros P H. destruct (Nat.le_gt_cases (length p) (S j)) as [L|L].
  - unfold after at 1. replace (length p - S j)%nat with 0%nat by lia. cbn [sum]. change (0 <= after p i). apply sm_nonneg. intros; apply P.
  - unfold after. replace (length p - S i)%nat with ((j - i) + (length p - S j))%nat by lia. rewrite sum_split. cbn [radd CRing_R].
    assert (0 <= sm (j - i) (fun k => gt p (S i + k))) by (apply sm_nonneg; intros; apply P).
    rewrite (sm_ext (length p - S j) (fun k => gt p (S i + (j - i + k))) (fun k => gt p (S j + k))) by (intros; f_equal; lia). lra.
Qed.
Lemma after_pos p i : (forall k, 0 <= gt p k) -> 0 <= after p i.
Proof. intros P. apply sm_nonneg. intros; apply P. Qed.
Lemma lev_le u v : 0 <= u <= v -> lev u <= lev v.
Proof.
  intros H. unfold lev. pose proof small_le_1 as S. apply level_le. apply rmax_pos; lra. rewrite !Rabs_right by lra. apply Rmax_lub; [|apply Rmax_r].
  eapply Rle_trans; [|apply Rmax_l]. lra.
Qed.
Lemma power_nonneg trim start x k : 0 <= gt (power_of trim start x) k.
Proof.
  destruct (Nat.lt_ge_cases k (length (power_of trim start x))) as [H|H].
  - unfold power_of, get in *. rewrite map_length in H. rewrite (nth_map' (fun v => v * v) _ k (r0 : R) (r0 : R)) by auto. apply Rle_0_sqr.
  - rewrite (get_out (HA := CRing_R)) by auto. cbn. lra.
Qed.
Lemma schroeder_falling p e : (forall k, 0 <= gt p k) -> schroeder p e -> falling e.
Proof.
  intros P S i j Hi Hj. rewrite !S by lia. assert (lev (after p j) <= lev (after p i)); [|lra]. apply lev_le. split. now apply after_pos. now apply after_mono.
Qed.
Lemma decay_unfold one fs trim x start : find_ir_start1 (-20) x = Ok start -> (0 < length (power_of trim start x))%nat -> let p := power_of trim start x in
  let sdb := map db_power (smooth_one (ema_factor (20 / 1000) (INR fs)) p) in
  decay_curve one fs trim x = match fit_start (noise_of trim start x) p sdb, noise_of trim start x with
    | Some k, Some nz => bind (polyfit1 one (skipn k (time_vector (length p) (INR fs))) (skipn k sdb)) (fun fit =>
        let '(av, e) := compensation fs nz fit in to_levels (integrate fs nz av e p))
    | _, _ => Err IndexError end.
Proof.
  intros E H p sdb. unfold decay_curve. rewrite E. cbn [bind]. cbv zeta. fold (noise_of trim start x). fold (power_of trim start x). fold p.
  assert (T : time_smoothing p (INR fs) (20 / 1000) None = Ok (smooth_one (ema_factor (20 / 1000) (INR fs)) p)) by (unfold time_smoothing; destruct (Rlt_dec (20 / 1000) 0); [lra|reflexivity]).
  fold p in H. clearbody p. destruct p; [cbn in H; lia|]. rewrite T. reflexivity.
Qed.
Lemma polyfit_ok one x y : (0 < length x)%nat -> exists f, polyfit1 one x y = Ok f.
Proof. intros H. destruct x as [|a [|b t]]; [cbn in H; lia| |]; eexists; reflexivity. Qed.
Lemma start_room x start : find_ir_start1 (-20) x = Ok start -> (0 < start)%nat ->
  exists q, (start < q < length x)%nat /\ 0 < Rabs (get x q).
Proof.
  intros E H. destruct x as [|v t] eqn:EX; [discriminate|]. rewrite <- EX in *. assert (N : x <> []) by (rewrite EX; discriminate).
  destruct (find_start_iff (-20) x start N) as [F _]. destruct (F E) as (q & (Q1 & _) & (S1 & _ & S3)). exists q.
  destruct S3 as [S3|[S3 _]]; [|lia]. pose proof (from_db_pos true (- Rabs (-20))) as FP. pose proof (Rabs_pos (get x start)) as P0.
  assert (P : 0 < Rabs (get x q)) by (pose proof (Rabs_pos (get x q)); nra).
  assert (B : from_db true (- Rabs (-20)) = / 10) by (rewrite <- small_dB; reflexivity). rewrite B in S3.
  split; auto. split; auto. destruct (Nat.eq_dec start q) as [->|]; [lra|lia].
Qed.
Lemma variance_silent x n : (0 < n)%nat -> (n <= length x)%nat -> (forall i, (i < n)%nat -> gt x i = 0) -> variance (firstn n x) = Some 0.
Proof.
  intros H L Z. assert (Ln : length (firstn n x) = n) by (apply firstn_length_le; auto). unfold variance. destruct (firstn n x) as [|v t] eqn:E; [cbn in Ln; lia|]. rewrite <- E in *.
  assert (G : forall i, (i < n)%nat -> gt (firstn n x) i = 0) by (intros; rewrite get_first by auto; auto).
  f_equal. assert (A : average (firstn n x) = 0). { unfold average, rtotal. rewrite Ln. rewrite (sm_ext _ _ (fun _ => 0)) by auto. rewrite sm_const. unfold Rdiv. ring. }
  unfold cov. rewrite Ln, A. rewrite (sm_ext _ _ (fun _ => 0)). rewrite sm_const. unfold Rdiv. ring. intros i Hi. rewrite G by auto. ring.
Qed.
Lemma gsq (l : list R) i : gt (map (fun v => v * v) l) i = gt l i * gt l i.
Proof.
  destruct (Nat.lt_ge_cases i (length l)) as [H|H]. unfold get. now rewrite (nth_map' (fun v => v * v) l i (r0 : R) (r0 : R)).
  rewrite !(get_out (HA := CRing_R)) by (rewrite ?map_length; auto). cbn. ring.
Qed.
(** Without noise before the start and without trimming there is always a curve, and it is Schroeder's: the level of the energy after
    every sample relative to that after the first one. It never rises and ends at 95 % of the samples or where no energy is left. *)
Theorem C105_noise_free one fs x start : find_ir_start1 (-20) x = Ok start -> (0 < start)%nat -> (forall i, (i < start)%nat -> gt x i = 0) ->
  let p := map (fun v => v * v) (skipn start x) in
  exists e, decay_curve one fs None x = Ok e /\ (0 < length e)%nat /\ schroeder p e /\ falling e /\ gt e 0 = 0 /\
    (length e = (length p * 95 / 100)%nat \/ ((length e < length p)%nat /\ after p (length e) = 0 /\ forall i, (i < length e)%nat -> 0 < after p i)).
Proof.
  intros E Hs Z p. destruct (start_room x start E Hs) as (q & Hq & Pq).
  assert (PE : power_of None start x = p). { unfold power_of, slice, stop_index, p. f_equal. apply firstn_all2. rewrite skipn_length. lia. }
  assert (Lp : length p = (length x - start)%nat) by (unfold p; now rewrite map_length, skipn_length).
  assert (NZ : noise_of None start x = Some 0) by (unfold noise_of, stop_index; rewrite Nat.eqb_refl; apply variance_silent; auto; lia).
  assert (PN : forall k, 0 <= gt p k) by (intros; rewrite <- PE; apply power_nonneg).
  assert (VM : vmax p <> 0).
  { destruct (vmax_spec p) as (_ & B). { intros Q. rewrite Q in Lp. cbn in Lp. lia. }
    specialize (B (gt p (q - start)) ltac:(apply nth_In; lia)). unfold p in B at 1. rewrite gsq, get_skip in B. replace (start + (q - start))%nat with q in B by lia.
    assert (0 < get x q * get x q); [|cbn in *; lra]. replace (get x q * get x q) with (Rabs (get x q) * Rabs (get x q)) by (rewrite <- Rabs_mult; apply Rabs_right; apply Rle_ge, Rle_0_sqr). apply Rmult_lt_0_compat; auto. }
  assert (C : exists e, decay_curve one fs None x = Ok e).
  { pose proof (decay_unfold one fs None x start E) as DU. rewrite PE in DU. specialize (DU ltac:(lia)). cbv zeta in DU. rewrite DU, NZ. unfold fit_start.
    destruct (Req_EM_T 0 0); [|lra]. destruct (Req_EM_T (vmax p) 0); [lra|]. cbn [skipn].
    destruct (polyfit_ok one (time_vector (length p) (INR fs)) (map db_power (smooth_one (ema_factor (20 / 1000) (INR fs)) p))) as (f & ->). { rewrite time_len. lia. } cbn [bind].
    destruct (compensation fs 0 f) as (av, c). assert (N : (0 < length (integrate fs 0 av c p))%nat).
    { destruct (integrate_spec fs 0 av c p) as [(I1 & _)|(_ & _ & I3 & _)]; [|apply I3; lia]. rewrite I1. assert ((1 <= length p * 95 / 100)%nat); [|lia]. apply Nat.div_le_lower_bound; lia. }
    destruct (integrate fs 0 av c p) as [|v t]; [cbn in N; lia|]. eexists. reflexivity. }
  destruct C as (e & Ce). exists e. split; auto. destruct (C105_curve one fs None x e Ce) as (st & nz & E' & NZ' & A & B & D). rewrite E in E'. injection E' as <-. rewrite NZ in NZ'. injection NZ' as <-.
  rewrite PE in D. split; auto.
  assert (Q : forall i, after (map (fun v => v - 0) p) i = after p i). { intros i. apply after_ext. apply map_length. rewrite map_length. intros j Hj. rewrite get_sub by auto. ring. }
  assert (S : schroeder p e /\ (length e = (length p * 95 / 100)%nat \/ ((length e < length p)%nat /\ after p (length e) = 0 /\ forall i, (i < length e)%nat -> 0 < after p i))).
  { destruct D as [(D1 & D2)|(D1 & c & D2 & D3 & D4)]. split; auto. rewrite (D2 eq_refl) in *. split.
    - intros i Hi. destruct (D3 i Hi) as (_ & ->). now rewrite !Q, !Rplus_0_r.
    - right. destruct (Nat.eq_dec (length e) (length p)) as [K|K].
      + exfalso. destruct (D3 (length p - 1)%nat ltac:(lia)) as (P & _). rewrite Q in P. unfold after in P. replace (length p - S (length p - 1))%nat with 0%nat in P by lia. cbn in P. lra.
      + split. lia. split. specialize (D4 ltac:(lia)). rewrite Q in D4. pose proof (after_pos p (length e) PN). lra.
        intros i Hi. destruct (D3 i Hi) as (P & _). rewrite Q in P. lra. }
  destruct S as (S1 & S2). split; auto. split. eapply schroeder_falling; eauto. split; auto.
Qed.
Print Assumptions C105_noise_free.
(** Refuted: a response that starts with its first sample (no sample before the peak is 20 dB below it, or only the first) has no
    reverberation time without trimming: the noise power is the variance of no samples, and an IndexError is raised in every mode. *)
Theorem C105_immediate_refuted one fs mode st x : find_ir_start1 (-20) x = Ok 0%nat -> reverb1 one fs (fun _ => None) mode st x = Err IndexError.
Proof.
  intros E. unfold reverb1. assert (N : x <> []) by (intros ->; discriminate).
  pose proof (decay_unfold one fs None x 0 E) as DU. assert (L : (0 < length (power_of None 0 x))%nat).
  { unfold power_of, slice, stop_index. rewrite map_length, firstn_length, skipn_length. destruct x; [easy|cbn; lia]. }
  specialize (DU L). cbv zeta in DU. rewrite DU. unfold noise_of, stop_index. rewrite Nat.eqb_refl. reflexivity.
Qed.
Print Assumptions C105_immediate_refuted.
(** Refuted: the start index given by the user has no influence. *)
Theorem C105_given_start_refuted one fs trim mode starts starts' m : length starts = length m -> length starts' = length m ->
  reverb_time one fs trim mode starts m = reverb_time one fs trim mode starts' m.
Proof.
  intros H H'. unfold reverb_time. f_equal. revert starts starts' H H'. induction m as [|c m IH]; intros [|a s] [|b s'] H H'; try discriminate; auto.
  cbn [combine map fst snd]. f_equal. apply IH; auto.
Qed.
Print Assumptions C105_given_start_refuted.
Lemma lev_ratio u v : smallest_normal <= u -> smallest_normal <= v -> lev u - lev v = level false (u / v).
Proof.
  intros H K. pose proof small_le_1 as S. unfold lev. rewrite !Rabs_right by lra. rewrite !Rmax_left by auto.
  replace u with (u / v * v) at 1 by (field; lra). rewrite level_mul; try lra. apply Rdiv_lt_0_compat; lra.
Qed.
Lemma level_rpow y : level false (Rpower 10 (y / 10)) = y.
Proof. exact (level_from false y). Qed.
(** From the samples to the time: silence, then a response whose remaining energy falls by rho dB per sample until below the lower
    limit of the mode within the first 95 % of it. *)
Theorem C105_exponential one fs x start m rho : find_ir_start1 (-20) x = Ok start -> (0 < start)%nat -> (forall i, (i < start)%nat -> gt x i = 0) ->
  (0 < fs)%nat -> m <> Adaptive -> 0 < rho <= 5 -> let p := map (fun v => v * v) (skipn start x) in let n := (length p * 95 / 100)%nat in
  (forall i, (i < n)%nat -> smallest_normal <= after p i /\ after p i = after p 0 * Rpower 10 (- rho * INR i / 10)) ->
  - snd (limits m) < rho * INR (n - 1) ->
  exists L, (n <= L <= length p)%nat /\ forall st, reverb1 one fs (fun _ => None) m st x = Ok (Some (span m / (rho * INR fs) * (INR L / INR (L - 1))), Some (-1)).
Proof.
  intros E Hs Z Hf Hm Hr p n G R. destruct (C105_noise_free one fs x start E Hs Z) as (e & De & Le & SC & F & E0 & LE). fold p in SC, LE.
  assert (M10 : 10 <= - snd (limits m)) by (destruct m; cbn; lra). assert (SV : snd (limits m) + 10 <= fst (limits m) <= 0) by (destruct m; cbn; lra).
  assert (N1 : (2 < n)%nat). { apply Nat.nle_gt. intros K. assert (INR (n - 1) <= 1) by (change 1 with (INR 1); apply le_INR; lia). nra. }
  assert (N95 : (n <= length p)%nat) by (apply Nat.div_le_upper_bound; lia).
  assert (LN : (n <= length e)%nat). { destruct LE as [->|(_ & L0 & _)]; [lia|]. apply Nat.nlt_ge. intros K. destruct (G _ K) as (U & _). pose proof small_le_1. lra. }
  exists (length e). split. split; auto. destruct LE as [->|(K & _)]; [exact N95|lia].
  assert (P0 : smallest_normal <= after p 0) by (apply G; lia).
  assert (V : forall i, (i < n)%nat -> gt e i = - rho * INR i).
  { intros i Hi. rewrite SC by lia. destruct (G i Hi) as (U1 & U2). rewrite lev_ratio by auto. rewrite U2. pose proof small_le_1.
    replace (after p 0 * Rpower 10 (- rho * INR i / 10) / after p 0) with (Rpower 10 (- rho * INR i / 10)) by (field; lra). apply level_rpow. }
  set (i1 := cut_index e (fst (limits m))). set (i2 := cut_index e (snd (limits m))).
  destruct (cut_spec e (fst (limits m)) F) as (A1 & B1 & D1). destruct (cut_spec e (snd (limits m)) F) as (A2 & B2 & D2). fold i1 in A1, B1, D1. fold i2 in A2, B2, D2.
  assert (I2 : (i2 < n)%nat). { apply Nat.nle_gt. intros K. specialize (B2 (n - 1)%nat ltac:(lia)). rewrite V in B2 by lia. lra. }
  assert (I1 : (0 < i1)%nat). { apply Nat.nle_gt. intros K. specialize (D1 0%nat ltac:(lia)). lra. }
  assert (I1n : (S i1 < n)%nat).
  { apply Nat.nle_gt. intros K. specialize (B1 (i1 - 1)%nat ltac:(lia)). assert (Q : (n - 2 <= i1 - 1)%nat) by lia. pose proof (F (n - 2)%nat (i1 - 1)%nat Q ltac:(lia)) as W. rewrite (V (n - 2)%nat) in W by lia.
    replace (INR (n - 1)) with (INR (n - 2) + 1) in R by (rewrite <- S_INR; f_equal; lia). lra. }
  assert (I12 : (S i1 < i2)%nat).
  { apply Nat.nle_gt. intros K. specialize (D2 (S i1) ltac:(lia)). specialize (B1 (i1 - 1)%nat ltac:(lia)). rewrite V in D2, B1 by lia.
    replace (INR (S i1)) with (INR (i1 - 1) + 2) in D2 by (replace 2 with (INR 2) by reflexivity; rewrite <- plus_INR; f_equal; lia). lra. }
  intros st. unfold reverb1. rewrite De. cbn [bind]. apply C105_exact with (i1 := i1) (i2 := i2) (al := 0); auto; try lra.
  - intros i Hi. split.
    + intros K. split. apply B2; lia. apply D1. lia.
    + intros K. split. apply Nat.nlt_ge. intros Q. specialize (B1 i Q). lra. apply Nat.nle_gt. intros Q. specialize (D2 i ltac:(lia)). lra.
  - intros i Hi. rewrite V by lia. ring.
Qed.
Print Assumptions C105_exponential.

(** ** Dependence on the level *)
Lemma get_scale g (l : list R) i : gt (map (Rmult g) l) i = g * gt l i.
Proof.
  destruct (Nat.lt_ge_cases i (length l)) as [H|H]. unfold get. now rewrite (nth_map' (Rmult g) l i (r0 : R) (r0 : R)).
  rewrite !(get_out (HA := CRing_R)) by (rewrite ?map_length; auto). cbn. ring.
Qed.
Lemma start_scale g x start : 0 < g -> find_ir_start1 (-20) x = Ok start -> find_ir_start1 (-20) (map (Rmult g) x) = Ok start.
Proof.
  intros Hg E. assert (N : x <> []) by (intros ->; discriminate). destruct (find_start_iff (-20) x start N) as [F _]. destruct (F E) as (q & (Q1 & Q2 & Q3) & (S1 & S2 & S3)).
  apply find_start_iff. { destruct x; [easy|discriminate]. } exists q.
  assert (A : forall j, Rabs (get (map (Rmult g) x) j) = g * Rabs (get x j)) by (intros; rewrite get_scale, Rabs_mult, (Rabs_right g) by lra; reflexivity).
  split.
  - split. now rewrite map_length. split.
    + intros j Hj. rewrite map_length in Hj. rewrite !A. apply Rmult_le_compat_l. lra. auto.
    + intros j Hj. rewrite !A. apply Rmult_lt_compat_l; auto.
  - split; auto. rewrite A. rewrite Rmult_assoc. split.
    + intros j Hj. rewrite A. apply Rmult_le_compat_l. lra. auto.
    + destruct S3 as [S3|(S3 & S4)]; [left|right; split; auto]; rewrite A. now apply Rmult_lt_compat_l. apply Rmult_le_compat_l; auto. lra.
Qed.
Lemma cov_scale g x y : cov (map (Rmult g) x) (map (Rmult g) y) = g * g * cov x y.
Proof.
  assert (A : forall l, average (map (Rmult g) l) = g * average l).
  { intros l. unfold average, rtotal. rewrite map_length. rewrite (sm_ext _ _ (fun i => g * gt l i + 0 * 0)) by (intros; rewrite get_scale; ring). rewrite (sm_lin _ (gt l) (fun _ => 0)). unfold Rdiv. ring. }
  unfold cov. rewrite map_length. rewrite (sm_ext _ _ (fun i => g * g * ((gt x i - average x) * (gt y i - average y)) + 0 * 0)) by (intros; rewrite !get_scale, !A; ring). rewrite sm_lin. ring.
Qed.
Lemma variance_scale g x : variance (map (Rmult g) x) = option_map (Rmult (g * g)) (variance x).
Proof. destruct x as [|v t]; auto. unfold variance. rewrite cov_scale, map_length. cbn [map option_map]. f_equal. unfold Rdiv. ring. Qed.
Lemma noise_scale trim start g x : noise_of trim start (map (Rmult g) x) = option_map (Rmult (g * g)) (noise_of trim start x).
Proof.
  unfold noise_of. assert (ST : stop_index trim (map (Rmult g) x) = stop_index trim x) by (destruct trim; cbn; auto; apply map_length). rewrite ST, map_length.
  destruct (_ =? _)%nat. rewrite firstn_map. apply variance_scale. rewrite skipn_map. apply variance_scale.
Qed.
Lemma power_scale trim start g x : power_of trim start (map (Rmult g) x) = map (Rmult (g * g)) (power_of trim start x).
Proof.
  unfold power_of, slice. assert (ST : stop_index trim (map (Rmult g) x) = stop_index trim x) by (destruct trim; cbn; auto; apply map_length). rewrite ST.
  rewrite skipn_map, firstn_map, !map_map. apply map_ext. intros; ring.
Qed.
Lemma smooth_scale f k p : smooth_one f (map (Rmult k) p) = map (Rmult k) (smooth_one f p).
Proof.
  assert (G : forall l z, smooth_lfilter f (k * z) (map (Rmult k) l) = map (Rmult k) (smooth_lfilter f z l)).
  { induction l as [|v t IH]; intros z; cbn [map smooth_lfilter]; auto. cbv zeta. f_equal. ring. rewrite <- IH. f_equal. ring. }
  destruct p as [|v t]; auto. unfold smooth_one. rewrite <- G. cbn [map]. f_equal. ring.
Qed.
Lemma db_scale k v : 1 <= k -> smallest_normal <= v -> db_power (k * v) = db_power v + level false k.
Proof.
  intros Hk Hv. pose proof small_le_1 as S. assert (smallest_normal <= k * v) by nra. change (lev (k * v) = lev v + level false k). unfold lev. rewrite !Rabs_right by nra. rewrite !Rmax_left by auto.
  rewrite level_mul by lra. ring.
Qed.
Lemma fold_max_scale k l : 0 <= k -> forall a, fold_left Rmax (map (Rmult k) l) (k * a) = k * fold_left Rmax l a.
Proof. intros Hk. induction l as [|v t IH]; intros a; cbn [map fold_left]; auto. rewrite RmaxRmult by auto. apply IH. Qed.
Lemma vmax_scale k l : 0 <= k -> vmax (map (Rmult k) l) = k * vmax l.
Proof. intros Hk. destruct l as [|v t]; cbn [map vmax]. ring. now apply fold_max_scale. Qed.
Lemma fold_max_shift c l : forall a, fold_left Rmax (map (fun v => v - c) l) (a - c) = fold_left Rmax l a - c.
Proof.
  induction l as [|v t IH]; intros a; cbn [map fold_left]; auto. replace (Rmax (a - c) (v - c)) with (Rmax a v - c). apply IH. unfold Rmax. destruct (Rle_dec a v), (Rle_dec (a - c) (v - c)); lra.
Qed.
Lemma first_index_map {T} (P Q : T -> bool) (f : T -> T) l : (forall v, In v l -> P (f v) = Q v) -> first_index P (map f l) = first_index Q l.
Proof. induction l as [|v t IH]; intros H; auto. cbn [map first_index]. rewrite (H v) by (now left). destruct (Q v); auto. rewrite IH; auto. intros; apply H; now right. Qed.
Lemma fit_start_scale k c nz p sdb : 0 < k -> 0 < nz -> sdb <> [] -> fit_start (Some (k * nz)) (map (Rmult k) p) (map (fun v => v + c) sdb) = fit_start (Some nz) p sdb.
Proof.
  intros Hk Hn N. unfold fit_start. destruct (Req_EM_T nz 0); [lra|]. destruct (Req_EM_T (k * nz) 0); [nra|]. rewrite vmax_scale by lra.
  replace (k * vmax p / (k * nz)) with (vmax p / nz) by (field; lra). cbv zeta. apply first_index_map. intros v _.
  assert (V : vmax (map Ropp (map (fun v => v + c) sdb)) = vmax (map Ropp sdb) - c).
  { destruct sdb as [|a t]; [easy|]. cbn [map vmax]. rewrite map_map. replace (- (a + c)) with (- a - c) by ring. rewrite <- fold_max_shift. rewrite map_map. f_equal. apply map_ext. intros; ring. }
  rewrite V. unfold gtb. destruct (Rlt_dec _ _), (Rlt_dec _ _); auto; lra.
Qed.
Lemma polyfit_shift one x y c : length y = length x -> (2 <= length x)%nat -> exists s b, polyfit1 one x y = Ok (s, b) /\ polyfit1 one x (map (fun v => v + c) y) = Ok (s, b + c).
Proof.
  intros E H. assert (N : INR (length x) <> 0) by (apply not_0_INR; lia).
  assert (GC : forall i, (i < length y)%nat -> gt (map (fun v => v + c) y) i = gt y i + c) by (intros; unfold get; now rewrite (nth_map' (fun v => v + c) y i (r0 : R) (r0 : R))).
  assert (A : average (map (fun v => v + c) y) = average y + c).
  { unfold average, rtotal. rewrite map_length. rewrite (sm_ext _ _ (fun i => 1 * gt y i + c * 1)) by (intros; rewrite GC by auto; ring). rewrite (sm_lin _ (gt y) (fun _ => 1)), sm_const, E. field. auto. }
  assert (B : cov x (map (fun v => v + c) y) = cov x y).
  { unfold cov. apply sm_ext. intros i Hi. rewrite GC by lia. rewrite A. ring. }
  exists (cov x y / cov x x), (average y - cov x y / cov x x * average x). unfold polyfit1. destruct x as [|a [|b t]]; [cbn in H; lia|cbn in H; lia|]. rewrite A, B. split; auto. cbv zeta. do 2 f_equal. ring.
Qed.
Lemma after_scale k p i : after (map (Rmult k) p) i = k * after p i.
Proof. unfold after. rewrite map_length. rewrite (sm_ext _ _ (fun j => k * gt p (S i + j) + 0 * 0)) by (intros; rewrite get_scale; ring). rewrite sm_lin. ring. Qed.
Lemma smooth_len f p : length (smooth_one f p) = length p.
Proof. assert (G : forall l z, length (smooth_lfilter f z l) = length l) by (induction l; intros; cbn; auto). destruct p; auto. apply G. Qed.
(** Refuted: the corrections do not depend on the shape of the decay alone. The code takes the constant of the fitted line for its slope,
    so that every response, however noisy, loses the removal of the noise and the compensation if it is recorded loud enough: from some
    gain on the curve is Schroeder's uncorrected curve of the original. *)
Theorem C105_level_refuted one fs trim x start nz k : (0 < fs)%nat -> find_ir_start1 (-20) x = Ok start -> noise_of trim start x = Some nz -> 0 < nz ->
  let p := power_of trim start x in (forall i, (i < length p)%nat -> smallest_normal <= gt p i) ->
  fit_start (Some nz) p (map db_power (smooth_one (ema_factor (20 / 1000) (INR fs)) p)) = Some k -> (S k < length p)%nat ->
  exists g0, forall g, g0 <= g -> exists e, decay_curve one fs trim (map (Rmult g) x) = Ok e /\ schroeder p e /\ length e = (length p * 95 / 100)%nat.
Proof.
  intros Hf E NZ Hn p SP K HK. pose proof small_le_1 as SM. set (s := smooth_one (ema_factor (20 / 1000) (INR fs)) p) in *. assert (Ls : length s = length p) by apply smooth_len.
  assert (SS : forall v, In v s -> smallest_normal <= v).
  { assert (T : time_smoothing p (INR fs) (20 / 1000) None = Ok s) by (unfold time_smoothing; destruct (Rlt_dec (20 / 1000) 0); [lra|reflexivity]).
    destruct (C40_smoothing_range p (INR fs) (20 / 1000) None s ltac:(now apply lt_0_INR) T) as (A & _). specialize (A smallest_normal (vmax p)).
    assert (FA : Forall (fun v => smallest_normal <= v <= vmax p) p).
    { apply Forall_forall. intros v Hv. split. apply (In_nth _ _ 0) in Hv as (i & Hi & <-). now apply SP. destruct (vmax_spec p) as (_ & B); auto. intros Q. rewrite Q in Hv. destruct Hv. }
    apply A in FA. rewrite Forall_forall in FA. intros v Hv. apply FA in Hv. lra. }
  set (t := skipn k (time_vector (length p) (INR fs))). assert (Lt : length t = (length p - k)%nat) by (unfold t; rewrite skipn_length, time_len; auto).
  destruct (polyfit_shift one t (skipn k (map db_power s)) 0) as (sl & b & FIT & _). { rewrite skipn_length, map_length, Ls. lia. } lia.
  exists (Rmax 1 (Rpower 10 (- b / 20))). intros g Hg. assert (G1 : 1 <= g) by (eapply Rle_trans; [apply Rmax_l|eauto]).
  assert (G2 : Rpower 10 (- b / 20) <= g) by (eapply Rle_trans; [apply Rmax_r|eauto]). set (k2 := g * g). assert (K1 : 1 <= k2) by (unfold k2; nra).
  assert (PB : 0 <= b + level false k2).
  { unfold k2. rewrite level_mul by lra. assert (Q : level true (Rpower 10 (- b / 20)) <= level true g) by (apply level_le; auto; apply exp_pos).
    change (level true (from_db true (- b)) <= level true g) in Q. rewrite level_from in Q. unfold level in *. lra. }
  pose proof (start_scale g x start ltac:(lra) E) as E'. pose proof (power_scale trim start g x) as PW. fold p k2 in PW.
  pose proof (decay_unfold one fs trim (map (Rmult g) x) start E') as DU. rewrite PW in DU. rewrite map_length in DU. specialize (DU ltac:(lia)). cbv zeta in DU.
  rewrite noise_scale, NZ in DU. cbn [option_map] in DU. fold k2 in DU. rewrite smooth_scale in DU. fold s in DU.
  replace (map db_power (map (Rmult k2) s)) with (map (fun v => v + level false k2) (map db_power s)) in DU by (rewrite !map_map; apply map_ext_in; intros v Hv; symmetry; apply db_scale; auto).
  rewrite fit_start_scale in DU; try lra. 2:{ intros Q. apply (f_equal (@length R)) in Q. rewrite map_length, Ls in Q. cbn in Q. lia. }
  rewrite K in DU. rewrite map_length in DU. fold t in DU. rewrite (skipn_map (fun v => v + level false k2)) in DU.
  destruct (polyfit_shift one t (skipn k (map db_power s)) (level false k2)) as (sl' & b' & F1 & F2). { rewrite skipn_length, map_length, Ls. lia. } lia.
  rewrite FIT in F1. injection F1 as <- <-. rewrite F2 in DU. cbn [bind] in DU.
  assert (AV : fst (compensation fs (k2 * nz) (sl, b + level false k2)) = true).
  { unfold compensation. assert (L0 : leb 0 (b + level false k2) = true) by now apply leb_true. rewrite L0. cbn [orb]. destruct (Req_EM_T (k2 * nz) 0); auto. destruct (Req_EM_T _ 0); auto. }
  destruct (compensation fs (k2 * nz) (sl, b + level false k2)) as (av, c). cbn [fst] in AV. subst av.
  destruct (integrate_spec fs (k2 * nz) true c (map (Rmult k2) p)) as [(I1 & I2)|(I1 & _)]; [|discriminate]. rewrite map_length in I1.
  assert (N95 : (1 <= length p * 95 / 100)%nat) by (apply Nat.div_le_lower_bound; lia). assert (N95' : (length p * 95 / 100 < length p)%nat) by (apply Nat.div_lt_upper_bound; lia).
  assert (C : exists e, to_levels (integrate fs (k2 * nz) true c (map (Rmult k2) p)) = Ok e) by (destruct (integrate fs (k2 * nz) true c (map (Rmult k2) p)); [exfalso; cbn [length] in I1; rewrite <- I1 in N95; lia|eexists; reflexivity]).
  destruct C as (e & C). exists e. split. now rewrite DU. apply to_levels_spec in C as (_ & L & _ & V). split; [|congruence].
  assert (AP : forall i, (i < length p - 1)%nat -> smallest_normal <= after p i).
  { intros i Hi. unfold after. replace (length p - S i)%nat with (S (length p - S (S i))) by lia. rewrite (sum_S_front (HA := CRing_R)). cbn [radd CRing_R].
    pose proof (SP (S i + 0)%nat ltac:(lia)). assert (0 <= sm (length p - S (S i)) (fun j => gt p (S i + S j))); [|lra]. apply sm_nonneg. intros; apply power_nonneg. }
  intros i Hi. rewrite V by auto. rewrite !I2 by lia. rewrite !after_scale. pose proof (AP i ltac:(lia)) as A1. pose proof (AP 0%nat ltac:(lia)) as A0.
  change (lev (k2 * after p i)) with (db_power (k2 * after p i)). change (lev (k2 * after p 0)) with (db_power (k2 * after p 0)). rewrite !db_scale by auto. change db_power with lev. ring.
Qed.
Print Assumptions C105_level_refuted.
Example C105_immediate_example one mode st : reverb1 one 1000 (fun _ => None) mode st [1; 1 / 2; - 1 / 4] = Err IndexError.
Proof.
  apply C105_immediate_refuted. apply C56_start. discriminate. exists 0%nat. rewrite small_dB. split.
  - split. cbn; lia. split. intros [|[|[|j]]] Hj; cbn in *; try lia; unfold Rabs; repeat destruct (Rcase_abs _); lra. intros; lia.
  - split. lia. split. intros; lia. right. split; auto. cbn. rewrite Rabs_right by lra. lra.
Qed.

(** ** A concrete decay *)
(** Two silent samples, then a decay by 5 dB per sample whose last sample carries the rest of the energy. *)
Definition dec (k : nat) : R := Rpower 10 (- 5 * INR k / 10).
Definition example_ir : list R := [0; 0] ++ mk 40 (fun k => sqrt (if (k =? 39)%nat then dec k else dec k - dec (S k))).
Lemma dec_0 : dec 0 = 1. Proof. unfold dec. cbn [INR]. replace (-5 * 0 / 10) with 0 by field. apply Rpower_O. lra. Qed.
Lemma dec_pos k : 0 < dec k. Proof. apply exp_pos. Qed.
Lemma dec_le j k : (j <= k)%nat -> dec k <= dec j.
Proof. intros H. apply Rle_Rpower. lra. apply le_INR in H. lra. Qed.
Lemma dec_2 : dec 2 = / 10.
Proof. unfold dec. cbn [INR]. replace (-5 * (1 + 1) / 10) with (- (1)) by field. rewrite Rpower_Ropp, Rpower_1 by lra. reflexivity. Qed.
Lemma dec_1 : dec 1 < 1 / 3.
Proof.
  assert (E : dec 1 * dec 1 = dec 2) by (unfold dec; rewrite <- Rpower_plus; f_equal; cbn [INR]; field). rewrite dec_2 in E. pose proof (dec_pos 1).
  apply Rnot_le_lt. intros K. nra.
Qed.
Lemma dec_small k : (k <= 40)%nat -> smallest_normal <= dec k.
Proof.
  intros H. apply Rle_trans with (dec 40). 2: now apply dec_le. unfold dec, smallest_normal. replace (-5 * INR 40 / 10) with (- INR 20) by (change 40%nat with (2 * 20)%nat; rewrite mult_INR; simpl (INR 2); field).
  rewrite Rpower_Ropp, Rpower_pow by lra. apply Rinv_le_contravar. apply pow_lt; lra. apply Rle_trans with (16 ^ 20). apply pow_incr; lra.
  replace 16 with (2 ^ 4) by ring. rewrite <- pow_mult. apply Rle_pow. lra. lia.
Qed.
Definition step_e (k : nat) : R := if (k =? 39)%nat then dec k else dec k - dec (S k).
Lemma step_pos_e k : 0 <= step_e k.
Proof. unfold step_e. destruct (k =? 39)%nat. apply Rlt_le, dec_pos. pose proof (dec_le k (S k) ltac:(lia)). lra. Qed.
Lemma ex_get k : (k < 40)%nat -> gt example_ir (S (S k)) = sqrt (step_e k).
Proof. intros H. unfold example_ir. change (gt ([0; 0] ++ ?l) (S (S k))) with (gt l k). now rewrite (get_mk (HA := CRing_R)). Qed.
Lemma ex_len : length example_ir = 42%nat. Proof. unfold example_ir. rewrite app_length, mk_length. reflexivity. Qed.
Lemma tele n i : (i + n = 40)%nat -> (0 < n)%nat -> sm n (fun k => step_e (i + k)) = dec i.
Proof.
  revert i. induction n as [|n IH]; intros i H N; [lia|]. rewrite (sum_S_front (HA := CRing_R)). cbn [radd CRing_R]. rewrite Nat.add_0_r. destruct (Nat.eq_dec n 0) as [->|K].
  - cbn [sum]. unfold step_e. replace i with 39%nat by lia. cbn. ring.
  - rewrite (sm_ext n _ (fun k => step_e (S i + k))) by (intros; f_equal; lia). rewrite IH by lia. unfold step_e. destruct (Nat.eqb_spec i 39); [lia|]. ring.
Qed.
Lemma ex_start : find_ir_start1 (-20) example_ir = Ok 1%nat.
Proof.
  apply C56_start. { intros Q. pose proof ex_len as L. rewrite Q in L. discriminate. }
  assert (P : 0 < sqrt (step_e 0)). { apply sqrt_lt_R0. unfold step_e. cbn [Nat.eqb]. rewrite dec_0. pose proof dec_1. lra. }
  exists 2%nat. rewrite small_dB. split.
  - split. rewrite ex_len. lia. split.
    + intros [|[|j]] Hj. cbn. rewrite !Rabs_R0. apply Rabs_pos. cbn. rewrite Rabs_R0. apply Rabs_pos.
      rewrite ex_len in Hj. rewrite !ex_get by lia. rewrite !Rabs_right by (apply Rle_ge, sqrt_pos). apply sqrt_le_1_alt. unfold step_e. cbn [Nat.eqb]. rewrite dec_0. pose proof dec_1 as D1.
      destruct (Nat.eqb_spec j 39) as [->|]. pose proof (dec_le 1 39 ltac:(lia)). lra.
      destruct j. rewrite dec_0. lra. pose proof (dec_le 1 (S j) ltac:(lia)). pose proof (dec_pos (S (S j))). lra.
    + intros j Hj. rewrite (ex_get 0) by lia. rewrite (Rabs_right (sqrt _)) by lra. destruct j as [|[|j]]; [| |lia]; cbn; rewrite Rabs_R0; exact P.
  - split. lia. split.
    + intros j Hj. replace j with 2%nat by lia. pose proof (Rabs_pos (get example_ir 2)). lra.
    + left. rewrite (ex_get 0) by lia. rewrite (Rabs_right (sqrt _)) by lra. cbn. rewrite Rabs_R0. apply Rmult_lt_0_compat. exact P. lra.
Qed.
Example C105_example one : exists L, (38 <= L <= 41)%nat /\ forall st, reverb1 one 100 (fun _ => None) T20 st example_ir = Ok (Some (60 / (5 * INR 100) * (INR L / INR (L - 1))), Some (-1)).
Proof.
  pose proof (C105_exponential one 100 example_ir 1 T20 5 ex_start ltac:(lia)) as T. cbv zeta in T.
  set (p := map (fun v => v * v) (skipn 1 example_ir)) in T. assert (Lp : length p = 41%nat) by (unfold p; rewrite map_length, skipn_length, ex_len; reflexivity).
  rewrite Lp in T. apply T; clear T; try lia; try lra; try discriminate.
  - intros [|i] Hi; [reflexivity|lia].
  - assert (A : forall i, (i < 39)%nat -> after p i = dec i).
    { intros i Hi. unfold after. rewrite Lp. rewrite <- (tele (40 - i) i) by lia. replace (41 - S i)%nat with (40 - i)%nat by lia. apply sm_ext. intros k Hk.
      unfold p. rewrite gsq, get_skip. cbn [Nat.add]. rewrite ex_get by lia. apply sqrt_sqrt. apply step_pos_e. }
    intros i Hi. change (41 * 95 / 100)%nat with 38%nat in Hi. rewrite !A by lia. split. apply dec_small; lia. rewrite dec_0. unfold dec. rewrite Rmult_1_l. reflexivity.
  - cbn [limits snd]. change (41 * 95 / 100 - 1)%nat with 37%nat. replace (INR 37) with 37 by (simpl; ring). lra.
Qed.
