(** Proofs about the array helpers. *)
From Coq Require Import List Arith Lia ZArith Ring Bool.
From Verif Require Import Alg Spec M_arrays P_realtime.
Import ListNotations.
Local Open Scope nat_scope.

Section Arr.
Context {A : Type} {HA : CRing A}.
Add Ring ar_ring : (@rth A HA).

(** ** convolution *)
Lemma conv_sym (b x : list A) n : conv b x n = conv x b n.
Proof.
  unfold conv. rewrite sum_rev. apply sum_ext. intros i Hi.
  replace (S n - 1 - i) with (n - i) by lia. replace (n - (n - i)) with i by lia. ring.
Qed.

Lemma conv_out (b x : list A) n : length b + length x <= S n -> conv b x n = r0.
Proof.
  intros. unfold conv. apply sum_zero'. intros i Hi.
  destruct (Nat.lt_ge_cases i (length b)).
  - rewrite (get_out x) by lia. ring.
  - rewrite (get_out b) by lia. ring.
Qed.

Lemma conv_nil_r (b : list A) n : conv b [] n = r0.
Proof. unfold conv. apply sum_zero'. intros. rewrite (get_out []) by (simpl; lia). ring. Qed.

Lemma conv_ext (b b' x x' : list A) n : (forall i, get b i = get b' i) -> (forall i, get x i = get x' i) ->
  conv b x n = conv b' x' n.
Proof. intros H1 H2. unfold conv. apply sum_ext. intros. now rewrite H1, H2. Qed.

Lemma get_conv_full (x b : list A) n : get (conv_full x b) n = conv b x n.
Proof.
  destruct x as [|x0 x].
  { simpl. rewrite conv_nil_r. now rewrite get_out by (simpl; lia). }
  destruct b as [|b0 b].
  { simpl. rewrite conv_sym, conv_nil_r. now rewrite get_out by (simpl; lia). }
  unfold conv_full.
  destruct (Nat.lt_ge_cases n (length (x0 :: x) + length (b0 :: b) - 1)).
  - now rewrite get_mk by lia.
  - rewrite get_out by (rewrite mk_length; lia). rewrite conv_out; auto. lia.
Qed.

Lemma conv_full_length (x b : list A) : x <> [] -> b <> [] -> length (conv_full x b) = length x + length b - 1.
Proof. destruct x; [easy|]. destruct b; [easy|]. intros. unfold conv_full. now rewrite mk_length. Qed.

Lemma conv_prefix_zeros (b x : list A) p n :
  conv b (repeat r0 p ++ x) n = if n <? p then r0 else conv b x (n - p).
Proof.
  destruct (Nat.ltb_spec n p).
  - unfold conv. apply sum_zero'. intros i Hi. rewrite get_app_l by (rewrite repeat_length; lia).
    rewrite get_repeat0. ring.
  - unfold conv. rewrite (sum_trunc (S (n - p)) (S n)).
    + apply sum_ext. intros i Hi. rewrite get_app_r by (rewrite repeat_length; lia).
      rewrite repeat_length. now replace (n - i - p) with (n - p - i) by lia.
    + lia.
    + intros i Hi. rewrite get_app_l by (rewrite repeat_length; lia). rewrite get_repeat0. ring.
Qed.

Lemma conv_app (b x x' : list A) n :
  conv b (x ++ x') n = conv b x n +! (if n <? length x then r0 else conv b x' (n - length x)).
Proof.
  rewrite <- conv_prefix_zeros. unfold conv. rewrite <- sum_add. apply sum_ext. intros i Hi.
  destruct (Nat.lt_ge_cases (n - i) (length x)).
  - rewrite get_app_l by lia. rewrite get_app_l by (rewrite repeat_length; lia).
    rewrite get_repeat0. ring.
  - rewrite get_app_r by lia. rewrite get_app_r by (rewrite repeat_length; lia).
    rewrite repeat_length. rewrite (get_out x) by lia. ring.
Qed.

(** ** pad / trim *)
Lemma pad_trim_length n e (v : list A) : length (pad_trim_col n e v) = n.
Proof.
  unfold pad_trim_col. destruct (Nat.eqb_spec (length v) n); auto.
  destruct (Nat.ltb_spec (length v) n); destruct e;
    rewrite ?rev_length, ?app_length, ?firstn_length, ?repeat_length, ?rev_length; lia.
Qed.

Lemma get_rev (l : list A) i : i < length l -> get (rev l) i = get l (length l - 1 - i).
Proof. intros. unfold get. now apply nth_rev'. Qed.

Lemma get_firstn (l : list A) n i : get (firstn n l) i = if i <? n then get l i else r0.
Proof.
  destruct (Nat.ltb_spec i n).
  - unfold get. now apply nth_firstn.
  - apply get_out. rewrite firstn_length. lia.
Qed.

Lemma get_skipn (l : list A) n i : get (skipn n l) i = get l (n + i).
Proof. apply nth_skipn. Qed.

Lemma pad_trim_end n (v : list A) i : i < n -> get (pad_trim_col n true v) i = get v i.
Proof.
  intros Hi. unfold pad_trim_col. destruct (Nat.eqb_spec (length v) n); auto.
  destruct (Nat.ltb_spec (length v) n).
  - destruct (Nat.lt_ge_cases i (length v)).
    + now rewrite get_app_l by lia.
    + rewrite get_app_r by lia. rewrite get_repeat0, get_out; auto.
  - rewrite get_firstn. destruct (Nat.ltb_spec i n); auto. lia.
Qed.

Lemma pad_trim_start_pad n (v : list A) : length v <= n ->
  pad_trim_col n false v = repeat r0 (n - length v) ++ v.
Proof.
  intros H. unfold pad_trim_col. destruct (Nat.eqb_spec (length v) n).
  - rewrite e, Nat.sub_diag. reflexivity.
  - destruct (Nat.ltb_spec (length v) n); try lia.
    rewrite rev_app_distr, rev_involutive. f_equal.
    clear. generalize (n - length v). intros m. induction m; auto. simpl. rewrite IHm.
    clear. induction m; auto. simpl. now rewrite IHm.
Qed.

Lemma pad_trim_start_trim n (v : list A) : n <= length v -> pad_trim_col n false v = skipn (length v - n) v.
Proof.
  intros H. unfold pad_trim_col. destruct (Nat.eqb_spec (length v) n).
  - rewrite e, Nat.sub_diag. reflexivity.
  - destruct (Nat.ltb_spec (length v) n); try lia.
    rewrite firstn_rev, rev_involutive. reflexivity.
Qed.

Lemma pad_trim_end_pad n (v : list A) : length v <= n ->
  pad_trim_col n true v = v ++ repeat r0 (n - length v).
Proof.
  intros H. unfold pad_trim_col. destruct (Nat.eqb_spec (length v) n).
  - rewrite e, Nat.sub_diag. now rewrite app_nil_r.
  - destruct (Nat.ltb_spec (length v) n); try lia. reflexivity.
Qed.

Lemma pad_trim_end_trim n (v : list A) : n <= length v -> pad_trim_col n true v = firstn n v.
Proof.
  intros H. unfold pad_trim_col. destruct (Nat.eqb_spec (length v) n).
  - rewrite <- e. now rewrite firstn_all.
  - destruct (Nat.ltb_spec (length v) n); try lia. reflexivity.
Qed.

(** ** stride *)
Lemma set_stride_length l s t (v : list A) : length (set_stride l s t v) = length l.
Proof. apply mk_length. Qed.

(** number of zeros in front that make the length a multiple of n *)
Definition front_pad (n : nat) (v : list A) : nat := (n - length v mod n) mod n.

Lemma poly_pad_eq n (v : list A) : 0 < n ->
  fst (poly_pad n v) = repeat r0 (front_pad n v) ++ v.
Proof.
  intros Hn. unfold poly_pad, front_pad. simpl.
  pose proof (Nat.mod_upper_bound (length v) n ltac:(lia)).
  destruct (Nat.eqb_spec (length v mod n) 0).
  - rewrite e, Nat.sub_0_r, Nat.mod_same by lia. reflexivity.
  - rewrite (Nat.mod_small (n - _)) by lia. rewrite pad_trim_start_pad by lia.
    f_equal. f_equal. lia.
Qed.

Lemma front_pad_div n (v : list A) : 0 < n ->
  exists q, front_pad n v + length v = q * n.
Proof.
  intros Hn. unfold front_pad.
  pose proof (Nat.div_mod (length v) n ltac:(lia)) as E.
  pose proof (Nat.mod_upper_bound (length v) n ltac:(lia)).
  destruct (Nat.eq_dec (length v mod n) 0) as [e|e].
  - rewrite e, Nat.sub_0_r, Nat.mod_same by lia. exists (length v / n). nia.
  - rewrite (Nat.mod_small (n - _)) by lia. exists (S (length v / n)). nia.
Qed.

Lemma get_stride_mult l ind n q : length l = q * n -> ind < n ->
  get_stride l ind n = mk q (fun m => get l (ind + m * n)).
Proof.
  intros E Hi. unfold get_stride. rewrite E.
  assert (Hq : (q * n - ind + (n - 1)) / n = q).
  { destruct q. simpl. apply Nat.div_small. lia.
    symmetry. apply (Nat.div_unique _ n (S q) (n - 1 - ind)); nia. }
  now rewrite Hq.
Qed.

Lemma get_get_stride l ind n q m : length l = q * n -> ind < n ->
  get (get_stride l ind n) m = get l (ind + m * n).
Proof.
  intros E Hi. rewrite (get_stride_mult l ind n q) by auto.
  destruct (Nat.lt_ge_cases m q).
  - now rewrite get_mk.
  - rewrite !get_out; auto. nia. now rewrite mk_length.
Qed.

(** writing strided components *)
Lemma fold_set_stride n (vals : nat -> list A) k s : k <= n -> 0 < n ->
  forall i, get (fold_left (fun s ind => set_stride s ind n (vals ind)) (seq 0 k) s) i =
    if (i <? length s) && (i mod n <? k) then get (vals (i mod n)) (i / n) else get s i.
Proof.
  intros Hk Hn. induction k as [|k IH]; intros i.
  - simpl. destruct (i <? length s); reflexivity.
  - rewrite seq_S, fold_left_app. cbn [fold_left]. rewrite Nat.add_0_l.
    set (s' := fold_left _ _ _) in *.
    assert (Hlen : length s' = length s).
    { unfold s'. clear. induction k. reflexivity.
      rewrite seq_S, fold_left_app. cbn [fold_left]. now rewrite set_stride_length. }
    destruct (Nat.ltb_spec i (length s)) as [Hi|Hi].
    + unfold set_stride. rewrite get_mk by lia. simpl.
      assert (Hi' : i <? length s = true) by (apply Nat.ltb_lt; lia).
      pose proof (Nat.div_mod i n ltac:(lia)) as D.
      pose proof (Nat.mod_upper_bound i n ltac:(lia)) as D2.
      destruct (Nat.leb_spec k i) as [K|K]; simpl.
      * destruct (Nat.eqb_spec ((i - k) mod n) 0) as [Z|Z].
        -- pose proof (Nat.div_mod (i - k) n ltac:(lia)) as D3.
           assert (i = k + n * ((i - k) / n)) by lia.
           assert (Em : i mod n = k) by (symmetry; apply (Nat.mod_unique _ n ((i - k) / n)); lia).
           assert (Ed : i / n = (i - k) / n) by (symmetry; apply (Nat.div_unique _ n _ k); lia).
           rewrite Em, Ed. destruct (Nat.ltb_spec k (S k)); try lia. reflexivity.
        -- rewrite IH by lia. rewrite Hi'. simpl.
           destruct (Nat.ltb_spec (i mod n) k), (Nat.ltb_spec (i mod n) (S k)); auto; try lia.
           exfalso. apply Z. assert (Em : i mod n = k) by lia.
           replace (i - k) with ((i / n) * n) by lia. apply Nat.mod_mul. lia.
      * rewrite IH by lia. rewrite Hi'. simpl.
        destruct (Nat.ltb_spec (i mod n) k), (Nat.ltb_spec (i mod n) (S k)); auto; try lia.
    + simpl. rewrite !get_out; auto; rewrite ?set_stride_length; lia.
Qed.

Lemma fold_set_stride_length n (vals : nat -> list A) ks s :
  length (fold_left (fun s ind => set_stride s ind n (vals ind)) ks s) = length s.
Proof. revert s. induction ks; intros; simpl; auto. rewrite IHks. apply set_stride_length. Qed.

Lemma polyphase_roundtrip n (v : list A) : 0 < n ->
  exists poly pad, polyphase n false v = Ok (poly, pad) /\
    length poly = n /\
    polyphase_reconstruct poly = repeat r0 (front_pad n v) ++ v.
Proof.
  intros Hn. unfold polyphase. destruct (Nat.eqb_spec n 0); try lia.
  destruct (poly_pad n v) as [v' pad] eqn:E.
  assert (Ev : v' = repeat r0 (front_pad n v) ++ v) by (rewrite <- poly_pad_eq by lia; now rewrite E).
  eexists _, _. split; [reflexivity|]. split; [apply mk_length|].
  unfold polyphase_reconstruct. rewrite mk_length.
  destruct (front_pad_div n v Hn) as [q Hq].
  assert (Hl : length v' = q * n) by (rewrite Ev, app_length, repeat_length; lia).
  assert (Hh : length (hd [] (mk n (fun ind => get_stride v' ind n))) = q).
  { destruct n; [lia|]. rewrite mk_S_front. cbn [hd]. rewrite (get_stride_mult _ _ _ q) by (auto; lia).
    apply mk_length. }
  rewrite Hh. rewrite <- Ev. apply get_ext.
  - rewrite fold_set_stride_length, repeat_length. lia.
  - intros i Hi. rewrite fold_set_stride_length, repeat_length in Hi.
    rewrite fold_set_stride by lia. rewrite repeat_length.
    pose proof (Nat.div_mod i n ltac:(lia)) as D.
    pose proof (Nat.mod_upper_bound i n ltac:(lia)) as D2.
    destruct (Nat.ltb_spec i (q * n)); try lia.
    destruct (Nat.ltb_spec (i mod n) n); try lia. simpl.
    rewrite nth_mk by lia.
    rewrite (get_get_stride v' (i mod n) n q) by auto. f_equal. lia.
Qed.

(** ** block FIR filtering *)
Lemma vadd_length (u v : list A) : length (vadd u v) = length u.
Proof. apply mk_length. Qed.
Lemma get_vadd (u v : list A) i : i < length u -> get (vadd u v) i = get u i +! get v i.
Proof. intros. unfold vadd. now rewrite get_mk. Qed.

Lemma lfilter_fir_zi_eq (b x zi : list A) : 2 <= length b -> x <> [] -> length zi = length b - 1 ->
  lfilter_fir_zi b x zi =
    Ok (mk (length x) (fun n => conv b x n +! get zi n),
        mk (length zi) (fun k => conv b x (length x + k) +! get zi (length x + k))).
Proof.
  intros Hb Hx Hz. unfold lfilter_fir_zi.
  assert (Hb' : b <> []) by (intros ->; simpl in *; lia).
  assert (Hlx : 0 < length x) by (destruct x; [easy|simpl; lia]).
  pose proof (conv_full_length x b Hx Hb') as HL.
  destruct (Nat.ltb_spec (length (conv_full x b)) (length zi)); try lia.
  set (y1 := vadd _ zi ++ _).
  assert (Hy : length y1 = length x + length b - 1).
  { unfold y1. rewrite app_length, vadd_length, firstn_length, skipn_length. lia. }
  assert (Hg : forall n, n < length y1 -> get y1 n = conv b x n +! get zi n).
  { intros n Hn. unfold y1. destruct (Nat.lt_ge_cases n (length zi)).
    - rewrite get_app_l by (rewrite vadd_length, firstn_length; lia).
      rewrite get_vadd by (rewrite firstn_length; lia).
      rewrite get_firstn. destruct (Nat.ltb_spec n (length zi)); try lia. now rewrite get_conv_full.
    - rewrite get_app_r by (rewrite vadd_length, firstn_length; lia).
      rewrite vadd_length, firstn_length. rewrite get_skipn, get_conv_full.
      rewrite (get_out zi) by lia. replace (length zi + _) with n by lia. ring. }
  destruct (Nat.eqb_spec (length zi) 0); try lia.
  f_equal. f_equal.
  - apply get_ext. rewrite firstn_length, mk_length. lia.
    intros i Hi. rewrite firstn_length in Hi. rewrite get_firstn, get_mk by lia.
    destruct (Nat.ltb_spec i (length x)); try lia. apply Hg. lia.
  - unfold py_slice, py_bound.
    destruct (Z.ltb_spec (- Z.of_nat (length zi)) 0); try lia.
    destruct (Z.ltb_spec (Z.of_nat (length y1)) 0); try lia.
    rewrite Nat2Z.id, Nat.min_id.
    replace (Z.to_nat (Z.of_nat (length y1) + - Z.of_nat (length zi))) with (length x) by lia.
    apply get_ext. rewrite firstn_length, skipn_length, mk_length. lia.
    intros i Hi. rewrite firstn_length, skipn_length in Hi.
    rewrite get_firstn. destruct (Nat.ltb_spec i (length y1 - length x)); try lia.
    rewrite get_skipn, get_mk by lia. apply Hg. lia.
Qed.

Lemma lfilter_fir_chunks (b : list A) (blocks : list (list A)) zi : 2 <= length b ->
  Forall (fun x => x <> []) blocks -> length zi = length b - 1 ->
  lfilter_fir_blocks b blocks zi =
    Ok (mk (length (concat blocks)) (fun n => conv b (concat blocks) n +! get zi n),
        mk (length zi) (fun k => conv b (concat blocks) (length (concat blocks) + k) +! get zi (length (concat blocks) + k))).
Proof.
  intros Hb Hbl. revert zi. induction Hbl as [|x t Hx Hbl IH]; intros zi Hz.
  - simpl. f_equal. f_equal. rewrite <- (mk_nth zi r0) at 1. apply mk_ext. intros.
    rewrite conv_nil_r. fold (get zi i). ring.
  - cbn [lfilter_fir_blocks]. rewrite lfilter_fir_zi_eq by auto. cbn [bind snd fst].
    rewrite IH by (rewrite mk_length; lia). cbn [bind fst snd concat]. rewrite mk_length.
    set (c := concat t).
    f_equal. f_equal.
    + apply get_ext. rewrite app_length, !mk_length, app_length. lia.
      intros i Hi. rewrite app_length, !mk_length in Hi. rewrite get_mk by (rewrite app_length; lia).
      rewrite conv_app. destruct (Nat.ltb_spec i (length x)).
      * rewrite get_app_l, get_mk by (rewrite ?mk_length; lia). ring.
      * rewrite get_app_r by (rewrite mk_length; lia). rewrite mk_length. rewrite get_mk by lia.
        destruct (Nat.lt_ge_cases (i - length x) (length zi)).
        -- rewrite get_mk by lia. replace (length x + (i - length x)) with i by lia. ring.
        -- rewrite get_out by (rewrite mk_length; lia). rewrite (conv_out b x) by lia.
           rewrite (get_out zi) by lia. ring.
    + apply mk_ext. intros k Hk. rewrite app_length. rewrite conv_app.
      destruct (Nat.ltb_spec (length x + length c + k) (length x)); try lia.
      replace (length x + length c + k - length x) with (length c + k) by lia.
      destruct (Nat.lt_ge_cases (length c + k) (length zi)).
      * rewrite get_mk by lia. rewrite Nat.add_assoc. ring.
      * rewrite (get_out (mk _ _)) by (rewrite mk_length; lia).
        rewrite (conv_out b x) by lia. rewrite (get_out zi) by lia. ring.
Qed.

Lemma lfilter_fir_eq (b x : list A) : b <> [] ->
  lfilter_fir b x = mk (length x) (conv b x).
Proof.
  intros Hb. unfold lfilter_fir. destruct x as [|x0 x]; [reflexivity|].
  assert (0 < length b) by (destruct b; [easy|simpl; lia]).
  apply get_ext.
  - rewrite firstn_length, conv_full_length, mk_length by easy. lia.
  - intros i Hi. rewrite firstn_length, conv_full_length in Hi by easy.
    rewrite get_firstn, get_conv_full, get_mk by lia. destruct (Nat.ltb_spec i (length (x0 :: x))); auto. lia.
Qed.

(** ** multirate *)
Definition padded (n : nat) (v : list A) := repeat r0 (front_pad n v) ++ v.

Lemma polyphase_eq n flip (v : list A) : 0 < n ->
  polyphase n flip v = Ok (let p := mk n (fun ind => get_stride (padded n v) ind n) in if flip then rev p else p,
                           n - length v mod n).
Proof.
  intros Hn. unfold polyphase. destruct (Nat.eqb_spec n 0); try lia.
  destruct (poly_pad n v) as [v' pad] eqn:E.
  assert (Ev : v' = padded n v) by (unfold padded; rewrite <- poly_pad_eq by lia; now rewrite E).
  assert (Ep : pad = n - length v mod n) by (unfold poly_pad in E; now inversion E).
  now rewrite Ev, Ep.
Qed.

Lemma padded_length n (v : list A) : 0 < n -> exists q, length (padded n v) = q * n.
Proof.
  intros. destruct (front_pad_div n v H) as [q Hq]. exists q. unfold padded.
  rewrite app_length, repeat_length. lia.
Qed.

Lemma fold_vadd (n : nat) (f : nat -> list A) L : (forall k, k < n -> length (f k) = L \/ True) ->
  forall m, get (fold_left (fun t k => vadd t (f k)) (seq 0 n) (repeat r0 L)) m =
    if m <? L then sum n (fun k => get (f k) m) else r0.
Proof.
  intros _ m.
  assert (Hl : forall k, length (fold_left (fun t k => vadd t (f k)) (seq 0 k) (repeat r0 L)) = L).
  { induction k. simpl. apply repeat_length. rewrite seq_S, fold_left_app. simpl. now rewrite vadd_length. }
  destruct (Nat.ltb_spec m L).
  - induction n. simpl. apply get_repeat0.
    rewrite seq_S, fold_left_app. cbn [fold_left]. rewrite Nat.add_0_l.
    rewrite get_vadd by (rewrite Hl; lia). rewrite IHn. reflexivity.
  - apply get_out. rewrite Hl. lia.
Qed.

Lemma fold_vadd_length (n : nat) (f : nat -> list A) L :
  length (fold_left (fun t k => vadd t (f k)) (seq 0 n) (repeat r0 L)) = L.
Proof. induction n. simpl. apply repeat_length. rewrite seq_S, fold_left_app. simpl. now rewrite vadd_length. Qed.

Lemma conv_decimated (d qx qb : nat) (b x : list A) m : 0 < d -> length x = qx * d -> length b = qb * d ->
  conv b x (m * d + (d - 1)) =
  sum d (fun j => conv (get_stride b (d - 1 - j) d) (get_stride x j d) m).
Proof.
  intros Hd Hx Hb. unfold conv at 1.
  replace (S (m * d + (d - 1))) with (S m * d) by lia.
  rewrite sum_blocks. rewrite sum_exchange. rewrite sum_rev. apply sum_ext. intros j Hj.
  unfold conv. apply sum_ext. intros i Hi.
  rewrite (get_get_stride b _ d qb), (get_get_stride x _ d qx) by (auto; lia).
  f_equal; apply f_equal; nia.
Qed.

Lemma py_slice_spec {T} (l : list T) (a c : nat) d : a + c <= length l -> 0 < c ->
  length (py_slice l (Z.of_nat a) (- Z.of_nat c)) = length l - c - a /\
  forall i, i < length l - c - a -> nth i (py_slice l (Z.of_nat a) (- Z.of_nat c)) d = nth (a + i) l d.
Proof.
  intros H Hc. unfold py_slice, py_bound.
  destruct (Z.ltb_spec (Z.of_nat a) 0); try lia.
  destruct (Z.ltb_spec (- Z.of_nat c) 0); try lia.
  rewrite Nat2Z.id. replace (min a (length l)) with a by lia.
  replace (Z.to_nat (Z.of_nat (length l) + - Z.of_nat c)) with (length l - c) by lia.
  split.
  - rewrite firstn_length, skipn_length. lia.
  - intros i Hi. rewrite nth_firstn by lia. now rewrite nth_skipn.
Qed.

Lemma py_slice_empty {T} (l : list T) (a c : Z) : py_bound (length l) c <= py_bound (length l) a -> py_slice l a c = [].
Proof. intros. unfold py_slice. replace (_ - _) with 0 by lia. reflexivity. Qed.

Lemma downsample_eq (d : nat) (b x : list A) : 0 < d -> b <> [] -> x <> [] ->
  let half := (length b - 1) / 2 in
  let p := front_pad d x + front_pad d b in
  exists out, filter_downsample d b x = Ok out /\
    (half = 0 -> out = []) /\
    (0 < half ->
      length out = (length x + front_pad d x) / d + (length b + front_pad d b) / d - 1 - half / d - (half + (d - 1)) / d /\
      forall i, i < length out ->
        let N := (half / d + i) * d + (d - 1) in
        get out i = if N <? p then r0 else conv b x (N - p)).
Proof.
  intros Hd Hb Hx half p.
  unfold filter_downsample. rewrite !polyphase_eq by auto. cbn [bind fst snd].
  destruct (padded_length d x Hd) as [qx Hqx]. destruct (padded_length d b Hd) as [qb Hqb].
  assert (Lb : 0 < length b) by (destruct b; [easy|simpl; lia]).
  assert (Lx : 0 < length x) by (destruct x; [easy|simpl; lia]).
  assert (Px : length x + front_pad d x = qx * d).
  { unfold padded in Hqx. rewrite app_length, repeat_length in Hqx. lia. }
  assert (Pb : length b + front_pad d b = qb * d).
  { unfold padded in Hqb. rewrite app_length, repeat_length in Hqb. lia. }
  assert (0 < qx) by nia. assert (0 < qb) by nia.
  set (P := mk d (fun ind => get_stride (padded d x) ind d)).
  set (B := rev (mk d (fun ind => get_stride (padded d b) ind d))).
  assert (HP : forall j, j < d -> nth j P [] = get_stride (padded d x) j d) by (intros; unfold P; now rewrite nth_mk).
  assert (HB : forall j, j < d -> nth j B [] = get_stride (padded d b) (d - 1 - j) d).
  { intros. unfold B. rewrite nth_rev' by (rewrite mk_length; lia). rewrite mk_length. now rewrite nth_mk by lia. }
  assert (hd_nth : forall (l : list (list A)), hd [] l = nth 0 l []) by (destruct l; reflexivity).
  rewrite !hd_nth, HP, HB by lia.
  rewrite (get_stride_mult (padded d x) 0 d qx), (get_stride_mult (padded d b) (d - 1 - 0) d qb), !mk_length by (auto; lia).
  fold half.
  set (temp := fold_left _ _ _).
  assert (Ht : length temp = qx + qb - 1) by apply fold_vadd_length.
  assert (Hg : forall m, m < qx + qb - 1 -> get temp m =
      if m * d + (d - 1) <? p then r0 else conv b x (m * d + (d - 1) - p)).
  { intros m Hm. unfold temp. assert (HPl : length P = d) by apply mk_length. rewrite HPl.
    rewrite (fold_vadd d (fun n => conv_full (nth n P []) (nth n B []))) by auto.
    destruct (Nat.ltb_spec m (qx + qb - 1)); try lia.
    transitivity (conv (padded d b) (padded d x) (m * d + (d - 1))).
    - rewrite (conv_decimated d qx qb) by auto. apply sum_ext. intros j Hj.
      rewrite get_conv_full, HP, HB by lia. reflexivity.
    - unfold padded. rewrite conv_prefix_zeros.
      destruct (Nat.ltb_spec (m * d + (d - 1)) (front_pad d x)).
      + destruct (Nat.ltb_spec (m * d + (d - 1)) p); auto. lia.
      + rewrite conv_sym, conv_prefix_zeros.
        destruct (Nat.ltb_spec (m * d + (d - 1) - front_pad d x) (front_pad d b)).
        * destruct (Nat.ltb_spec (m * d + (d - 1)) p); auto. lia.
        * destruct (Nat.ltb_spec (m * d + (d - 1)) p); try lia.
          rewrite conv_sym. f_equal. lia. }
  eexists. split; [reflexivity|]. split.
  - intros E0. rewrite E0. apply py_slice_empty. cbn [Z.of_nat Z.opp]. rewrite !Zdiv_0_l. unfold py_bound. simpl. lia.
  - intros Hh.
    assert (E1 : (Z.of_nat half / Z.of_nat d = Z.of_nat (half / d))%Z) by now rewrite Nat2Z.inj_div.
    set (c := (half + (d - 1)) / d).
    assert (E2 : (- Z.of_nat half / Z.of_nat d = - Z.of_nat c)%Z).
    { unfold c. symmetry.
      pose proof (Nat.div_mod (half + (d - 1)) d ltac:(lia)).
      pose proof (Nat.mod_upper_bound (half + (d - 1)) d ltac:(lia)).
      apply (Z.div_unique _ _ _ (Z.of_nat (d - 1) - Z.of_nat ((half + (d - 1)) mod d))).
      - left. lia.
      - nia. }
    rewrite E1, E2.
    assert (Hc : 0 < c).
    { unfold c. apply Nat.div_str_pos. lia. }
    assert (Hac : half / d + c <= qx + qb - 1).
    { pose proof (Nat.div_mod (half + (d - 1)) d ltac:(lia)) as D1.
      pose proof (Nat.mod_upper_bound (half + (d - 1)) d ltac:(lia)).
      pose proof (Nat.div_mod half d ltac:(lia)) as D2.
      pose proof (Nat.mod_upper_bound half d ltac:(lia)).
      fold c in D1.
      assert (2 * half <= length b - 1) by (unfold half; pose proof (Nat.div_mod (length b - 1) 2 ltac:(lia)); lia).
      assert (2 * half < qb * d) by lia.
      assert (c <= half / d + 1) by nia.
      assert (2 * (half / d) < qb) by nia.
      lia. }
    destruct (py_slice_spec temp (half / d) c r0) as [S1 S2]; [lia|lia|].
    assert (Eq : (length x + front_pad d x) / d + (length b + front_pad d b) / d = qx + qb).
    { rewrite Px, Pb, !Nat.div_mul by lia. reflexivity. }
    split.
    + rewrite S1, Ht, Eq. lia.
    + intros i Hi. rewrite S1 in Hi. unfold get. rewrite S2 by auto. fold (get temp (half / d + i)).
      rewrite Hg by lia. reflexivity.
Qed.

Lemma mul_of_nat (c : A) u : c *! of_nat u = times u c.
Proof.
  unfold of_nat. induction u; simpl. ring. rewrite <- IHu. ring.
Qed.

Lemma zeros_between_length u (x : list A) : 0 < u -> length (zeros_between u x) = length x * u.
Proof.
  intros. induction x as [|v x IH]; auto.
  change (zeros_between u (v :: x)) with ((v :: repeat r0 (u - 1)) ++ zeros_between u x).
  rewrite app_length, IH. simpl. rewrite repeat_length. lia.
Qed.

Lemma get_zeros_between u (x : list A) i : 0 < u ->
  get (zeros_between u x) i = if i mod u =? 0 then get x (i / u) else r0.
Proof.
  intros Hu. revert i. induction x as [|v x IH]; intros i.
  - simpl. rewrite !get_out by (simpl; lia). destruct (i mod u =? 0); auto.
  - change (zeros_between u (v :: x)) with ((v :: repeat r0 (u - 1)) ++ zeros_between u x).
    destruct (Nat.lt_ge_cases i u).
    + rewrite get_app_l by (simpl; rewrite repeat_length; lia).
      rewrite Nat.mod_small, Nat.div_small by lia.
      destruct i; simpl; auto. apply get_repeat0.
    + rewrite get_app_r by (simpl; rewrite repeat_length; lia).
      cbn [length]. rewrite repeat_length. replace (S (u - 1)) with u by lia. rewrite IH.
      pose proof (Nat.div_mod i u ltac:(lia)) as D.
      pose proof (Nat.mod_upper_bound i u ltac:(lia)) as D2.
      assert (1 <= i / u) by nia.
      assert (E1 : (i - u) mod u = i mod u) by (symmetry; apply (Nat.mod_unique _ u (i / u - 1)); nia).
      assert (E2 : (i - u) / u = i / u - 1) by (symmetry; apply (Nat.div_unique _ u _ (i mod u)); nia).
      rewrite E1, E2. destruct (Nat.eqb_spec (i mod u) 0); auto.
      destruct (i / u) eqn:E; try lia. simpl. now rewrite Nat.sub_0_r.
Qed.

Lemma conv_interp u qb (b x : list A) q j : 0 < u -> length b = qb * u -> j < u ->
  conv b (zeros_between u x) (q * u + j) = conv (get_stride b j u) x q.
Proof.
  intros Hu Hb Hj. rewrite conv_sym. unfold conv at 1.
  transitivity (sum (S q * u) (fun k => get (zeros_between u x) k *! get b (q * u + j - k))).
  - symmetry. apply sum_trunc. lia. intros i Hi. rewrite get_zeros_between by lia.
    destruct (Nat.eqb_spec (i mod u) 0) as [E|E]; [|ring].
    pose proof (Nat.div_mod i u ltac:(lia)). exfalso.
    assert (i / u < S q) by (apply Nat.div_lt_upper_bound; lia).
    assert (u * (i / u) <= u * q) by (apply Nat.mul_le_mono_l; lia). lia.
  - rewrite sum_blocks. rewrite (conv_sym _ x). unfold conv. apply sum_ext. intros i Hi.
    rewrite (sum_single u 0).
    + rewrite get_zeros_between by lia. rewrite Nat.add_0_r, Nat.mod_mul, Nat.div_mul by lia. simpl.
      rewrite (get_get_stride b j u qb) by auto. f_equal. apply f_equal. nia.
    + lia.
    + intros k Hk Hk0. rewrite get_zeros_between by lia.
      rewrite Nat.add_comm, Nat.mod_add, Nat.mod_small by lia.
      destruct (Nat.eqb_spec k 0); try lia. ring.
Qed.

Lemma conv_map_scale (b x : list A) c n : conv (map (fun v => v *! c) b) x n = conv b x n *! c.
Proof.
  unfold conv. rewrite <- sum_scal_r. apply sum_ext. intros i Hi.
  destruct (Nat.lt_ge_cases i (length b)).
  - unfold get at 1. rewrite (nth_map' _ b i r0) by auto. fold (get b i). ring.
  - rewrite !(get_out _ i) by (rewrite ?map_length; lia). ring.
Qed.

Lemma upsample_eq (u : nat) (b x : list A) : 0 < u -> b <> [] -> x <> [] ->
  let half := (length b - 1) / 2 in
  let p := front_pad u b in
  exists out, filter_upsample u b x = Ok out /\
    (half <= p -> out = []) /\
    (p < half ->
      length out = (length x + (length b + p) / u - 1) * u - 2 * half /\
      forall i, i < length out -> get out i = times u (conv b (zeros_between u x) (half + i))).
Proof.
  intros Hu Hb Hx half p.
  unfold filter_upsample. rewrite !polyphase_eq by auto. cbn [bind fst snd].
  destruct (padded_length u b Hu) as [qb Hqb].
  assert (Lb : 0 < length b) by (destruct b; [easy|simpl; lia]).
  assert (Lx : 0 < length x) by (destruct x; [easy|simpl; lia]).
  assert (Pb : length b + p = qb * u).
  { unfold padded in Hqb. rewrite app_length, repeat_length in Hqb. unfold p. lia. }
  assert (0 < qb) by nia.
  set (B := map _ (mk u _)).
  assert (HB : forall j, j < u -> nth j B [] = map (fun c => c *! of_nat u) (get_stride (padded u b) j u)).
  { intros. unfold B. rewrite map_mk. now rewrite nth_mk. }
  assert (hd_nth : forall (l : list (list A)), hd [] l = nth 0 l []) by (destruct l; reflexivity).
  rewrite hd_nth, HB by lia. rewrite map_length.
  rewrite (get_stride_mult (padded u b) 0 u qb), mk_length by (auto; lia).
  fold half. set (T := (length x + qb - 1) * u). set (out := fold_left _ _ _).
  assert (Ho : length out = T) by (unfold out; rewrite fold_set_stride_length; apply repeat_length).
  assert (Hg : forall i, i < T -> get out i = times u (conv (padded u b) (zeros_between u x) i)).
  { intros i Hi. unfold out. rewrite (fold_set_stride u (fun ind => conv_full x (nth ind B []))) by lia.
    rewrite repeat_length.
    pose proof (Nat.div_mod i u ltac:(lia)) as D.
    pose proof (Nat.mod_upper_bound i u ltac:(lia)) as D2.
    destruct (Nat.ltb_spec i T); try lia. destruct (Nat.ltb_spec (i mod u) u); try lia. simpl.
    rewrite get_conv_full, HB by lia. rewrite conv_map_scale, mul_of_nat. f_equal.
    replace i with (i / u * u + i mod u) at 3 by lia. symmetry. now apply (conv_interp u qb). }
  assert (Hg2 : forall i, half + p + i < T -> get out (half + p + i) = times u (conv b (zeros_between u x) (half + i))).
  { intros i Hi. rewrite Hg by auto. f_equal. unfold padded. rewrite conv_sym, conv_prefix_zeros.
    fold p. destruct (Nat.ltb_spec (half + p + i) p); try lia. rewrite conv_sym. f_equal. lia. }
  assert (2 * half <= length b - 1) by (unfold half; pose proof (Nat.div_mod (length b - 1) 2 ltac:(lia)); lia).
  assert (Hbig : 2 * half <= T) by (unfold T; nia).
  pose proof (Nat.mod_upper_bound (length b) u ltac:(lia)) as Hmod.
  assert (Ediv : (length b + p) / u = qb) by (rewrite Pb; apply Nat.div_mul; lia).
  rewrite Ediv. fold T.
  assert (Key : exists o, Ok (if u - length b mod u =? u
      then py_slice out (Z.of_nat half) (- Z.of_nat half)
      else py_slice out (Z.of_nat half + Z.of_nat (u - length b mod u)) (- Z.of_nat half + Z.of_nat (u - length b mod u))) = Ok o
      /\ o = py_slice out (Z.of_nat (half + p)) (Z.of_nat p - Z.of_nat half)).
  { eexists. split; [reflexivity|].
    destruct (Nat.eqb_spec (u - length b mod u) u) as [E|E].
    - assert (p = 0) by (unfold p, front_pad; rewrite E; apply Nat.mod_same; lia).
      rewrite H1. f_equal; lia.
    - assert (p = u - length b mod u) by (unfold p, front_pad; apply Nat.mod_small; lia).
      rewrite H1. f_equal; lia. }
  destruct Key as [o [E1 E2]]. exists o. split; [exact E1|]. rewrite E2.
  split.
  - intros Hp. apply py_slice_empty. unfold py_bound.
    destruct (Z.ltb_spec (Z.of_nat p - Z.of_nat half) 0); try lia.
    destruct (Z.ltb_spec (Z.of_nat (half + p)) 0); try lia.
  - intros Hp. replace (Z.of_nat p - Z.of_nat half)%Z with (- Z.of_nat (half - p))%Z by lia.
    destruct (py_slice_spec out (half + p) (half - p) r0) as [S1 S2]; [lia|lia|].
    rewrite Ho in *. split. lia.
    intros i Hi. rewrite S1 in Hi. unfold get at 1. rewrite S2 by lia.
    fold (get out (half + p + i)). apply Hg2. lia.
Qed.

Lemma zero_stuff_eq u (x : list A) : 0 < u ->
  zero_stuff u x = map (times u) (zeros_between u x).
Proof.
  intros Hu. apply get_ext.
  - unfold zero_stuff. rewrite set_stride_length, repeat_length, map_length, zeros_between_length by auto. reflexivity.
  - unfold zero_stuff. rewrite set_stride_length, repeat_length. intros i Hi.
    unfold set_stride. rewrite repeat_length, get_mk by auto. simpl. rewrite Nat.sub_0_r.
    unfold get at 3. rewrite (nth_map' (times u) _ i r0) by (rewrite zeros_between_length; auto).
    fold (get (zeros_between u x) i). rewrite get_zeros_between by auto.
    pose proof (Nat.div_mod i u ltac:(lia)).
    destruct (i mod u =? 0) eqn:E.
    + unfold get at 1. rewrite (nth_map' _ x _ r0) by nia. apply mul_of_nat.
    + rewrite get_repeat0. rewrite <- mul_of_nat. ring.
Qed.
End Arr.
