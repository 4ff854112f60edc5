(** Lemmas about the block convolvers. *)
From Coq Require Import List Arith Lia ZArith Reals Lra Bool.
From Verif Require Import Alg Spec Dft Spec_block M_arrays M_signal M_block.
Import ListNotations.
Local Open Scope nat_scope.
Notation rsum := (sum (HA := CRing_R)).
Notation csum := (sum (HA := CRing_C)).
Notation getR := (get (HA := CRing_R)).
Notation convR := (conv (HA := CRing_R)).

(** Sample z of the zero-extended sequence. *)
Definition ph (h : list R) (z : Z) : R := if (z <? 0)%Z then 0%R else getR h (Z.to_nat z).
Lemma ph_nat h n : ph h (Z.of_nat n) = getR h n.
Proof. unfold ph. destruct (Z.ltb_spec (Z.of_nat n) 0). lia. now rewrite Nat2Z.id. Qed.
Lemma ph_neg h z : (z < 0)%Z -> ph h z = 0%R.
Proof. unfold ph. destruct (Z.ltb_spec z 0); auto; lia. Qed.
Lemma ph_app_l h b z : (z < Z.of_nat (length h))%Z -> ph (h ++ b) z = ph h z.
Proof. intros. unfold ph. destruct (Z.ltb_spec z 0); auto. apply (get_app_l (HA := CRing_R)). lia. Qed.
Lemma ph_app_r h b i : ph (h ++ b) (Z.of_nat (length h + i)) = getR b i.
Proof. rewrite ph_nat. rewrite (get_app_r (HA := CRing_R)) by lia. f_equal. lia. Qed.
Lemma ph_nil z : ph [] z = 0%R.
Proof. unfold ph. destruct (z <? 0)%Z; auto. destruct (Z.to_nat z); reflexivity. Qed.

Lemma conv_ph fir h n M : length fir <= M -> convR fir h n = rsum M (fun k => (getR fir k * ph h (Z.of_nat n - Z.of_nat k))%R).
Proof.
  intros HM. unfold conv.
  transitivity (rsum (Nat.max M (S n)) (fun k => (getR fir k * ph h (Z.of_nat n - Z.of_nat k))%R)).
  - symmetry. rewrite (sum_trunc (HA := CRing_R) (S n)).
    + apply sum_ext. intros k Hk. rewrite <- Nat2Z.inj_sub by lia. now rewrite ph_nat.
    + lia.
    + intros k Hk. rewrite ph_neg by lia. change (@r0 R CRing_R) with 0%R. ring.
  - rewrite (sum_trunc (HA := CRing_R) M). reflexivity. lia.
    intros k Hk. rewrite (get_out (HA := CRing_R) fir k) by lia. change (@r0 R CRing_R) with 0%R. ring.
Qed.

(** Circular convolution with a short filter is linear convolution away from the start. *)
Lemma circ_lin n M x f t : length f <= M -> M <= t + 1 -> t < n -> circ n x f t = rsum M (fun k => (getR f k * getR x (t - k))%R).
Proof.
  intros Hf HM Ht. unfold circ. replace n with ((t + 1) + (n - t - 1)) at 1 by lia.
  rewrite (sum_split (HA := CRing_R)). rewrite (sum_zero' (HA := CRing_R) (n - t - 1)).
  - rewrite (sum_rev (HA := CRing_R)).
    rewrite (sum_ext (HA := CRing_R) (t + 1) _ (fun k => (getR f k * getR x (t - k))%R)).
    + rewrite (sum_trunc (HA := CRing_R) M). change (@radd R CRing_R) with Rplus. change (@r0 R CRing_R) with 0%R. ring. lia.
      intros k Hk. rewrite (get_out (HA := CRing_R) f k) by lia. change (@r0 R CRing_R) with 0%R. ring.
    + intros k Hk. replace (t + 1 - 1 - k) with (t - k) by lia. replace (t + n - (t - k)) with (k + 1 * n) by lia.
      rewrite Nat.mod_add, Nat.mod_small by lia. ring.
  - intros j Hj. rewrite Nat.mod_small by lia. rewrite (get_out (HA := CRing_R) f) by lia. change (@r0 R CRing_R) with 0%R. ring.
Qed.

Lemma find_seq_ge f a n m : find f (seq a n) = Some m -> a <= m.
Proof. intros E. apply find_some in E. destruct E as [E _]. apply in_seq in E. lia. Qed.
Lemma next_fast_len_ge t : t <= next_fast_len t.
Proof. unfold next_fast_len. destruct (find smooth5 (seq t (S t))) eqn:E; auto. now apply find_seq_ge in E. Qed.

Lemma last_n_length {T} k (l : list T) : k <= length l -> length (last_n k l) = k.
Proof. intros. unfold last_n. rewrite skipn_length. lia. Qed.
Lemma last_n_app {T} k (l l' : list T) : length l' = k -> last_n k (l ++ l') = l'.
Proof.
  intros E. unfold last_n. rewrite app_length, E. replace (length l + k - k) with (length l) by lia.
  rewrite skipn_app, skipn_all, Nat.sub_diag. reflexivity.
Qed.
Lemma fit_length bs x b : fit bs x = Some b -> length b = bs.
Proof.
  unfold fit. destruct (Nat.eqb_spec (length x) bs). intros [= <-]. auto.
  destruct x as [|v [|w x]]; try discriminate. intros [= <-]. apply repeat_length.
Qed.
Lemma last_block_length fir h bs : length (last_block fir h bs) = bs.
Proof. apply mk_length. Qed.

(** ** Overlap-save *)
Definition os_chan (L bs : nat) (buf h : list R) : Prop :=
  length buf = L /\ forall i, i < L - bs -> getR buf i = ph h (Z.of_nat (length h) + Z.of_nat i - Z.of_nat (L - bs)).

Lemma os_block_ok fir s buf h b : 0 < os_bs s -> length fir + os_bs s <= os_L s -> Nat.even (os_L s) = true ->
  os_spec s = rfft (os_L s) fir -> length b = os_bs s -> os_chan (os_L s) (os_bs s) buf h ->
  os_chan (os_L s) (os_bs s) (fst (os_block s buf b)) (h ++ b) /\
  snd (os_block s buf b) = last_block fir (h ++ b) (os_bs s).
Proof.
  intros Hbs HL He Hsp Hb [Hlen Hbuf]. unfold os_block. cbn [fst snd].
  set (L := os_L s) in *. set (bs := os_bs s) in *. set (buf1 := firstn (L - bs) buf ++ b).
  assert (L1 : length buf1 = L) by (unfold buf1; rewrite app_length, firstn_length; lia).
  assert (G1 : forall i, i < L -> getR buf1 i = ph (h ++ b) (Z.of_nat (length h + bs) + Z.of_nat i - Z.of_nat L)).
  { intros i Hi. unfold buf1. destruct (Nat.lt_ge_cases i (L - bs)).
    - rewrite (get_app_l (HA := CRing_R)) by (rewrite firstn_length; lia). unfold get at 1. rewrite nth_firstn by auto.
      change (nth i buf r0) with (getR buf i). rewrite Hbuf by auto. rewrite ph_app_l by lia. f_equal. lia.
    - rewrite (get_app_r (HA := CRing_R)) by (rewrite firstn_length; lia). rewrite firstn_length.
      replace (Nat.min (L - bs) (length buf)) with (L - bs) by lia.
      replace (Z.of_nat (length h + bs) + Z.of_nat i - Z.of_nat L)%Z with (Z.of_nat (length h + (i - (L - bs)))) by lia.
      now rewrite ph_app_r. }
  split.
  - split.
    + rewrite app_length, skipn_length, last_n_length; lia.
    + intros i Hi. rewrite (get_app_l (HA := CRing_R)) by (rewrite skipn_length; lia). unfold get at 1. rewrite nth_skipn.
      change (nth (bs + i) buf1 r0) with (getR buf1 (bs + i)). rewrite G1 by lia. rewrite app_length. f_equal. lia.
  - rewrite Hsp. rewrite (irfft_even L) by (auto; unfold cmul_list; now rewrite mk_length, rfft_length).
    assert (Li : length (irfft_n L (cmul_list (rfft L buf1) (rfft L fir))) = L) by apply mk_length.
    apply (get_ext (HA := CRing_R)).
    + rewrite last_n_length by lia. now rewrite last_block_length.
    + rewrite last_n_length by lia. intros t Ht. unfold last_n. unfold get at 1. rewrite nth_skipn, Li.
      match goal with |- nth ?i ?l r0 = _ => change (nth i l r0) with (getR l i) end.
      rewrite irfft_conv by lia. rewrite (circ_lin L (length fir)) by lia.
      unfold last_block. rewrite (get_mk (HA := CRing_R)) by auto. rewrite (conv_ph _ _ _ (length fir)) by lia.
      apply sum_ext. intros k Hk. f_equal. rewrite G1 by lia. rewrite app_length. f_equal. lia.
Qed.

(** ** Uniform partitions *)
Definition win (h : list R) (bs j : nat) : list R :=
  mk (2 * bs) (fun i => ph h (Z.of_nat (length h) - Z.of_nat (j * bs) + Z.of_nat i - Z.of_nat (2 * bs))).

Lemma win_app h b bs j : length b = bs -> win (h ++ b) bs (S j) = win h bs j.
Proof.
  intros Hb. unfold win. apply mk_ext. intros i Hi. rewrite app_length. rewrite ph_app_l by lia. f_equal. lia.
Qed.
Lemma get_partition fir bs p k : k < bs -> getR (partition fir bs p) k = getR fir (p * bs + k).
Proof.
  intros Hk. unfold partition. set (q := firstn bs (skipn (p * bs) fir)).
  destruct (Nat.lt_ge_cases k (length q)).
  - rewrite (get_app_l (HA := CRing_R)) by auto. unfold q, get. rewrite nth_firstn, nth_skipn by auto. reflexivity.
  - rewrite (get_app_r (HA := CRing_R)) by auto. change 0%R with (@r0 R CRing_R). rewrite (get_repeat0 (HA := CRing_R)).
    symmetry. apply (get_out (HA := CRing_R)). unfold q in *. rewrite firstn_length, skipn_length in *. lia.
Qed.
Lemma partition_length fir bs p : length (partition fir bs p) = bs.
Proof. unfold partition. rewrite app_length, repeat_length, firstn_length. lia. Qed.
Lemma slot_mod np ind n : ind < np -> n < np -> slot np ind n = (ind + np - n) mod np.
Proof.
  intros. unfold slot. destruct (Nat.leb_spec n ind).
  - replace (ind + np - n) with (ind - n + 1 * np) by lia. rewrite Nat.mod_add, Nat.mod_small; lia.
  - rewrite Nat.mod_small; lia.
Qed.

Lemma accumulate_length np bs parts spec ind : length (accumulate np bs parts spec ind) = bs + 1.
Proof. apply mk_length. Qed.
Lemma irfft_acc np bs parts spec ind (hp xp : nat -> list R) t : 0 < bs -> t < 2 * bs ->
  (forall p, p < np -> nth p parts [] = rfft (2 * bs) (hp p)) ->
  (forall p, p < np -> nth (slot np ind p) spec [] = rfft (2 * bs) (xp p)) ->
  getR (irfft (accumulate np bs parts spec ind)) t = rsum np (fun p => circ (2 * bs) (xp p) (hp p) t).
Proof.
  intros Hbs Ht HP HS. set (n := 2 * bs) in *.
  assert (En : n / 2 = bs) by (unfold n; rewrite Nat.mul_comm; apply Nat.div_mul; lia).
  rewrite (irfft_even n); [|apply Nat.even_spec; exists bs; reflexivity|rewrite accumulate_length; lia].
  unfold irfft_n. rewrite (get_mk (HA := CRing_R)) by auto.
  rewrite (sum_ext (HA := CRing_C) n _ (fun k => csum np (fun p => dft n (xp p) k *! dft n (hp p) k *! root n (Z.of_nat k * Z.of_nat t)))).
  - rewrite (sum_exchange (HA := CRing_C)).
    rewrite (sum_ext (HA := CRing_C) np _ (fun p => rc (INR n * circ n (xp p) (hp p) t))).
    + rewrite csum_rc. cbn [fst rc]. rewrite (sum_scal_l (HA := CRing_R) np (INR n)). change (@rmul R CRing_R) with Rmult. field. apply not_0_INR. lia.
    + intros p Hp. apply conv_thm; lia.
  - intros k Hk. rewrite (sum_scal_r (HA := CRing_C) np (root n (Z.of_nat k * Z.of_nat t)) (fun p => dft n (xp p) k *! dft n (hp p) k)). f_equal.
    unfold herm, accumulate. rewrite En.
    destruct (Nat.leb_spec k bs).
    + rewrite nth_mk by lia. apply sum_ext. intros p Hp. rewrite HP, HS by auto.
      rewrite <- !(herm_real n) by lia. unfold herm. rewrite En. destruct (Nat.leb_spec k bs); try lia. ring.
    + rewrite nth_mk by lia. rewrite csum_conj. apply sum_ext. intros p Hp. rewrite HP, HS by auto.
      rewrite <- !(herm_real n) by lia. unfold herm. rewrite En. destruct (Nat.leb_spec k bs); try lia.
      change (@rmul C CRing_C) with cmul at 1. rewrite cconj_mul. change cmul with (@rmul C CRing_C). ring.
Qed.

Definition up_chan (np bs il : nat) (spec : list (list C)) (inb h : list R) : Prop :=
  length inb = 2 * bs /\ (forall i, bs <= i < 2 * bs -> getR inb i = ph h (Z.of_nat (length h) + Z.of_nat i - Z.of_nat (2 * bs))) /\
  length spec = np /\ forall j, j < np -> nth ((il + np - j) mod np) spec [] = rfft (2 * bs) (win h bs j).

Lemma mod_succ_neq np ind j : ind < np -> 0 < j < np -> (ind + np - j) mod np <> ind.
Proof.
  intros. rewrite <- slot_mod by lia. unfold slot. destruct (Nat.leb_spec j ind); lia.
Qed.
Lemma up_block_ok fir np bs parts ind il spec inb h b :
  0 < bs -> length fir <= np * bs -> 0 < np -> ind < np -> ind = (il + 1) mod np -> il < np -> length b = bs ->
  (forall p, p < np -> nth p parts [] = rfft (2 * bs) (partition fir bs p)) ->
  up_chan np bs il spec inb h ->
  let '(sp, ib, y) := up_block np bs parts ind spec inb b in
  up_chan np bs ind sp ib (h ++ b) /\ y = last_block fir (h ++ b) bs.
Proof.
  intros Hbs Hf Hnp Hind Eind Hil Hb HP (Li & Gi & Ls & Gs). unfold up_block.
  set (inb1 := last_n bs inb ++ b). set (sp := upd spec ind (rfft (2 * bs) inb1)).
  assert (L1 : length inb1 = 2 * bs) by (unfold inb1; rewrite app_length, last_n_length; lia).
  assert (G1 : forall i, i < 2 * bs -> getR inb1 i = ph (h ++ b) (Z.of_nat (length (h ++ b)) + Z.of_nat i - Z.of_nat (2 * bs))).
  { intros i Hi. rewrite app_length. unfold inb1. destruct (Nat.lt_ge_cases i bs).
    - rewrite (get_app_l (HA := CRing_R)) by (rewrite last_n_length; lia). unfold last_n, get at 1. rewrite nth_skipn.
      match goal with |- nth ?i ?l r0 = _ => change (nth i l r0) with (getR l i) end.
      rewrite Gi by lia. rewrite ph_app_l by lia. f_equal. lia.
    - rewrite (get_app_r (HA := CRing_R)) by (rewrite last_n_length; lia). rewrite last_n_length by lia.
      replace (Z.of_nat (length h + length b) + Z.of_nat i - Z.of_nat (2 * bs))%Z with (Z.of_nat (length h + (i - bs))) by lia.
      now rewrite ph_app_r. }
  assert (W0 : win (h ++ b) bs 0 = inb1).
  { apply (get_ext (HA := CRing_R)). unfold win. now rewrite mk_length. unfold win. rewrite mk_length. intros i Hi.
    rewrite (get_mk (HA := CRing_R)) by auto. rewrite G1 by auto. f_equal. lia. }
  assert (Gs1 : forall j, j < np -> nth ((ind + np - j) mod np) sp [] = rfft (2 * bs) (win (h ++ b) bs j)).
  { intros j Hj. unfold sp. destruct j.
    - rewrite W0. replace ((ind + np - 0) mod np) with ind. now rewrite nth_upd_eq by lia.
      replace (ind + np - 0) with (ind + 1 * np) by lia. rewrite Nat.mod_add, Nat.mod_small; lia.
    - rewrite nth_upd_neq by (intro E; symmetry in E; revert E; apply mod_succ_neq; lia).
      rewrite win_app by auto. rewrite <- Gs by lia. f_equal. rewrite Eind.
      replace ((il + 1) mod np + np - S j) with ((il + 1) mod np + (np - S j)) by lia.
      rewrite Nat.add_mod_idemp_l by lia. f_equal. lia. }
  assert (HC : up_chan np bs ind sp inb1 (h ++ b)).
  { split; auto. split. intros; apply G1; lia. split; auto. unfold sp. now rewrite upd_length. }
  split; auto.
  assert (Lo : length (irfft (accumulate np bs parts sp ind)) = 2 * bs) by (rewrite irfft_length, accumulate_length; lia).
  apply (get_ext (HA := CRing_R)).
  { rewrite last_n_length by lia. now rewrite last_block_length. }
  rewrite last_n_length by lia. intros t Ht. unfold last_n, get at 1. rewrite nth_skipn, Lo.
  match goal with |- nth ?i ?l r0 = _ => change (nth i l r0) with (getR l i) end.
  rewrite (irfft_acc np bs parts sp ind (partition fir bs) (win (h ++ b) bs)); auto; try lia.
  2:{ intros p Hp. rewrite slot_mod by auto. now apply Gs1. }
  unfold last_block. rewrite (get_mk (HA := CRing_R)) by auto. rewrite (conv_ph _ _ _ (np * bs)) by auto.
  rewrite (sum_blocks (HA := CRing_R)). apply sum_ext. intros p Hp.
  rewrite (circ_lin _ bs) by (try rewrite partition_length; lia). apply sum_ext. intros k Hk.
  rewrite get_partition by auto. f_equal. unfold win. rewrite (get_mk (HA := CRing_R)) by lia. f_equal. rewrite app_length. lia.
Qed.

Lemma dft_zeros n m k : dft n (repeat 0%R m) k = rc 0.
Proof.
  unfold dft. apply (sum_zero' (HA := CRing_C)). intros i Hi. change 0%R with (@r0 R CRing_R) at 1. rewrite (get_repeat0 (HA := CRing_R)).
  change (rc r0) with (@r0 C CRing_C). ring.
Qed.
Lemma win_nil bs j : win [] bs j = repeat 0%R (2 * bs).
Proof.
  apply (get_ext (HA := CRing_R)). unfold win. now rewrite mk_length, repeat_length. unfold win. rewrite mk_length. intros i Hi.
  rewrite (get_mk (HA := CRing_R)) by auto. rewrite ph_nil. symmetry. apply (get_repeat0 (HA := CRing_R)).
Qed.
Lemma rfft_zeros bs : rfft (2 * bs) (repeat 0%R (2 * bs)) = czero (bs + 1).
Proof.
  unfold rfft, czero. replace (2 * bs / 2) with bs by (rewrite Nat.mul_comm, Nat.div_mul; lia).
  rewrite (mk_ext _ _ (fun _ => rc 0)) by (intros; apply dft_zeros). generalize (bs + 1). intros n. unfold mk.
  generalize 0. induction n; intros; simpl; auto. now rewrite IHn.
Qed.
Lemma up_chan_init np bs il : 0 < np -> up_chan np bs il (repeat (czero (bs + 1)) np) (repeat 0%R (2 * bs)) [].
Proof.
  intros. unfold up_chan. rewrite !repeat_length. repeat split.
  - intros i Hi. rewrite ph_nil. apply (get_repeat0 (HA := CRing_R)).
  - intros j Hj. rewrite nth_repeat_lt by (apply Nat.mod_upper_bound; lia). rewrite win_nil. now rewrite rfft_zeros.
Qed.
Lemma np_enough (fir : list R) bs : 0 < bs -> length fir <= (length fir / bs + 1) * bs.
Proof. intros. pose proof (Nat.div_mod (length fir) bs ltac:(lia)). pose proof (Nat.mod_upper_bound (length fir) bs ltac:(lia)). lia. Qed.
Lemma repeat_map_eq {T U} (f : T -> U) v (l : list T) : (forall x, In x l -> f x = v) -> map f l = repeat v (length l).
Proof. induction l; simpl; intros; auto. rewrite H by auto. f_equal. apply IHl. auto. Qed.

(** ** next_fast_len *)
Lemma strip_spec p fuel n : 2 <= p -> 0 < n -> n <= fuel ->
  exists k, n = p ^ k * strip fuel p n /\ 0 < strip fuel p n /\ (strip fuel p n) mod p <> 0.
Proof.
  intros Hp. revert n. induction fuel; intros n Hn Hf. lia. cbn [strip].
  destruct (Nat.eqb_spec (n mod p) 0) as [E|E].
  - pose proof (Nat.div_mod n p ltac:(lia)). assert (0 < n / p) by nia. assert (n / p <= fuel) by nia.
    destruct (IHfuel (n / p) H0 H1) as [k [A B]]. exists (S k). split; auto. rewrite Nat.pow_succ_r'. nia.
  - exists 0. simpl. split; lia.
Qed.
Lemma strip_le p fuel n : 2 <= p -> 0 < n -> n <= fuel -> strip fuel p n <= n.
Proof.
  intros. destruct (strip_spec p fuel n) as [k [A [B _]]]; auto. assert (0 < p ^ k). { apply Nat.neq_0_lt_0. apply Nat.pow_nonzero. lia. } nia.
Qed.
Lemma gauss_pow r p k q : Nat.gcd r p = 1 -> Nat.divide r (p ^ k * q) -> Nat.divide r q.
Proof.
  intros G. induction k; simpl; intros D. now rewrite Nat.add_0_r in D.
  apply IHk. apply (Nat.gauss r p). now rewrite Nat.mul_assoc. exact G.
Qed.
Lemma gcd_small r p : (p = 2 \/ p = 3 \/ p = 5) -> r mod p <> 0 -> Nat.gcd r p = 1.
Proof.
  intros Hp Hr. pose proof (Nat.gcd_divide_r r p) as D. pose proof (Nat.gcd_divide_l r p) as [u E].
  set (g := Nat.gcd r p) in *. assert (g <> p). { intros G. apply Hr. rewrite E, G. apply Nat.mod_mul. lia. }
  destruct D as [q D]. assert (g <= p) by (destruct q; [lia|nia]).
  destruct Hp as [Hp|[Hp|Hp]]; subst p; assert (g <> 0) by (intros G; rewrite G in D; lia); assert (G : g = 1 \/ g = 2 \/ g = 3 \/ g = 4 ) by lia; destruct G as [G|[G|[G|G]]]; rewrite G in *; lia.
Qed.
Lemma mod_mult_neq a b p : p <> 0 -> (a * b) mod p <> 0 -> b mod p <> 0.
Proof. intros Hp H E. apply H. rewrite Nat.mul_mod, E, Nat.mul_0_r by auto. now apply Nat.mod_0_l. Qed.
Lemma smooth5_spec n : 0 < n -> smooth5 n = true <-> five_smooth n.
Proof.
  intros Hn. unfold smooth5. rewrite Nat.eqb_eq.
  destruct (strip_spec 2 n n) as [a [A1 [A2 A3]]]; auto. pose proof (strip_le 2 n n ltac:(lia) Hn ltac:(lia)) as A4.
  set (r2 := strip n 2 n) in *. destruct (strip_spec 3 n r2) as [b [B1 [B2 B3]]]; auto.
  pose proof (strip_le 3 n r2 ltac:(lia) A2 ltac:(lia)) as B4.
  set (r3 := strip n 3 r2) in *. destruct (strip_spec 5 n r3) as [c [C1 [C2 C3]]]; auto. lia.
  set (r5 := strip n 5 r3) in *. split.
  - intros E. exists a, b, c. rewrite A1, B1, C1, E. ring.
  - intros [a' [b' [c' E]]].
    assert (D : Nat.divide r5 (2 ^ a' * (3 ^ b' * (5 ^ c' * 1)))).
    { exists (2 ^ a * 3 ^ b * 5 ^ c). transitivity n. rewrite E. ring. rewrite A1 at 1. rewrite B1 at 1. rewrite C1 at 1. ring. }
    assert (M3 : r5 mod 3 <> 0) by (apply (mod_mult_neq (5 ^ c)); [lia|now rewrite <- C1]).
    assert (M2 : r5 mod 2 <> 0). { apply (mod_mult_neq (3 ^ b * 5 ^ c)); [lia|]. rewrite <- Nat.mul_assoc, <- C1, <- B1. exact A3. }
    apply gauss_pow in D; [|apply gcd_small; auto]. apply gauss_pow in D; [|apply gcd_small; auto]. apply gauss_pow in D; [|apply gcd_small; auto].
    now apply Nat.divide_1_r in D.
Qed.
Lemma pow2_between t : 0 < t -> exists k, t <= 2 ^ k <= 2 * t.
Proof.
  intros. pose proof (Nat.log2_spec t H) as [A B]. exists (S (Nat.log2 t)). rewrite Nat.pow_succ_r' in *. lia.
Qed.
Lemma find_first f a n m : find f (seq a n) = Some m -> f m = true /\ forall i, a <= i < m -> f i = false.
Proof.
  revert a. induction n; simpl; intros a E. discriminate. destruct (f a) eqn:Fa.
  - injection E as <-. split; auto. intros; lia.
  - destruct (IHn _ E) as [H1 H2]. split; auto. intros i Hi. destruct (Nat.eq_dec i a); subst; auto. apply H2. lia.
Qed.
Lemma next_fast_len_spec t : 0 < t -> fast_length t (next_fast_len t).
Proof.
  intros Ht. unfold next_fast_len. destruct (find smooth5 (seq t (S t))) eqn:E.
  - pose proof (find_seq_ge _ _ _ _ E). apply find_first in E. destruct E as [E1 E2]. split; [apply smooth5_spec; auto; lia|]. split; auto.
    intros m Hm F. apply smooth5_spec in F; [|lia]. rewrite E2 in F by auto. discriminate.
  - exfalso. destruct (pow2_between t Ht) as [k Hk].
    assert (F : smooth5 (2 ^ k) = true). { apply smooth5_spec. lia. exists k, 0, 0. simpl. lia. }
    rewrite (find_none _ _ E (2 ^ k)) in F. discriminate. apply in_seq. lia.
Qed.

(** ** State relations *)
Definition os_rel (fir : list R) (s : option os) (r : option (nat * list (list R))) : Prop :=
  match s, r with
  | None, None => True
  | Some t, Some (bs, h) => os_bs t = bs /\ 0 < bs /\ length fir + bs <= os_L t /\ Nat.even (os_L t) = true /\ os_spec t = rfft (os_L t) fir /\
      length (os_buf t) = length h /\ forall c, c < length h -> os_chan (os_L t) bs (nth c (os_buf t) []) (nth c h [])
  | _, _ => False
  end.
Lemma os_chan_zero L bs : os_chan L bs (repeat 0%R L) [].
Proof. split. apply repeat_length. intros. rewrite ph_nil. apply (get_repeat0 (HA := CRing_R)). Qed.
Lemma os_step_ok fir s r o : os_rel fir s r ->
  match o with Prepare bs _ => 0 < bs /\ Nat.even (next_fast_len (length fir + bs)) = true | _ => True end ->
  os_rel fir (fst (os_step fir s o)) (fst (blk_ref fir r o)) /\ snd (os_step fir s o) = snd (blk_ref fir r o).
Proof.
  intros HR Ho. destruct o as [bs nch| |x ch].
  - cbn. split; auto. destruct Ho as [Hb He]. repeat split; auto.
    + apply next_fast_len_ge.
    + now rewrite !repeat_length.
    + cbn [os_L os_bs os_buf os_prepare]. rewrite nth_repeat_lt by (rewrite repeat_length in *; auto). apply repeat_length.
    + cbn [os_L os_bs os_buf os_prepare]. rewrite repeat_length in H. rewrite !nth_repeat_lt by auto. apply os_chan_zero.
  - destruct s as [t|], r as [[bs h]|]; try contradiction; cbn; auto. split; auto.
    destruct HR as (E1 & H1 & H2 & H3 & H4 & H5 & H6). repeat split; auto.
    + now rewrite !map_length.
    + cbn [os_L os_buf]. rewrite map_length in H. rewrite (nth_map' _ _ _ []) by lia. rewrite repeat_length. apply H6. auto.
    + cbn [os_L os_buf]. rewrite map_length in H. rewrite (nth_map' _ _ _ []) by lia. rewrite (nth_map' _ _ _ []) by auto.
      destruct (H6 c H) as [-> _]. apply os_chan_zero.
  - destruct s as [t|], r as [[bs h]|]; try contradiction; cbn [os_step blk_ref]; auto.
    pose proof HR as (E1 & H1 & H2 & H3 & H4 & H5 & H6). rewrite H5. destruct (py_index (length h) ch) as [c|] eqn:Ec; [|cbn; auto].
    rewrite E1. destruct (fit bs x) as [b|] eqn:Ef; [|cbn; auto]. apply py_index_lt in Ec. apply fit_length in Ef.
    subst bs. destruct (os_block_ok fir t (nth c (os_buf t) []) (nth c h []) b) as [A B]; auto.
    destruct (os_block t (nth c (os_buf t) []) b) as [buf y]. cbn [fst snd] in *. split; [|now rewrite B].
    repeat split; cbn [os_bs os_L os_spec os_buf]; auto. now rewrite !upd_length.
    all: rewrite upd_length in H; destruct (Nat.eq_dec c c0) as [<-|Hne]; [rewrite ?nth_upd_eq by lia|rewrite ?nth_upd_neq by auto]; try apply A.
    all: apply (H6 c0 H).
Qed.

(** Partitioned: last is the per-channel call number of the last block, n the number of calls. *)
Definition up_rel (fir : list R) (s : option up) (r : option (nat * list (list R))) (m : option (nat * nat * list (option nat))) : Prop :=
  match s, r, m with
  | None, None, None => True
  | Some t, Some (bs, h), Some (bs', n, last) =>
      bs' = bs /\ up_bs t = bs /\ 0 < bs /\ up_np t = length fir / bs + 1 /\ up_parts t = mk (up_np t) (fun p => rfft (2 * bs) (partition fir bs p)) /\
      up_ind t = n mod up_np t /\ length (up_spec t) = length h /\ length (up_in t) = length h /\ length last = length h /\
      forall c, c < length h ->
        exists il, il < up_np t /\ up_chan (up_np t) bs il (nth c (up_spec t) []) (nth c (up_in t) []) (nth c h []) /\
          Forall (fun v => length v = bs + 1) (nth c (up_spec t) []) /\
          match nth c last None with None => nth c h [] = [] | Some l => il = l mod up_np t /\ l < n end
  | _, _, _ => False
  end.
Lemma up_chan_any np bs il il' spec inb : 0 < np -> il < np -> up_chan np bs il spec inb [] -> up_chan np bs il' spec inb [].
Proof.
  intros Hnp Hil (A & B & C & D). repeat split; auto. intros j Hj. rewrite win_nil.
  set (q := (il' + np - j) mod np). assert (Hq : q < np) by (apply Nat.mod_upper_bound; lia).
  assert (X : exists j', j' < np /\ (il + np - j') mod np = q).
  { destruct (Nat.le_gt_cases q il).
    - exists (il - q). split. lia. replace (il + np - (il - q)) with (q + 1 * np) by lia. rewrite Nat.mod_add, Nat.mod_small; lia.
    - exists (il + np - q). split. lia. replace (il + np - (il + np - q)) with q by lia. apply Nat.mod_small; lia. }
  destruct X as [j' [Hj' <-]]. rewrite D by auto. now rewrite win_nil.
Qed.
Lemma Forall_upd {T} (P : T -> Prop) l i v : P v -> Forall P l -> Forall P (upd l i v).
Proof. intros Hv H. revert i. induction H; intros; destruct i; simpl; constructor; auto. Qed.
