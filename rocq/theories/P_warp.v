(** Lemmas about warped filters. *)
From Coq Require Import List Arith Lia ZArith Setoid.
From Verif Require Import Alg Spec M_realtime P_realtime M_warp.
Import ListNotations.
Local Open Scope nat_scope.

Section Chain.
Context {A : Type} {HA : CRing A}.
Add Ring Aring_w : (rth (A := A)).

(** First-order allpass from rest, sample n; and the chain of k of them. *)
Fixpoint apv (lam : A) (u : list A) (n : nat) : A :=
  match n with
  | O => -! (lam *! get u 0)
  | S m => lam *! (apv lam u m -! get u (S m)) +! get u m
  end.
Definition ap (lam : A) (u : list A) : list A := mk (length u) (apv lam u).
Fixpoint chain (lam : A) (k : nat) (x : list A) : list A := match k with O => x | S j => ap lam (chain lam j x) end.

Lemma ap_diff lam u : diff_eq [-! lam; r1] [r1; -! lam] u (ap lam u).
Proof.
  split. unfold ap. now rewrite mk_length. intros n Hn.
  assert (E : forall m, m < length u -> get (ap lam u) m = apv lam u m) by (intros; unfold ap; now rewrite get_mk).
  unfold conv. destruct n.
  - cbn [sum]. rewrite Nat.sub_0_r, E by auto. cbn [apv]. unfold get. cbn [nth]. ring.
  - rewrite !sum_S_front. rewrite !(sum_zero' n).
    + rewrite Nat.sub_0_r. replace (S n - 1) with n by lia. rewrite !E by lia. cbn [apv].
      change (get [-! lam; r1] 0) with (-! lam). change (get [-! lam; r1] 1) with (r1 : A).
      change (get [r1; -! lam] 0) with (r1 : A). change (get [r1; -! lam] 1) with (-! lam). ring.
    + intros i Hi. rewrite (get_out [-! lam; r1]) by (simpl; lia). ring.
    + intros i Hi. rewrite (get_out [r1; -! lam]) by (simpl; lia). ring.
Qed.
Lemma diff_ap lam u y : diff_eq [-! lam; r1] [r1; -! lam] u y -> y = ap lam u.
Proof.
  intros [L H]. apply get_ext. unfold ap. now rewrite mk_length. intros n Hn. unfold ap. rewrite get_mk by lia. rewrite L in Hn.
  induction n.
  - specialize (H 0 Hn). unfold conv in H. cbn [sum] in H. rewrite Nat.sub_0_r in H. unfold get in H at 1 3. cbn [nth] in H. cbn [apv].
    transitivity (r0 +! r1 *! get y 0). ring. rewrite H. ring.
  - specialize (H (S n) Hn). specialize (IHn ltac:(lia)). unfold conv in H. rewrite !sum_S_front in H. rewrite !(sum_zero' n) in H.
    + rewrite Nat.sub_0_r in H. replace (S n - 1) with n in H by lia. cbn [apv]. rewrite <- IHn.
      change (get [-! lam; r1] 0) with (-! lam) in H. change (get [-! lam; r1] 1) with (r1 : A) in H.
      change (get [r1; -! lam] 0) with (r1 : A) in H. change (get [r1; -! lam] 1) with (-! lam) in H.
      transitivity (r1 *! get y (S n) +! (-! lam *! get y n +! r0) +! lam *! get y n). ring. rewrite H. ring.
    + intros i Hi. rewrite (get_out [-! lam; r1]) by (simpl; lia). ring.
    + intros i Hi. rewrite (get_out [r1; -! lam]) by (simpl; lia). ring.
Qed.
Lemma chain_length lam k x : length (chain lam k x) = length x.
Proof. induction k; simpl; auto. unfold ap. now rewrite mk_length. Qed.
Lemma apv_ext lam u u' n : (forall i, i <= n -> get u i = get u' i) -> apv lam u n = apv lam u' n.
Proof.
  induction n; intros H; cbn [apv]. now rewrite H by lia. rewrite IHn by (intros; apply H; lia). rewrite !H by lia. reflexivity.
Qed.
Lemma chain_prefix lam k x y n : n < length x -> get (chain lam k (x ++ y)) n = get (chain lam k x) n.
Proof.
  revert n. induction k; intros n Hn; cbn [chain].
  - now apply get_app_l.
  - unfold ap. rewrite !get_mk by (rewrite chain_length, ?app_length; lia). apply apv_ext. intros i Hi. apply IHk. lia.
Qed.

(** Values along the chain for the new sample, from the buffered values. *)
Fixpoint ychain (lam : A) (buf : list A) (v : A) (k : nat) : A :=
  match k with O => v | S j => (get buf (j + 1) -! ychain lam buf v j) *! lam +! get buf j end.
Definition wbuf (lam : A) (N : nat) (h : list A) : list A := mk N (fun k => get (chain lam k h) (length h - 1)).

Lemma ychain_chain lam N h v k : k < N -> ychain lam (wbuf lam N h) v k = get (chain lam k (h ++ [v])) (length h).
Proof.
  induction k; intros Hk; cbn [ychain].
  - cbn [chain]. now rewrite get_snoc.
  - rewrite IHk by lia. unfold wbuf. rewrite !get_mk by lia. rewrite Nat.add_1_r. cbn [chain]. unfold ap at 2.
    rewrite get_mk by (rewrite chain_length, app_length; simpl; lia).
    destruct (length h) as [|n] eqn:E.
    + cbn [apv]. rewrite (get_out (ap lam (chain lam k h))) by (unfold ap; rewrite mk_length, chain_length; lia).
      rewrite (get_out (chain lam k h)) by (rewrite chain_length; lia). ring.
    + cbn [apv]. replace (S n - 1) with n by lia.
      assert (X : apv lam (chain lam k (h ++ [v])) n = get (ap lam (chain lam k h)) n).
      { unfold ap. rewrite get_mk by (rewrite chain_length; lia). apply apv_ext. intros i Hi. apply chain_prefix. lia. }
      rewrite X. rewrite (chain_prefix lam k h [v] n) by lia. ring.
Qed.

Lemma warp_loop lam b buf v n : n + 1 <= length buf ->
  fold_left (warp_tap lam b) (seq 0 n) (buf, v, v *! get b 0)
  = (mk (length buf) (fun k => if k <? n then ychain lam buf v k else get buf k), ychain lam buf v n,
     sum (min (length b) (S n)) (fun k => get b k *! ychain lam buf v k) +! (if length b =? 0 then v *! get b 0 else r0)).
Proof.
  induction n; intros Hn.
  - cbn [seq fold_left ychain]. f_equal; [f_equal|].
    + symmetry. apply mk_nth.
    + destruct b as [|b0 b]. cbn [length Nat.min sum Nat.eqb]. ring. replace (min (length (b0 :: b)) 1) with 1 by (simpl; lia). cbn [sum ychain length Nat.eqb]. ring.
  - rewrite seq_S, fold_left_app, IHn by lia. cbn [fold_left plus]. unfold warp_tap.
    assert (G1 : get (mk (length buf) (fun k => if k <? n then ychain lam buf v k else get buf k)) (n + 1) = get buf (n + 1)).
    { rewrite get_mk by lia. destruct (Nat.ltb_spec (n + 1) n); auto; lia. }
    assert (G2 : get (mk (length buf) (fun k => if k <? n then ychain lam buf v k else get buf k)) n = get buf n).
    { rewrite get_mk by lia. destruct (Nat.ltb_spec n n); auto; lia. }
    rewrite G1, G2. cbn [ychain]. f_equal; [f_equal|].
    + rewrite upd_mk by lia. apply mk_ext. intros k Hk. destruct (Nat.eqb_spec k n) as [->|Hne].
      * destruct (Nat.ltb_spec n (S n)); auto; lia.
      * destruct (Nat.ltb_spec k n), (Nat.ltb_spec k (S n)); auto; lia.
    + destruct (Nat.ltb_spec (n + 1) (length b)).
      * replace (min (length b) (S (S n))) with (S (S n)) by lia. replace (min (length b) (S n)) with (S n) by lia.
        destruct (Nat.eqb_spec (length b) 0); [lia|]. rewrite (Nat.add_1_r n). cbn [sum ychain]. rewrite ?Nat.add_1_r. ring.
      * replace (min (length b) (S (S n))) with (min (length b) (S n)) by lia. reflexivity.
Qed.

Lemma warp_proc_ok lam b N h v : 0 < length b <= N ->
  warp_proc lam b N (wbuf lam N h) v
  = Ok (sum (length b) (fun k => get b k *! get (chain lam k (h ++ [v])) (length h)), wbuf lam N (h ++ [v])).
Proof.
  intros Hb. unfold warp_proc. destruct (Nat.eqb_spec (length b) 0); [lia|].
  assert (L : length (wbuf lam N h) = N) by apply mk_length.
  rewrite warp_loop by lia. rewrite L. destruct (Nat.eqb_spec (length b) 0); [lia|]. f_equal. f_equal.
  - replace (min (length b) (S (N - 1))) with (length b) by lia.
    rewrite (sum_ext _ _ (fun k => get b k *! get (chain lam k (h ++ [v])) (length h))). ring.
    intros k Hk. rewrite ychain_chain by lia. reflexivity.
  - rewrite upd_mk by lia. transitivity (mk N (fun k => get (chain lam k (h ++ [v])) (length h))).
    2:{ unfold wbuf. rewrite app_length. cbn [length]. now replace (length h + 1 - 1) with (length h) by lia. }
    apply mk_ext. intros k Hk. destruct (Nat.eqb_spec k (N - 1)) as [->|Hne].
    + now rewrite ychain_chain by lia.
    + destruct (Nat.ltb_spec k (N - 1)); [|lia]. now rewrite ychain_chain by lia.
Qed.
Lemma rmul_0_l (x : A) : r0 *! x = r0. Proof. ring. Qed.
Lemma rmul_0_r (x : A) : x *! r0 = r0. Proof. ring. Qed.
Lemma ref_run_single {O} okn (F : list A -> O) h x n : n < length x ->
  nth n (run (ref_step okn F) [h] (map (fun v => Proc v 0%Z) x)) Done = Val (F (h ++ firstn (S n) x)).
Proof.
  revert h n. induction x as [|v x IH]; intros h n Hn; simpl in Hn; [lia|]. cbn [map run]. 
  change (ref_step okn F [h] (Proc v 0%Z)) with ([h ++ [v]], Val (F (h ++ [v]))). cbv beta iota. destruct n.
  - reflexivity.
  - cbn [nth]. rewrite IH by lia. cbn [firstn]. now rewrite <- app_assoc.
Qed.
Lemma chain_nil lam k : chain lam k [] = [].
Proof. induction k; simpl; auto. now rewrite IHk. Qed.
Lemma wbuf_nil lam N : wbuf lam N [] = repeat r0 N.
Proof.
  apply (list_eq_nth r0). unfold wbuf. now rewrite mk_length, repeat_length. unfold wbuf. rewrite mk_length. intros i Hi.
  rewrite nth_mk by auto. rewrite chain_nil, nth_repeat_lt by auto. reflexivity.
Qed.
Lemma map_zero_mk N (f : nat -> A) : map (fun _ => r0) (mk N f) = repeat r0 N.
Proof.
  rewrite map_mk. apply (list_eq_nth r0). now rewrite mk_length, repeat_length. rewrite mk_length. intros i Hi.
  now rewrite nth_mk, nth_repeat_lt by auto.
Qed.
Lemma process_vector_ok {S} (p : S -> A -> result (A * S)) (F : list A -> A) (Inv : S -> list A -> Prop) :
  (forall s h x, Inv s h -> exists s', p s x = Ok (F (h ++ [x]), s') /\ Inv s' (h ++ [x])) ->
  forall x s h, Inv s h -> process_vector p s x = Ok (mk (length x) (fun n => F (h ++ firstn (n + 1) x))).
Proof.
  intros Hp. induction x as [|v x IH]; intros s h HI; auto. cbn [process_vector].
  destruct (Hp s h v HI) as [s' [E HI']]. rewrite E. cbn [bind fst snd]. rewrite (IH s' _ HI'). cbn [bind length]. rewrite mk_S_front.
  f_equal. f_equal. apply mk_ext. intros i Hi. cbn [plus firstn]. now rewrite <- app_assoc.
Qed.
Lemma all_ok_map {T U} (f : T -> result U) g l : (forall x, In x l -> f x = Ok (g x)) -> all_ok (map f l) = Ok (map g l).
Proof.
  induction l; intros H; simpl; auto. rewrite H by (now left). simpl. rewrite IHl by (intros; apply H; now right). reflexivity.
Qed.

Definition wfir_F (lam : A) (b : list A) (h : list A) : A := sum (length b) (fun k => get b k *! get (chain lam k h) (length h - 1)).
Lemma wfir_step lam b s h x : b <> [] -> s = wbuf lam (length b) h ->
  exists s', rt_proc (warp_fir lam b) s x = Ok (wfir_F lam b (h ++ [x]), s') /\ s' = wbuf lam (length b) (h ++ [x]).
Proof.
  intros Hb ->. cbn [rt_proc warp_fir]. rewrite warp_proc_ok by (destruct b; simpl; try lia; congruence).
  eexists. split; [|reflexivity]. unfold wfir_F. rewrite app_length. cbn [length]. now replace (length h + 1 - 1) with (length h) by lia.
Qed.
Lemma firstn_split_chain lam k x n : n < length x -> get (chain lam k (firstn (S n) x)) n = get (chain lam k x) n.
Proof. intros. rewrite <- (firstn_skipn (S n) x) at 2. symmetry. apply chain_prefix. rewrite firstn_length. lia. Qed.
Lemma wfir_outputs lam b x : outputs (wfir_F lam b) x = mk (length x) (fun n => sum (length b) (fun k => get b k *! get (chain lam k x) n)).
Proof.
  unfold outputs. apply mk_ext. intros n Hn. unfold wfir_F. apply sum_ext. intros k Hk. f_equal.
  rewrite firstn_length. replace (min (S n) (length x) - 1) with n by lia. now apply firstn_split_chain.
Qed.
Lemma apv_0 u n : n < length u -> apv r0 u n = match n with O => r0 | S m => get u m end.
Proof. destruct n; cbn [apv]; intros; ring. Qed.
Lemma chain_0 k x n : n < length x -> get (chain r0 k x) n = if k <=? n then get x (n - k) else r0.
Proof.
  revert n. induction k; intros n Hn; cbn [chain]. simpl. now rewrite Nat.sub_0_r.
  unfold ap. rewrite get_mk by (now rewrite chain_length). rewrite apv_0 by (now rewrite chain_length). destruct n; auto.
  rewrite IHk by lia. reflexivity.
Qed.
End Chain.

Section IIRWarp.
Context {A : Type} {HF : CField A}.
Add Ring Aring_wi : (rth (A := A)).
Lemma rmul_comm' (x y : A) : x *! y = y *! x. Proof. ring. Qed.

(** S_j = a_j - lam S_{j+1}, S_{N-1} = a_{N-1}; here by the distance d = N - 1 - j from the end. *)
Fixpoint Sd (lam : A) (a : list A) (d : nat) : A :=
  match d with O => get a (length a - 1) | S e => get a (length a - 1 - d) -! lam *! Sd lam a e end.
Definition Sj lam a j := Sd lam a (length a - 1 - j).
Lemma Sj_last lam a : Sj lam a (length a - 1) = get a (length a - 1).
Proof. unfold Sj. now rewrite Nat.sub_diag. Qed.
Lemma Sj_step lam a j : j + 1 < length a -> Sj lam a j = get a j -! lam *! Sj lam a (j + 1).
Proof.
  intros H. unfold Sj. replace (length a - 1 - j) with (S (length a - 1 - (j + 1))) by lia. cbn [Sd].
  replace (length a - 1 - S (length a - 1 - (j + 1))) with j by lia. reflexivity.
Qed.

Lemma sigma_loop lam a m : 2 <= length a -> m <= length a - 2 ->
  let N := length a in
  fold_left (sigma_step lam a) (rev (seq (N - m) m)) (upd (repeat r0 (N + 1)) N (lam *! get a (N - 1)), get a (N - 1))
  = (mk (N + 1) (fun i => if i =? N then lam *! Sj lam a (N - 1) else if N - m <=? i then lam *! Sj lam a (i - 1) +! Sj lam a i else r0), Sj lam a (N - 1 - m)).
Proof.
  intros HN. cbv zeta. set (N := length a) in *. induction m; intros Hm.
  - cbn [seq rev fold_left]. f_equal.
    + apply (list_eq_nth r0). now rewrite upd_length, mk_length, repeat_length. rewrite upd_length, repeat_length. intros i Hi.
      rewrite nth_mk by auto. rewrite nth_upd by (rewrite repeat_length; lia). unfold N at 2. rewrite Sj_last. fold N.
      destruct (Nat.eqb_spec i N); auto. rewrite nth_repeat_any. destruct (Nat.leb_spec (N - 0) i); auto; lia.
    + rewrite Nat.sub_0_r. unfold N. now rewrite Sj_last.
  - assert (E : rev (seq (N - S m) (S m)) = rev (seq (N - m) m) ++ [N - S m]).
    { cbn [seq rev]. now replace (S (N - S m)) with (N - m) by lia. }
    rewrite E, fold_left_app, IHm by lia. cbn [fold_left sigma_step].
    assert (E2 : Sj lam a (N - 1 - S m) = get a (N - S m - 1) -! lam *! Sj lam a (N - 1 - m)).
    { rewrite Sj_step by (fold N; lia). replace (N - 1 - S m) with (N - S m - 1) by lia. now replace (N - S m - 1 + 1) with (N - 1 - m) by lia. }
    rewrite <- E2. f_equal. rewrite upd_mk by lia. apply mk_ext. intros i Hi.
    destruct (Nat.eqb_spec i (N - S m)) as [->|Hne].
    + destruct (Nat.eqb_spec (N - S m) N); [lia|]. destruct (Nat.leb_spec (N - S m) (N - S m)); [|lia].
      replace (N - 1 - S m) with (N - S m - 1) by lia. now replace (N - 1 - m) with (N - S m) by lia.
    + destruct (Nat.eqb_spec i N); auto. destruct (Nat.leb_spec (N - m) i), (Nat.leb_spec (N - S m) i); auto; lia.
Qed.
Lemma sigmas_ok lam a : 2 <= length a ->
  compute_sigmas lam a = rinv (r1 -! lam *! Sj lam a 1) ::
    mk (length a) (fun k => -! (if k =? 0 then Sj lam a 1 else if k =? length a - 1 then lam *! Sj lam a k else lam *! Sj lam a k +! Sj lam a (k + 1))).
Proof.
  intros HN. unfold compute_sigmas. pose proof (sigma_loop lam a (length a - 2) HN ltac:(lia)) as H. cbv zeta in H.
  replace (length a - (length a - 2)) with 2 in H by lia. rewrite H. clear H.
  replace (length a - 1 - (length a - 2)) with 1 by lia.
  set (N := length a) in *. rewrite upd_mk by lia. rewrite upd_mk by lia. replace (N + 1) with (S N) by lia. rewrite mk_S_front.
  cbn [tl]. change (get (?a :: _) 0) with a. change (0 =? 0) with true. cbv iota. f_equal. rewrite map_mk. apply mk_ext. intros k Hk. f_equal.
  destruct (Nat.eqb_spec (S k) 0); [lia|]. destruct (Nat.eqb_spec k 0) as [->|Hk0]. { reflexivity. }
  destruct (Nat.eqb_spec (S k) 1); [lia|]. destruct (Nat.eqb_spec (S k) N), (Nat.eqb_spec k (N - 1)); try lia.
  - now replace (N - 1) with k by lia.
  - destruct (Nat.leb_spec 2 (S k)); [|lia]. replace (S k - 1) with k by lia. now rewrite Nat.add_1_r.
Qed.

(** sum_{k>=j} a_k y_k for y along the chain. *)
Lemma chain_sum lam a buf v d : d + 1 < length a ->
  let N := length a in let j := N - 1 - d in
  sum (S d) (fun i => get a (j + i) *! ychain lam buf v (j + i))
  = Sj lam a j *! ychain lam buf v j +! sum d (fun i => Sj lam a (j + i + 1) *! (lam *! get buf (j + i + 1) +! get buf (j + i))).
Proof.
  cbv zeta. induction d; intros Hd.
  - cbn [sum]. rewrite Nat.sub_0_r, Nat.add_0_r, Sj_last. ring.
  - set (N := length a) in *. set (j := N - 1 - S d) in *. rewrite sum_S_front.
    rewrite (sum_ext (S d) _ (fun i => get a (N - 1 - d + i) *! ychain lam buf v (N - 1 - d + i)))
      by (intros; now replace (j + S i) with (N - 1 - d + i) by (unfold j; lia)).
    rewrite IHd by lia. rewrite sum_S_front. rewrite Nat.add_0_r.
    rewrite (sum_ext d (fun i => Sj lam a (j + S i + 1) *! _) (fun i => Sj lam a (N - 1 - d + i + 1) *! (lam *! get buf (N - 1 - d + i + 1) +! get buf (N - 1 - d + i))))
      by (intros; now replace (j + S i) with (N - 1 - d + i) by (unfold j; lia)).
    rewrite (Sj_step lam a j) by (fold N; lia). replace (N - 1 - d) with (S j) by (unfold j; lia). rewrite !(Nat.add_1_r j). cbn [ychain]. rewrite (Nat.add_1_r j). ring.
Qed.
Lemma loop_sum lam a buf v : 2 <= length a ->
  sum (length a) (fun k => get a k *! ychain lam buf v k)
  = get a 0 *! v -! lam *! Sj lam a 1 *! v -! sum (length a) (fun k => (-! (if k =? 0 then Sj lam a 1 else if k =? length a - 1 then lam *! Sj lam a k else lam *! Sj lam a k +! Sj lam a (k + 1))) *! get buf k).
Proof.
  intros HN. pose proof (chain_sum lam a buf v (length a - 2) ltac:(lia)) as H. cbv zeta in H.
  replace (length a - 1 - (length a - 2)) with 1 in H by lia. replace (S (length a - 2)) with (length a - 1) in H by lia.
  destruct (length a) as [|[|n]] eqn:E; try lia. replace (S (S n) - 2) with n in H by lia. replace (S (S n) - 1) with (S n) in * by lia.
  rewrite sum_S_front. change (ychain lam buf v 0) with v. change (fun i => get a (S i) *! ychain lam buf v (S i)) with (fun i => get a (1 + i) *! ychain lam buf v (1 + i)).
  rewrite H. cbn [ychain]. change (0 + 1) with 1.
  (* the sigma sum *)
  rewrite sum_S_front. cbn [Nat.eqb]. cbn [sum]. rewrite Nat.eqb_refl.
  assert (X : forall m, m <= n ->
     sum m (fun i => (-! (if i =? n then lam *! Sj lam a (S i) else lam *! Sj lam a (S i) +! Sj lam a (S i + 1))) *! get buf (S i)) 
     = -! sum m (fun i => Sj lam a (1 + i + 1) *! (lam *! get buf (1 + i + 1) +! get buf (1 + i))) -! (lam *! Sj lam a 1 *! get buf 1) +! lam *! Sj lam a (S m) *! get buf (S m)).
  { induction m; intros Hm. cbn [sum]. ring. cbn [sum]. rewrite IHm by lia. destruct (Nat.eqb_spec m n); [lia|].
    change (1 + m) with (S m). rewrite (Nat.add_1_r (S m)). ring. }
  rewrite X by lia. ring.
Qed.
Lemma Sj_horner lam a : 2 <= length a -> get a 0 -! lam *! Sj lam a 1 = sum (length a) (fun k => get a k *! rpow (-! lam) k).
Proof.
  intros HN.
  assert (X : forall d, d + 1 < length a -> Sj lam a (length a - 1 - d) *! rpow (-! lam) (length a - 1 - d) = sum (S d) (fun i => get a (length a - 1 - d + i) *! rpow (-! lam) (length a - 1 - d + i))).
  { induction d; intros Hd. cbn [sum]. rewrite Nat.sub_0_r, Nat.add_0_r, Sj_last. ring.
    rewrite sum_S_front. set (j := length a - 1 - S d) in *. rewrite Nat.add_0_r.
    rewrite (sum_ext (S d) _ (fun i => get a (length a - 1 - d + i) *! rpow (-! lam) (length a - 1 - d + i)))
      by (intros; now replace (j + S i) with (length a - 1 - d + i) by (unfold j; lia)).
    rewrite <- IHd by lia. rewrite (Sj_step lam a j) by lia. replace (length a - 1 - d) with (j + 1) by (unfold j; lia).
    rewrite (Nat.add_1_r j). cbn [rpow]. ring. }
  specialize (X (length a - 2) ltac:(lia)). replace (length a - 1 - (length a - 2)) with 1 in X by lia.
  replace (S (length a - 2)) with (length a - 1) in X by lia.
  destruct (length a) as [|n] eqn:E; [lia|]. rewrite sum_S_front. cbn [rpow]. replace (S n - 1) with n in X by lia.
  rewrite (sum_ext n _ (fun i => get a (1 + i) *! rpow (-! lam) (1 + i))) by reflexivity. rewrite <- X. cbn [rpow]. ring.
Qed.

Lemma chain_scale lam k c (x : list A) : chain lam k (map (fun v => v *! c) x) = map (fun v => v *! c) (chain lam k x).
Proof.
  induction k; simpl; auto. rewrite IHk. unfold ap. rewrite map_length, map_mk. apply mk_ext. intros i Hi.
  assert (G : forall (l : list A) j, get (map (fun v => v *! c) l) j = get l j *! c).
  { induction l; intros j; destruct j; simpl; unfold get in *; simpl; try ring; auto. }
  clear Hi. induction i; cbn [apv]; rewrite ?G; [ring|]. rewrite IHi. ring.
Qed.
Lemma get_map_r (c : A) l j : get (map (fun v => v *! c) l) j = get l j *! c.
Proof. revert j. induction l; intros j; destruct j; unfold get in *; simpl; try ring; auto. Qed.

Lemma loop_unique (lam : A) (a : list A) :
  sum (length a) (fun k => get a k *! rpow (-! lam) k) <> r0 ->
  forall w w', length w = length w' ->
  (forall n, n < length w -> sum (length a) (fun k => get a k *! get (chain lam k w) n) = sum (length a) (fun k => get a k *! get (chain lam k w') n)) ->
  w = w'.
Proof.
  intros Ha w w' L H.
  assert (P : forall n, n <= length w -> forall m k, m < n -> get (chain lam k w) m = get (chain lam k w') m).
  { induction n; intros Hn m k Hm. lia. specialize (IHn ltac:(lia)). destruct (Nat.eq_dec m n) as [->|Hne]; [|apply IHn; lia].
    assert (D : forall k, get (chain lam k w) n -! get (chain lam k w') n = rpow (-! lam) k *! (get w n -! get w' n)).
    { clear k. induction k. cbn [chain rpow]. ring. cbn [chain rpow]. unfold ap. rewrite !get_mk by (rewrite chain_length; lia).
      transitivity (-! lam *! (get (chain lam k w) n -! get (chain lam k w') n)); [|rewrite IHk; ring].
      destruct n; cbn [apv]. ring.
      assert (X : apv lam (chain lam k w) n = apv lam (chain lam k w') n) by (apply apv_ext; intros; apply IHn; lia).
      rewrite X, (IHn n k) by lia. ring. }
    assert (Z : get w n -! get w' n = r0).
    { apply (rmul_integral (HF := HF) (sum (length a) (fun k => get a k *! rpow (-! lam) k))); auto. rewrite <- sum_scal_r.
      rewrite (sum_ext _ _ (fun k => get a k *! get (chain lam k w) n -! get a k *! get (chain lam k w') n)).
      - rewrite sum_sub, H by lia. ring.
      - intros i Hi. transitivity (get a i *! (rpow (-! lam) i *! (get w n -! get w' n))). ring. rewrite <- D. ring. }
    specialize (D k). rewrite Z in D. transitivity (get (chain lam k w') n +! (get (chain lam k w) n -! get (chain lam k w') n)). ring. rewrite D. ring. }
  apply get_ext; auto. intros i Hi. apply (P (length w) (le_n _) i 0 Hi).
Qed.

Section Fixed.
Variables (lam : A) (b a : list A).
Let N := max (length a) (length b).
Let bn := map (fun c => c /! get a 0) b.
Let an := map (fun c => c /! get a 0) a.
Let sg := compute_sigmas lam an.
Definition wsolve (s : list A) (x : A) : A := (x +! dot (tl sg) (firstn (length sg - 1) s)) *! get sg 0.
Definition vhist (h : list A) : list A := fold_left (fun v x => v ++ [wsolve (wbuf lam N v) x]) h [].
Lemma vhist_snoc h x : vhist (h ++ [x]) = vhist h ++ [wsolve (wbuf lam N (vhist h)) x].
Proof. unfold vhist. now rewrite fold_left_app. Qed.
Lemma vhist_length h : length (vhist h) = length h.
Proof. induction h using rev_ind; auto. rewrite vhist_snoc, !app_length, IHh. reflexivity. Qed.
Lemma vhist_app h g : exists t, vhist (h ++ g) = vhist h ++ t.
Proof.
  induction g using rev_ind. exists []. now rewrite !app_nil_r. destruct IHg as [t E].
  rewrite app_assoc, vhist_snoc, E. eexists. rewrite <- app_assoc. reflexivity.
Qed.
Lemma an_get k : get an k = get a k *! rinv (get a 0).
Proof. unfold an, rdiv. apply get_map_r. Qed.
Lemma bn_get k : get bn k = get b k *! rinv (get a 0).
Proof. unfold bn, rdiv. apply get_map_r. Qed.

Definition wiir_F (h : list A) : A := sum (length b) (fun k => get bn k *! get (chain lam k (vhist h)) (length h - 1)).
Lemma wiir_step s h x : b <> [] -> s = wbuf lam N (vhist h) ->
  exists s', rt_proc (warp_iir lam b a) s x = Ok (wiir_F (h ++ [x]), s') /\ s' = wbuf lam N (vhist (h ++ [x])).
Proof.
  intros Hb ->. cbn [rt_proc warp_iir]. fold N bn an sg. fold (wsolve (wbuf lam N (vhist h)) x).
  assert (Lb : length bn = length b) by (unfold bn; apply map_length).
  assert (0 < length b) by (destruct b; simpl; [congruence|lia]).
  rewrite warp_proc_ok by (unfold N; lia). rewrite <- vhist_snoc, vhist_length, Lb. eexists. split; [|reflexivity].
  unfold wiir_F. rewrite app_length. cbn [length]. now replace (length h + 1 - 1) with (length h) by lia.
Qed.

Hypothesis Ha : 2 <= length a.
Hypothesis Ha0 : get a 0 <> r0.
Hypothesis Hloop : sum (length a) (fun k => get a k *! rpow (-! lam) k) <> r0.
Lemma wsolve_ok h x : sum (length a) (fun k => get an k *! get (chain lam k (vhist (h ++ [x]))) (length h)) = x.
Proof.
  assert (Lan : length an = length a) by (unfold an; apply map_length).
  rewrite (sum_ext _ _ (fun k => get an k *! ychain lam (wbuf lam N (vhist h)) (wsolve (wbuf lam N (vhist h)) x) k)).
  2:{ intros k Hk. rewrite vhist_snoc. rewrite (ychain_chain lam N) by (unfold N; lia). now rewrite vhist_length. }
  set (s := wbuf lam N (vhist h)). set (v := wsolve s x). rewrite <- Lan at 1. rewrite loop_sum by lia.
  assert (E0 : get an 0 = r1) by (rewrite an_get, rmul_comm'; now apply rinv_l).
  assert (NZ : r1 -! lam *! Sj lam an 1 <> r0).
  { rewrite <- E0. rewrite Sj_horner by lia. rewrite Lan. intros Z. apply Hloop.
    rewrite (sum_ext _ _ (fun k => get a k *! rpow (-! lam) k *! rinv (get a 0))) in Z by (intros; rewrite an_get; ring).
    rewrite sum_scal_r in Z. 
    transitivity (sum (length a) (fun k => get a k *! rpow (-! lam) k) *! rinv (get a 0) *! get a 0).
    - transitivity (sum (length a) (fun k => get a k *! rpow (-! lam) k) *! (rinv (get a 0) *! get a 0)). rewrite rinv_l by auto. ring. ring.
    - rewrite Z. ring. }
  assert (EV : v *! (r1 -! lam *! Sj lam an 1) = x +! sum (length an) (fun k => (-! (if k =? 0 then Sj lam an 1 else if k =? length an - 1 then lam *! Sj lam an k else lam *! Sj lam an k +! Sj lam an (k + 1))) *! get s k)).
  { unfold v, wsolve. unfold sg. rewrite sigmas_ok by lia. cbn [tl length]. change (get (?a :: _) 0) with a. rewrite mk_length.
    unfold dot. rewrite mk_length. replace (S (length an) - 1) with (length an) by lia.
    match goal with |- (x +! ?p) *! _ *! _ = x +! ?q => replace p with q end.
    - match goal with |- ?p *! rinv ?u *! ?u = _ => transitivity (p *! (rinv u *! u)); [ring|rewrite rinv_l by auto; ring] end.
    - apply sum_ext. intros k Hk. rewrite get_mk by auto. f_equal. unfold get. now rewrite nth_firstn by auto. }
  rewrite E0.
  transitivity (v *! (r1 -! lam *! Sj lam an 1) -! sum (length an) (fun k => (-! (if k =? 0 then Sj lam an 1 else if k =? length an - 1 then lam *! Sj lam an k else lam *! Sj lam an k +! Sj lam an (k + 1))) *! get s k)).
  ring. rewrite EV. ring.
Qed.
Definition wint (x : list A) : list A := map (fun v => v *! rinv (get a 0)) (vhist x).
Lemma vhist_prefix k x n : n < length x -> get (chain lam k (vhist (firstn (S n) x))) n = get (chain lam k (vhist x)) n.
Proof.
  intros Hn. destruct (vhist_app (firstn (S n) x) (skipn (S n) x)) as [t E]. rewrite firstn_skipn in E. rewrite E.
  symmetry. apply chain_prefix. rewrite vhist_length, firstn_length. lia.
Qed.
Lemma wint_loop x n : n < length x -> sum (length a) (fun k => get a k *! get (chain lam k (wint x)) n) = get x n.
Proof.
  intros Hn. unfold wint. 
  rewrite (sum_ext _ _ (fun k => get an k *! get (chain lam k (vhist (firstn (S n) x))) n)).
  2:{ intros k Hk. rewrite chain_scale, get_map_r, an_get, vhist_prefix by auto. ring. }
  rewrite (firstn_S_nth x n r0) by auto.
  pose proof (wsolve_ok (firstn n x) (nth n x r0)) as H. rewrite firstn_length in H. replace (min n (length x)) with n in H by lia. exact H.
Qed.
Lemma wint_out x n : n < length x -> wiir_F (firstn (S n) x) = sum (length b) (fun k => get b k *! get (chain lam k (wint x)) n).
Proof.
  intros Hn. unfold wiir_F, wint. rewrite firstn_length. replace (min (S n) (length x) - 1) with n by lia.
  apply sum_ext. intros k Hk. rewrite chain_scale, get_map_r, bn_get, vhist_prefix by auto. ring.
Qed.
End Fixed.
End IIRWarp.
