(** Properties C07-C09: block convolution with FFTs equals direct convolution. *)
From Coq Require Import List Arith Lia ZArith Reals Lra Bool.
From Verif Require Import Alg Spec Dft Spec_block M_arrays M_signal M_block P_signal P_block.
Import ListNotations.
Local Open Scope nat_scope.

Ltac blk := repeat match goal with |- cons _ _ = cons _ _ => apply f_equal2 | |- BVal _ = BVal _ => apply f_equal end; try reflexivity.

(** ** C07 *)
(** Any sequence of prepare / process_block / reset_state calls whose block sizes are positive and whose FFT length is even:
    every call answers as the reference, which keeps the samples of each channel and returns their convolution. *)
Theorem C07_overlap_save :
  forall (fir : list R) (ops : list blk_op), fir <> [] ->
  (forall bs nch, In (Prepare bs nch) ops -> 0 < bs /\ forall L, fast_length (length fir + bs) L -> Nat.even L = true) ->
  run (os_step fir) None ops = run (blk_ref fir) None ops.
Proof.
  intros fir ops Hfir H.
  assert (G : forall ops s r, os_rel fir s r ->
    (forall bs nch, In (Prepare bs nch) ops -> 0 < bs /\ forall L, fast_length (length fir + bs) L -> Nat.even L = true) ->
    run (os_step fir) s ops = run (blk_ref fir) r ops).
  { clear. induction ops as [|o ops IH]; intros s r HR H; auto. cbn [run].
    destruct (os_step_ok fir s r o HR) as [A B].
    { destruct o; auto. destruct (H bs nch (or_introl eq_refl)) as [A B]. split; auto. apply B. apply next_fast_len_spec. lia. }
    destruct (os_step fir s o), (blk_ref fir r o). cbn [fst snd] in *. subst. f_equal. apply IH; auto.
    intros. apply (H _ nch). now right. }
  now apply G.
Qed.
Print Assumptions C07_overlap_save.

(** With an odd FFT length (here 3) the inverse transform has one point less and the block is wrong. *)
Theorem C07_odd_length_refuted :
  forall b0 b1, fast_length (1 + 2) 3 /\
  run (os_step [1%R]) None [Prepare 2 1; Block [b0; b1] 0] = [BDone; BVal [(b0 + b1) / 4; 3 * (b0 + b1) / 4]%R] /\
  run (blk_ref [1%R]) None [Prepare 2 1; Block [b0; b1] 0] = [BDone; BVal [b0; b1]].
Proof.
  intros b0 b1. split. { apply (next_fast_len_spec 3). lia. }
  assert (E : next_fast_len (length [1%R] + 2) = 3) by reflexivity.
  assert (C1 : forall k, root 3 (Z.of_nat 0 * k) = rc 1) by (intros; apply root_0).
  assert (R1 : root 3 (-1) = (- (1 / 2), - (sqrt 3 / 2))%R).
  { unfold root, cis. replace (2 * PI * -1 / INR 3)%R with (- (2 * (PI / 3)))%R by (simpl; field). rewrite cos_neg, sin_neg, cos_2PI3, sin_2PI3. f_equal; field. }
  assert (R2 : root 3 (-2) = (- (1 / 2), sqrt 3 / 2)%R).
  { replace (-2)%Z with (-1 + -1)%Z by reflexivity. rewrite root_add, R1. unfold cmul. simpl.
    assert (sqrt 3 * sqrt 3 = 3)%R by (apply sqrt_sqrt; lra). f_equal; nra. }
  assert (Q0 : root 2 0 = rc 1) by apply root_0.
  assert (Q1 : root 2 1 = (-1, 0)%R).
  { unfold root, cis. replace (2 * PI * 1 / INR 2)%R with PI by (simpl; field). now rewrite cos_PI, sin_PI. }
  split.
  - cbn [run os_step]. unfold os_prepare. rewrite E. cbn [repeat os_buf length].
    change (py_index 1 0) with (Some 0). cbn iota beta. cbn [os_bs].
    change (fit 2 [b0; b1]) with (Some [b0; b1]). cbn iota beta.
    unfold os_block. cbn [os_L os_bs os_spec nth]. change (3 - 2) with 1. cbn [firstn app].
    unfold rfft. change (3 / 2 + 1) with 2. unfold mk. cbn [seq map].
    assert (D : forall x y z, dft 3 [x; y; z] 0 = rc (x + y + z) /\ dft 3 [x; y; z] 1 = ((x - (y + z) / 2)%R, (sqrt 3 / 2 * (z - y))%R)).
    { intros x y z. unfold dft. cbn [sum]. rewrite !Z.mul_0_r. change (- 0)%Z with 0%Z. change (Z.of_nat 0) with 0%Z. change (Z.of_nat 1) with 1%Z. change (Z.of_nat 2) with 2%Z.
      change (- (0 * 1))%Z with 0%Z. change (- (1 * 1))%Z with (-1)%Z. change (- (2 * 1))%Z with (-2)%Z. rewrite !root_0, R1, R2. unfold get. cbn [nth].
      split; apply c_ext; simpl; field. }
    assert (D1 : dft 3 [1%R] 0 = rc 1 /\ dft 3 [1%R] 1 = rc 1).
    { unfold dft. cbn [sum]. rewrite !Z.mul_0_r. change (- 0)%Z with 0%Z. change (Z.of_nat 0) with 0%Z. change (Z.of_nat 1) with 1%Z. change (Z.of_nat 2) with 2%Z.
      change (- (0 * 1))%Z with 0%Z. rewrite !root_0. unfold get. cbn [nth]. split; apply c_ext; simpl; ring. }
    destruct (D 0%R b0 b1) as [-> ->]. destruct D1 as [-> ->].
    unfold cmul_list. cbn [length]. unfold mk. cbn [seq map nth].
    unfold irfft, irfft_n. cbn [length]. change (2 * (2 - 1)) with 2. unfold mk. cbn [seq map]. unfold last_n. cbn [length Nat.sub skipn].
    unfold herm. change (2 / 2) with 1. cbn [sum Nat.leb nth].
    change (Z.of_nat 0) with 0%Z. change (Z.of_nat 1) with 1%Z. change (0 * 0)%Z with 0%Z. change (1 * 0)%Z with 0%Z. change (0 * 1)%Z with 0%Z. change (1 * 1)%Z with 1%Z.
    rewrite !Q0, Q1.
    match goal with |- [BDone; BVal [?a; ?b]] = [BDone; BVal [?c; ?d]] => replace a with c; [replace b with d; [reflexivity|]|] end; simpl; field.
  - cbn. repeat f_equal; unfold get; simpl; ring.
Qed.
Print Assumptions C07_odd_length_refuted.

Lemma fast_6 : fast_length 6 6. Proof. apply (next_fast_len_spec 6). lia. Qed.
Lemma fast_unique t a b : fast_length t a -> fast_length t b -> a = b.
Proof.
  intros (A1 & A2 & A3) (B1 & B2 & B3). destruct (Nat.lt_trichotomy a b) as [H|[H|H]]; auto; exfalso.
  now apply (B3 a). now apply (A3 b).
Qed.
Example C07_example :
  let ops := [Prepare 4 2; Block [1;0;0;0] 0; Block [1;1;1;1] (-1); Block [0;0;0;0] 0; BReset; Block [1;2;3;4] 0; Block [5]  1; Block [1;2] 1; Block [1;2] 2]%R in
  (forall bs nch, In (Prepare bs nch) ops -> 0 < bs /\ forall L, fast_length (length [2;3]%R + bs) L -> Nat.even L = true) /\
  run (os_step [2;3]%R) None ops
  = [BDone; BVal [2;3;0;0]; BVal [2;5;5;5]; BVal [0;0;0;0]; BDone; BVal [2;7;12;17]; BVal [10;25;25;25]; BRaise ValueError; BRaise IndexError]%R.
Proof.
  intros ops.
  assert (P : forall bs nch, In (Prepare bs nch) ops -> 0 < bs /\ forall L, fast_length (length [2;3]%R + bs) L -> Nat.even L = true).
  { intros bs nch [E|H]; [|repeat (destruct H as [E|H]; [discriminate|]); destruct H]. injection E as <- <-. split. lia.
    intros L HL. rewrite (fast_unique _ _ _ HL fast_6). reflexivity. }
  split; auto. rewrite C07_overlap_save by (auto; discriminate). cbv -[Rplus Rmult IZR]. blk; ring.
Qed.

(** ** C08 *)
Lemma up_run_ok fir : forall ops s r m, up_rel fir s r m -> in_turn (length fir) m ops -> run (up_step fir) s ops = run (blk_ref fir) r ops.
Proof.
  induction ops as [|o ops IH]; intros s r m HR HT; auto. cbn [run].
  destruct o as [bs nch| |x ch]; cbn [in_turn] in HT.
  - destruct HT as [Hb HT]. cbn [up_step blk_ref]. f_equal. apply (IH _ _ _) with (2 := HT).
    unfold up_prepare. cbn. repeat split; rewrite ?repeat_length; auto. now rewrite Nat.mod_0_l by lia.
    intros c Hc. exists 0. rewrite !nth_repeat_lt by auto. split. lia. split. apply up_chan_init. lia.
    split. apply Forall_forall. intros v Hv. apply repeat_spec in Hv. subst. apply repeat_length. reflexivity.
  - destruct s as [t|], r as [[bs h]|], m as [[[bs' n] last]|]; try contradiction; cbn [up_step blk_ref]; f_equal.
    + apply (IH _ _ _) with (2 := HT). cbn [option_map fst snd].
      destruct HR as (H1 & H2 & H3 & H4 & H5 & H6 & H7 & H8 & H9 & H10). cbn. rewrite !map_length. repeat split; auto.
      intros c Hc. destruct (H10 c Hc) as (il & A & B & C & D). exists il. split; auto.
      rewrite (nth_map' _ (up_spec t) c []) by lia. rewrite (nth_map' _ (up_in t) c []) by lia. rewrite (nth_map' _ h c []) by lia. rewrite (nth_map' _ last c None) by lia.
      destruct B as (B1 & B2 & B3 & B4).
      assert (E : map (fun v => czero (length v)) (nth c (up_spec t) []) = repeat (czero (bs + 1)) (up_np t)).
      { rewrite <- B3. apply repeat_map_eq. intros v Hv. rewrite Forall_forall in C. now rewrite C. }
      rewrite E, B1. split. apply up_chan_init. lia. split; auto.
      apply Forall_forall. intros v Hv. apply repeat_spec in Hv. subst. apply repeat_length.
    + apply (IH _ _ None); cbn; auto.
  - destruct s as [t|], r as [[bs h]|], m as [[[bs' n] last]|]; try contradiction; cbn [up_step blk_ref].
    2:{ f_equal. apply (IH _ _ None); cbn; auto. }
    pose proof HR as (H1 & H2 & H3 & H4 & H5 & H6 & H7 & H8 & H9 & H10). subst bs'. rewrite H8. rewrite H9 in HT.
    destruct (py_index (length h) ch) as [c|] eqn:Ec. 2:{ f_equal. now apply (IH _ _ _ HR). }
    apply py_index_lt in Ec. rewrite H2. destruct (H10 c Ec) as (il & A & B & C & D). destruct (fit bs x) as [b|] eqn:Ef.
    2:{ f_equal. apply (IH _ _ _) with (2 := HT). cbn. rewrite upd_length. repeat split; auto. intros c' Hc'.
        destruct (Nat.eq_dec c c') as [<-|Hne]; [|rewrite nth_upd_neq by auto; auto]. rewrite nth_upd_eq by lia.
        exists il. repeat split; auto; destruct B as (B1 & B2 & B3 & B4); auto.
        - rewrite app_length, !last_n_length; lia.
        - intros i Hi. rewrite (get_app_r (HA := CRing_R)) by (rewrite last_n_length; lia). rewrite last_n_length by lia. unfold last_n, get at 1. rewrite nth_skipn.
          rewrite <- B2 by lia. unfold get. f_equal. lia. }
    destruct HT as (Hl & HT). apply fit_length in Ef.
    assert (Hnp : 0 < up_np t) by lia.
    assert (Hind : up_ind t < up_np t) by (rewrite H6; apply Nat.mod_upper_bound; lia).
    assert (X : exists il', il' < up_np t /\ up_ind t = (il' + 1) mod up_np t /\ up_chan (up_np t) bs il' (nth c (up_spec t) []) (nth c (up_in t) []) (nth c h [])).
    { destruct (nth c last None) as [l|].
      - destruct D as [D1 D2]. exists il. split; auto. split; auto. rewrite H6, D1, Nat.add_mod_idemp_l by lia. rewrite <- H4 in Hl.
        replace n with (l + (n - l)) by lia. rewrite <- Nat.add_mod_idemp_r, Hl, Nat.add_mod_idemp_r by lia. reflexivity.
      - rewrite D in *. exists ((up_ind t + (up_np t - 1)) mod up_np t). split. apply Nat.mod_upper_bound; lia. split.
        + rewrite Nat.add_mod_idemp_l by lia. replace (up_ind t + (up_np t - 1) + 1) with (up_ind t + 1 * up_np t) by lia. rewrite Nat.mod_add, Nat.mod_small; lia.
        + now apply (up_chan_any (up_np t) bs il). }
    destruct X as (il' & X1 & X2 & X3).
    pose proof (up_block_ok fir (up_np t) bs (up_parts t) (up_ind t) il' (nth c (up_spec t) []) (nth c (up_in t) []) (nth c h []) b H3) as OK.
    assert (Hlen : length fir <= up_np t * bs) by (rewrite H4; now apply np_enough).
    specialize (OK Hlen Hnp Hind X2 X1 Ef). specialize (OK ltac:(intros p Hp; rewrite H5; now rewrite nth_mk by auto) X3).
    assert (SL : Forall (fun v => length v = bs + 1) (fst (fst (up_block (up_np t) bs (up_parts t) (up_ind t) (nth c (up_spec t) []) (nth c (up_in t) []) b)))).
    { unfold up_block. cbn [fst]. apply Forall_upd; auto. rewrite rfft_length. f_equal. rewrite Nat.mul_comm. apply Nat.div_mul. lia. }
    destruct (up_block (up_np t) bs (up_parts t) (up_ind t) (nth c (up_spec t) []) (nth c (up_in t) []) b) as [[sp ib] y].
    destruct OK as [OK1 ->]. cbn [fst] in SL. f_equal. apply (IH _ _ _) with (2 := HT). cbn. rewrite !upd_length. repeat split; auto.
    { rewrite H6, Nat.add_mod_idemp_l by lia. reflexivity. }
    intros c' Hc'. destruct (Nat.eq_dec c c') as [<-|Hne].
    + exists (up_ind t). rewrite !nth_upd_eq by lia. split; auto. split; auto. split; auto. split; auto. lia.
    + rewrite !nth_upd_neq by auto. destruct (H10 c' Hc') as (il2 & A2 & B2 & C2 & D2). exists il2. split; auto. split; auto. split; auto.
      destruct (nth c' last None); auto. destruct D2. split; auto. lia.
Qed.

(** Call sequences in which the channels take turns as [in_turn] says are answered as by the reference. *)
Theorem C08_partitioned_in_turn :
  forall (fir : list R) (ops : list blk_op), in_turn (length fir) None ops ->
  run (up_step fir) None ops = run (blk_ref fir) None ops.
Proof. intros. now apply (up_run_ok fir ops None None None). Qed.
Print Assumptions C08_partitioned_in_turn.

(** One channel: correct for every filter length and block size. *)
Theorem C08_one_channel :
  forall (fir : list R) (ops : list blk_op), (forall bs nch, In (Prepare bs nch) ops -> 0 < bs /\ nch = 1) ->
  run (up_step fir) None ops = run (blk_ref fir) None ops.
Proof.
  intros fir ops H1. apply C08_partitioned_in_turn.
  assert (G : forall ops s, (forall bs nch, In (Prepare bs nch) ops -> 0 < bs /\ nch = 1) ->
    match s with None => True | Some (bs, n, last) => exists l, last = [l] /\ match l with None => True | Some k => n = k + 1 end end ->
    in_turn (length fir) s ops).
  { clear. induction ops as [|o ops IH]; intros s H1 HS; cbn [in_turn]; auto.
    assert (H1' : forall bs nch, In (Prepare bs nch) ops -> 0 < bs /\ nch = 1) by (intros; apply (H1 bs); now right).
    destruct o as [bs nch| |x ch].
    - destruct (H1 bs nch (or_introl eq_refl)) as [A ->]. split; auto. apply IH; auto. exists None. auto.
    - apply IH; auto. destruct s as [[[bs n] last]|]; cbn; auto. destruct HS as [l [-> _]]. exists None. auto.
    - destruct s as [[[bs n] last]|]; [|now apply IH]. pose proof HS as [l [-> HL]].
      destruct (py_index (length [l]) ch) as [c|] eqn:Ec; [|now apply IH].
      destruct (fit bs x); [|now apply IH].
      apply py_index_lt in Ec. cbn [length] in Ec. assert (c = 0) by lia. subst c. cbn [nth upd]. split.
      + destruct l; auto. f_equal. lia.
      + apply IH; auto. exists (Some n). auto. }
  now apply (G ops None).
Qed.
Print Assumptions C08_one_channel.

(** Filter shorter than the block: any number of channels in any order. *)
Theorem C08_short_filter :
  forall (fir : list R) (ops : list blk_op), (forall bs nch, In (Prepare bs nch) ops -> length fir < bs) ->
  run (up_step fir) None ops = run (blk_ref fir) None ops.
Proof.
  intros fir ops H1. apply C08_partitioned_in_turn.
  assert (G : forall ops s, (forall bs nch, In (Prepare bs nch) ops -> length fir < bs) ->
    match s with None => True | Some (bs, n, last) => length fir < bs end -> in_turn (length fir) s ops).
  { clear. induction ops as [|o ops IH]; intros s H1 HS; cbn [in_turn]; auto.
    assert (H1' : forall bs nch, In (Prepare bs nch) ops -> length fir < bs) by (intros; apply (H1 bs nch); now right).
    destruct o as [bs nch| |x ch].
    - pose proof (H1 bs nch (or_introl eq_refl)). split. lia. now apply IH.
    - apply IH; auto. destruct s as [[[bs n] last]|]; cbn; auto.
    - destruct s as [[[bs n] last]|]; [|now apply IH].
      destruct (py_index (length last) ch) as [c|] eqn:Ec; [|now apply IH].
      destruct (fit bs x); [|now apply IH]. split; [|now apply IH].
      destruct (nth c last None); auto. now rewrite Nat.div_small, !Nat.mod_1_r by auto. }
  now apply (G ops None).
Qed.
Print Assumptions C08_short_filter.

(** Two channels in turn, filter [0;1], blocks of one sample: the delayed sample of channel 0 is lost. *)
Theorem C08_two_channels_refuted :
  let ops := [Prepare 1 2; Block [1] 0; Block [0] 1; Block [0] 0]%R in
  run (up_step [0;1]%R) None ops = [BDone; BVal [0]; BVal [0]; BVal [0]]%R /\
  run (blk_ref [0;1]%R) None ops = [BDone; BVal [0]; BVal [0]; BVal [1]]%R.
Proof.
  intros ops. split.
  - assert (Z0 : czero 2 = rfft 2 [0;0]%R) by (symmetry; apply (rfft_zeros 1)).
    set (P := mk 3 (fun p => rfft 2 (partition [0;1]%R 1 p))).
    assert (OUT : forall ind s0 s1 s2 (x : nat -> list R), ind < 3 -> (forall p, p < 3 -> nth (slot 3 ind p) [s0;s1;s2] [] = rfft 2 (x p)) ->
      last_n 1 (irfft (accumulate 3 1 P [s0;s1;s2] ind)) = [getR (x 1) 1]).
    { intros ind s0 s1 s2 x Hi Hx. set (a := accumulate 3 1 P [s0; s1; s2] ind).
      assert (L : length (irfft a) = 2) by (rewrite irfft_length; unfold a; now rewrite accumulate_length).
      assert (G : getR (irfft a) 1 = getR (x 1) 1).
      { unfold a. rewrite (irfft_acc 3 1 P _ ind (fun p => partition [0;1]%R 1 p) x); auto; try lia.
        - cbn [sum]. unfold circ. cbn [sum]. change ((1 + 2 * 1 - 0) mod (2 * 1)) with 1. change ((1 + 2 * 1 - 1) mod (2 * 1)) with 0.
          unfold partition. cbn. unfold get. cbn. ring.
        - intros p Hp. unfold P. now rewrite nth_mk by auto. }
      unfold last_n. destruct (irfft a) as [|u [|v [|]]]; try discriminate. cbn. f_equal. exact G. }
    unfold ops. cbn [run up_step]. unfold up_prepare. cbn [length]. change (2 / 1 + 1) with 3. change (2 * 1) with 2. change (1 + 1) with 2. fold P.
    cbn [up_in up_bs up_np up_parts up_ind up_spec length repeat].
    change (py_index 2 0) with (Some 0). change (py_index 2 1) with (Some 1).
    assert (F : forall v : R, fit 1 [v] = Some [v]) by reflexivity. rewrite !F. cbn iota beta. cbn [nth].
    unfold up_block at 1. cbn [last_n length Nat.sub skipn app upd]. cbn iota beta. cbn [up_in up_bs up_np up_parts up_ind up_spec length repeat nth].
    change ((0 + 1) mod 3) with 1. change (py_index 2 1) with (Some 1). cbn iota beta. rewrite F. cbn iota beta.
    unfold up_block at 1. cbn [last_n length Nat.sub skipn app upd]. cbn iota beta. cbn [up_in up_bs up_np up_parts up_ind up_spec length repeat nth upd].
    change ((1 + 1) mod 3) with 2. change (py_index 2 0) with (Some 0). cbn iota beta. rewrite F. cbn iota beta. cbn [nth upd].
    unfold up_block at 1. cbn [last_n length Nat.sub skipn app upd nth]. cbn iota beta.
    fold (last_n (T := R)). change (2 * 1) with 2. rewrite Z0.
    assert (SL : forall p, p < 3 -> p = 0 \/ p = 1 \/ p = 2) by (intros; lia).
    rewrite (OUT 0 _ _ _ (fun p => nth p [[0;1];[0;0];[0;0]]%R [])); [|lia|intros p Hp; destruct (SL p Hp) as [E|[E|E]]; subst p; reflexivity].
    rewrite (OUT 1 _ _ _ (fun p => nth p [[0;0];[0;0];[0;0]]%R [])); [|lia|intros p Hp; destruct (SL p Hp) as [E|[E|E]]; subst p; reflexivity].
    rewrite (OUT 2 _ _ _ (fun p => nth p [[1;0];[0;0];[0;1]]%R [])); [|lia|intros p Hp; destruct (SL p Hp) as [E|[E|E]]; subst p; reflexivity].
    reflexivity.
  - cbv -[Rplus Rmult IZR]. blk; ring.
Qed.
Print Assumptions C08_two_channels_refuted.

(** Three channels in turn with two partitions meet the hypothesis of C08_partitioned_in_turn; a reset in between, a rejected
    block and a rejected channel do no harm. *)
Example C08_example :
  let ops := [Prepare 2 3; Block [1;0] 0; Block [0;1] 1; Block [5;5;5] 1; Block [2;0] 2; Block [0;0] 0; Block [1;1] 7; Block [0;0] (-2); BReset; Block [1;2] 1]%R in
  in_turn (length [1;2;3]%R) None ops /\
  run (up_step [1;2;3]%R) None ops
  = [BDone; BVal [1;2]; BVal [0;1]; BRaise ValueError; BVal [2;4]; BVal [3;0]; BRaise IndexError; BVal [2;3]; BDone; BVal [1;4]]%R.
Proof.
  intros ops. assert (T : in_turn (length [1;2;3]%R) None ops) by (cbv -[Rplus Rmult IZR]; repeat split; lia).
  split; auto. rewrite C08_partitioned_in_turn by auto. cbv -[Rplus Rmult IZR]. blk; ring.
Qed.

(** ** C09 *)
(** The samples channel c has received up to and including block i. *)
Definition received (blocks : list (list (list R))) (i c : nat) : list R := concat (map (fun b => nth c b []) (firstn (S i) blocks)).

Lemma upm_run_ok fir bs np k : 0 < bs -> 0 < np -> length fir = k -> (forall c, c < k -> length (nth c fir []) <= np * bs) ->
  forall blocks s h, Forall (fun b => length b = k /\ Forall (fun col => length col = bs) b) blocks ->
  um_bs s = bs -> um_np s = np -> um_ind s < np -> um_parts s = map (fun f => mk np (fun p => rfft (2 * bs) (partition f bs p))) fir ->
  length (um_in s) = k -> length (um_spec s) = k -> length h = k ->
  (forall c, c < k -> up_chan np bs ((um_ind s + (np - 1)) mod np) (nth c (um_spec s) []) (nth c (um_in s) []) (nth c h [])) ->
  upm_run s blocks = mk (length blocks) (fun i => mk k (fun c => last_block (nth c fir []) (nth c h [] ++ received blocks i c) bs)).
Proof.
  intros Hbs Hnp Hk Hf. induction blocks as [|b blocks IH]; intros s h HB E1 E2 Hi HP L1 L2 L3 HC; auto.
  pose proof (Forall_inv HB) as [Lb Fb]. pose proof (Forall_inv_tail HB) as HB'. cbn [upm_run length]. rewrite mk_S_front.
  unfold upm_block. rewrite L1, E1, E2.
  set (r := fun c => up_block np bs (nth c (um_parts s) []) (um_ind s) (nth c (um_spec s) []) (nth c (um_in s) []) (nth c b [])).
  assert (OK : forall c, c < k -> up_chan np bs (um_ind s) (fst (fst (r c))) (snd (fst (r c))) (nth c h [] ++ nth c b []) /\
                                   snd (r c) = last_block (nth c fir []) (nth c h [] ++ nth c b []) bs).
  { intros c Hc. pose proof (up_block_ok (nth c fir []) np bs (nth c (um_parts s) []) (um_ind s) ((um_ind s + (np - 1)) mod np)
      (nth c (um_spec s) []) (nth c (um_in s) []) (nth c h []) (nth c b []) Hbs (Hf c Hc) Hnp Hi) as OK. fold (r c) in OK.
    destruct (r c) as [[sp ib] y]. cbn [fst snd]. apply OK; auto.
    - rewrite Nat.add_mod_idemp_l by lia. replace (um_ind s + (np - 1) + 1) with (um_ind s + 1 * np) by lia. rewrite Nat.mod_add, Nat.mod_small; lia.
    - apply Nat.mod_upper_bound. lia.
    - rewrite Forall_forall in Fb. apply Fb. apply nth_In. lia.
    - intros p Hp. rewrite HP. rewrite (nth_map' _ _ _ []) by lia. now rewrite nth_mk by auto. }
  f_equal.
  - rewrite map_mk. apply mk_ext. intros c Hc. unfold received. cbn [firstn map concat]. rewrite app_nil_r. now apply OK.
  - rewrite (IH _ (mk k (fun c => nth c h [] ++ nth c b []))); auto; cbn [um_bs um_np um_ind um_parts um_spec um_in]; rewrite ?map_length, ?mk_length; auto.
    + apply mk_ext. intros i Hi2. apply mk_ext. intros c Hc. f_equal. rewrite nth_mk by auto. unfold received. cbn [firstn map concat]. now rewrite app_assoc.
    + apply Nat.mod_upper_bound. lia.
    + intros c Hc. rewrite !map_mk, !nth_mk by auto. rewrite Nat.add_mod_idemp_l by lia.
      replace (um_ind s + 1 + (np - 1)) with (um_ind s + 1 * np) by lia. rewrite Nat.mod_add, (Nat.mod_small (um_ind s)) by lia. now apply OK.
Qed.

(** Real n x k coefficients (more columns than rows are taken as channels x samples) with largest magnitude p: after
    prepare(bs), block i of any sequence of well-shaped blocks is, in every channel, the convolution of all samples received
    with that channel's coefficients, times the gain 1 if p <= 1 and 1/p otherwise. *)
Theorem C09_multichannel :
  forall (x : input) (n k : nat) (p : R) (bs : nat) (blocks : list (list (list R))),
  in_shape x n k -> i_im x = None -> i_int x = false -> 0 < n -> 0 < k -> n * k <> 1 -> is_peak x n k p -> 0 < bs ->
  Forall (fun b => length b = min n k /\ Forall (fun col => length col = bs) b) blocks ->
  exists fir, upm_init x = Ok fir /\ length fir = min n k /\
    (forall c, c < min n k -> nth c fir [] = mk (max n k) (fun i => ((if Rlt_dec 1 p then 1 / p else 1) * (if n <? k then entry (i_re x) c i else entry (i_re x) i c))%R)) /\
    upm_run (upm_prepare fir bs) blocks =
    mk (length blocks) (fun i => mk (min n k) (fun c => last_block (nth c fir []) (received blocks i c) bs)).
Proof.
  intros x n k p bs blocks HS Him Hint Hn Hk H1 Hp Hbs HB.
  destruct (set_time_data_spec true 10000 x n k p HS Hn Hk H1 Hp) as (s & E & _ & _ & Sc & Sh & En & _); auto.
  exists (s_re s). unfold upm_init. rewrite E. split; auto. pose proof Sh as [L F]. split; auto.
  assert (LF : forall c, c < min n k -> length (nth c (s_re s) []) = max n k).
  { intros c Hc. rewrite Forall_forall in F. apply F. apply nth_In. lia. }
  split.
  { intros c Hc. apply (list_eq_nth 0%R). now rewrite mk_length, LF. rewrite LF by auto. intros i Hi.
    rewrite nth_mk by auto. rewrite <- Sc. apply (En i c Hi Hc). }
  assert (HD : length (hd [] (s_re s)) = max n k).
  { destruct (s_re s) as [|f0 t] eqn:Es. simpl in L. lia. apply (LF 0). lia. }
  set (np := max n k / bs + 1).
  rewrite (upm_run_ok (s_re s) bs np (min n k)) with (h := repeat [] (min n k)); unfold upm_prepare; cbn [um_bs um_np um_ind um_parts um_in um_spec];
    rewrite ?HD, ?L, ?repeat_length; fold np; auto; try (unfold np; lia).
  - apply mk_ext. intros i Hi. apply mk_ext. intros c Hc. rewrite nth_repeat_lt by auto. reflexivity.
  - intros c Hc. unfold np. rewrite (LF c Hc) in *. pose proof (np_enough (nth c (s_re s) []) bs Hbs) as X. now rewrite (LF c Hc) in X.
  - intros c Hc. rewrite !nth_repeat_lt by auto. apply up_chan_init. unfold np. lia.
Qed.
Print Assumptions C09_multichannel.

(** Coefficients above one are rescaled: the filter [2; 0] with input 1 answers 1 instead of 2. *)
Theorem C09_gain_lost_refuted :
  exists fir, upm_init (mkIn [[2; 0]]%R None false) = Ok fir /\
    upm_run (upm_prepare fir 1) [[[1%R]]] = [[[1%R]]] /\ [[last_block [2; 0]%R [1%R] 1]] = [[[2%R]]].
Proof.
  destruct (C09_multichannel (mkIn [[2; 0]]%R None false) 2 1 2%R 1 [[[1%R]]]) as (fir & E & L & Hf & HR); auto; try lia.
  - split; [split; [reflexivity|repeat constructor]|discriminate].
  - split.
    + intros i c Hi Hc. assert (c = 0) by lia. subst. split; [|discriminate]. assert (I : i = 0 \/ i = 1) by lia. destruct I; subst; cbn; unfold Rabs; destruct (Rcase_abs _); lra.
    + exists 0, 0. split; [lia|]. split; [lia|]. left. cbn. rewrite Rabs_pos_eq; lra.
  - exists fir. split; auto. rewrite HR. specialize (Hf 0 ltac:(lia)). change (max 2 1) with 2 in Hf. change (min 2 1) with 1 in *. cbn [Nat.ltb Nat.leb] in Hf.
    assert (G : forall f : nat -> nat -> list R, mk (length [[[1%R]]]) (fun i => mk 1 (f i)) = [[f 0 0]]) by reflexivity. rewrite G.
    change (received [[[1%R]]] 0 0) with [1%R].
    rewrite Hf. destruct (Rlt_dec 1 2); [|lra]. split.
    + unfold last_block, mk. cbn. unfold conv. cbn. unfold get. cbn. unfold entry. cbn. blk. field.
    + unfold last_block, mk. cbn. unfold conv. cbn. unfold get. cbn. blk. ring.
Qed.
Print Assumptions C09_gain_lost_refuted.
