(** Properties C11, C22, C23, C41: filtering with carried state, multi-band signals, filter banks. *)
From Coq Require Import List Arith Lia ZArith Bool Reals Lra.
From Verif Require Import Alg Spec M_arrays M_signal M_filter P_realtime P_arrays P_arrays2 P_signal P_filter.
Import ListNotations.
Local Open Scope nat_scope.

(** ** C11 *)
(** Filtering with activate_zi = True, block by block, ba coefficients with a[0] = 1. zi0 is what initialize_zi puts
    into the state of every channel; it must have as many entries as the filter has states.
    First-order filter and one channel: the blocks behave as one long signal. *)
Theorem C11_first_order_mono_streams :
  forall (A : Type) (HA : CRing A) (is_fir : bool) (b a zi0 : list A) (blocks : list (list A)),
  get a 0 = r1 -> max (length b) (length a) = 2 -> (is_fir = true -> a = [r1]) -> length zi0 = 1 ->
  Forall (fun x => x <> []) blocks ->
  exists ys, stream (ba_call is_fir b a zi0) None (map (fun x => [x]) blocks) = map (fun y => Ok [y]) ys /\
    map (@length A) ys = map (@length A) blocks /\
    diff_eq_from zi0 b a (concat blocks) (concat ys).
Proof.
  intros A HA is_fir b a zi0 blocks Ha Ho Hf Hz HB.
  destruct (ba_stream_mono is_fir b a zi0 blocks) as [ys [E1 [E2 E3]]]; auto.
  - intros F. split; auto. rewrite (Hf F) in Ho. simpl in Ho. lia.
  - unfold lf_order. lia.
  - exists ys. split; auto. split; auto. rewrite E3. apply lfilter_diff; auto; lia.
Qed.
Print Assumptions C11_first_order_mono_streams.

(** The number of states differs from the number of channels: the state is thrown away after every block; each
    block of each channel is filtered as if it were the first. *)
Theorem C11_state_lost_refuted :
  forall (A : Type) (HA : CRing A) (is_fir : bool) (b a zi0 : list A) (nch : nat) (blocks : list (list (list A))),
  get a 0 = r1 -> (is_fir = true -> a = [r1] /\ 2 <= length b) ->
  length zi0 = max (length b) (length a) - 1 -> length zi0 <> nch ->
  Forall (fun td => length td = nch /\ Forall (fun x => x <> []) td) blocks ->
  exists outs, stream (ba_call is_fir b a zi0) None blocks = map Ok outs /\
    Forall2 (fun td out => Forall2 (diff_eq_from zi0 b a) td out) blocks outs.
Proof.
  intros A HA is_fir b a zi0 nch blocks Ha Hf Hz Hne HB.
  exists (map (map (fun x => fst (lfilter b a x zi0))) blocks). split.
  - rewrite (ba_stream_lost is_fir b a zi0 nch); auto. now rewrite map_map. unfold lf_order. lia.
  - assert (G : forall td : list (list A), Forall2 (diff_eq_from zi0 b a) td (map (fun x => fst (lfilter b a x zi0)) td)).
    { induction td; constructor; auto. apply lfilter_diff; auto; lia. }
    clear HB. induction blocks; constructor; auto.
Qed.
Print Assumptions C11_state_lost_refuted.

(** As many channels as states (at least two): the states of the channels get mixed up. Channel c of the second block
    starts from state c of channel 0, state c of channel 1, ... *)
Theorem C11_states_exchanged_refuted :
  forall (A : Type) (HA : CRing A) (is_fir : bool) (b a zi0 : list A) (td1 td2 : list (list A)),
  get a 0 = r1 -> (is_fir = true -> a = [r1] /\ 2 <= length b) ->
  let m := max (length b) (length a) - 1 in
  length zi0 = m -> length td1 = m -> length td2 = m ->
  Forall (fun x => x <> []) td1 -> Forall (fun x => x <> []) td2 ->
  exists out1 out2 zs,
    stream (ba_call is_fir b a zi0) None [td1; td2] = [Ok out1; Ok out2] /\
    Forall2 (diff_eq_from zi0 b a) td1 out1 /\
    (* zs: final states of the channels after block 1 *)
    Forall2 (fun x z => forall x' y', diff_eq_from z b a x' y' ->
               exists y, length y = length x /\ diff_eq_from zi0 b a (x ++ x') (y ++ y')) td1 zs /\
    length out2 = m /\
    forall c, c < m -> diff_eq_from (map (fun z => get z c) zs) b a (nth c td2 []) (nth c out2 []).
Proof.
  intros A HA is_fir b a zi0 td1 td2 Ha Hf m Hz H1 H2 X1 X2.
  rewrite (ba_second_square is_fir b a zi0 td1 td2) by auto.
  exists (map (fun x => fst (lfilter b a x zi0)) td1), (mk (length td2) (fun c => fst (lfilter b a (nth c td2 []) (map (fun x => get (snd (lfilter b a x zi0)) c) td1)))),
    (map (fun x => snd (lfilter b a x zi0)) td1).
  split; auto. split.
  { clear -Ha Hz. induction td1; constructor; auto. apply lfilter_diff; auto; unfold m in *; lia. }
  split.
  { assert (U : forall z x y, length z = m -> diff_eq_from z b a x y -> y = fst (lfilter b a x z)).
    { clear -Ha. intros z x y HL [HY HD].
      destruct (lfilter_diff b a x z Ha) as [HY' HD']; try (unfold m in *; lia).
      apply get_ext. lia. intros n. rewrite HY. induction n as [n IH] using lt_wf_ind. intros Hn.
      specialize (HD n Hn). specialize (HD' n Hn). rewrite <- HD' in HD. unfold conv in HD.
      rewrite !sum_S_front in HD. rewrite Nat.sub_0_r, Ha in HD.
      assert (E : sum n (fun i => get a (S i) *! get y (n - S i)) = sum n (fun i => get a (S i) *! get (fst (lfilter b a x z)) (n - S i))).
      { apply sum_ext. intros i Hi. rewrite IH by lia. reflexivity. }
      rewrite E in HD. rewrite !(Rmul_1_l (@rth A HA)) in HD.
      set (q := sum n _) in HD.
      assert (C : (get y n +! q) -! q = (get (fst (lfilter b a x z)) n +! q) -! q) by now rewrite HD.
      clear -C. rewrite !(Rsub_def (@rth A HA)), <- !(Radd_assoc (@rth A HA)), !(Ropp_def (@rth A HA)) in C.
      rewrite !(Radd_comm (@rth A HA) _ r0), !(Radd_0_l (@rth A HA)) in C. exact C. }
    clear H1 X1. induction td1 as [|x t IH]; constructor; auto.
    intros x' y' HD. apply U in HD; [|rewrite lfilter_zlen; auto].
    exists (fst (lfilter b a x zi0)). split. apply lfilter_length.
    replace (fst (lfilter b a x zi0) ++ y') with (fst (lfilter b a (x ++ x') zi0)).
    apply lfilter_diff; auto; unfold m in *; lia. rewrite lfilter_app. simpl. now rewrite HD. }
  split. rewrite mk_length. lia.
  intros c Hc. rewrite nth_mk by lia. rewrite map_map. apply lfilter_diff; auto; rewrite map_length; unfold m in *; lia.
Qed.
Print Assumptions C11_states_exchanged_refuted.

(** Second-order sections: with as many sections as channels, other than two, every block after the first raises
    ValueError (for instance one section and one channel). *)
Theorem C11_sos_second_block_raises_refuted :
  forall (A : Type) (HA : CRing A) (sos : list (list A * list A)) (zi0 : list (list A)) td blocks,
  length zi0 = length sos -> Forall (fun r => length r = 2) zi0 ->
  0 < length sos -> length sos <> 2 -> length td = length sos -> Forall (fun td' => length td' = length sos) blocks ->
  exists out, stream (sos_call sos zi0) None (td :: blocks) = Ok out :: map (fun _ => Err ValueError) blocks.
Proof.
  intros A HA sos zi0 td blocks H1 H2 H3 H4 H5 H6. eexists. apply sos_stream_raises with (nch := length sos); auto.
  unfold zi_shape_ok. rewrite H1, Nat.eqb_refl. apply forallb_forall. intros r Hr. rewrite Forall_forall in H2.
  rewrite (H2 r Hr). reflexivity.
Qed.
Print Assumptions C11_sos_second_block_raises_refuted.

(** More or fewer sections than channels: each block starts from zi0 again. *)
Theorem C11_sos_state_lost_refuted :
  forall (A : Type) (HA : CRing A) (sos : list (list A * list A)) (zi0 : list (list A)) nch blocks,
  length zi0 = length sos -> Forall (fun r => length r = 2) zi0 -> length sos <> nch ->
  Forall (fun td => length td = nch) blocks ->
  stream (sos_call sos zi0) None blocks = concat (map (fun td => stream (sos_call sos zi0) None [td]) blocks).
Proof.
  intros A HA sos zi0 nch blocks H1 H2 H3 H4.
  assert (Hz : zi_shape_ok (length sos) zi0 = true).
  { unfold zi_shape_ok. rewrite H1, Nat.eqb_refl. apply forallb_forall. intros r Hr. rewrite Forall_forall in H2.
    rewrite (H2 r Hr). reflexivity. }
  rewrite (sos_stream_lost sos zi0 nch) by auto.
  assert (G : forall td, length td = nch -> stream (sos_call sos zi0) None [td] = [Ok (map (fun x => fst (sosfilt sos x zi0)) td)]).
  { intros td Ht. rewrite (sos_stream_lost sos zi0 nch); auto. }
  induction H4 as [|td t Ht H4 IH]; auto. cbn [map concat]. rewrite G by auto. cbn [app]. now rewrite IH.
Qed.
Print Assumptions C11_sos_state_lost_refuted.

(** One channel, y[n] = x[n] + y[n-1]: three blocks run on. The pure delay by two samples loses its memory
    (1 2 | 3 4 should give 1 1 | 1 2 after the initial state 1 1). Two channels exchange state entries. *)
Example C11_example :
  stream (ba_call false [1;0] [1;-1] [0])%Z None [[[1;2]]; [[3]]; [[4;5]]]%Z = [Ok [[1;3]]; Ok [[6]]; Ok [[10;15]]]%Z /\
  stream (ba_call true [0;0;1] [1] [1;1])%Z None [[[1;2]]; [[3;4]]]%Z = [Ok [[1;1]]; Ok [[1;1]]]%Z /\
  stream (ba_call true [0;0;1] [1] [1;1])%Z None [[[1;2];[3;4]]; [[5;6];[7;8]]]%Z
    = [Ok [[1;1];[1;1]]; Ok [[1;3];[2;4]]]%Z /\
  stream (sos_call [([1;0;0],[1;-1;0])] [[0;0]])%Z None [[[1;2]]; [[3;4]]]%Z = [Ok [[1;3]]; Err ValueError]%Z.
Proof. repeat split; reflexivity. Qed.

(** ** C41 *)
(** filter_signal(channels=...): the selected channels (negative numbers count from the end) are replaced by their
    filtered version, the others are passed on, in an unconstrained signal. *)
Theorem C41_selected_channels :
  forall (f : filt) (chs : option (list Z)) (s : signal) (n k : nat),
  sig_ok s n k -> s_constr s = false -> f_fs f = s_fs s -> (forall col, length (f_flt f col) = length col) ->
  let sel := match chs with None => map Z.of_nat (seq 0 k) | Some l => l end in
  sel <> [] -> (forall z, In z sel -> (- Z.of_nat k <= z < Z.of_nat k)%Z) ->
  exists s', filter_signal f chs s = Ok s' /\ length (s_re s') = k /\ s_im s' = None /\
    forall c, c < k ->
      ((exists z, In z sel /\ (z = Z.of_nat c \/ z + Z.of_nat k = Z.of_nat c)%Z) -> nth c (s_re s') [] = f_flt f (nth c (s_re s) [])) /\
      (~ (exists z, In z sel /\ (z = Z.of_nat c \/ z + Z.of_nat k = Z.of_nat c)%Z) -> nth c (s_re s') [] = nth c (s_re s) []).
Proof.
  intros f chs s n k Hok Hc Hfs Hfl sel Hs HR. unfold filter_signal. rewrite Hfs, Z.eqb_refl. cbn [negb].
  rewrite (filter_channels_eq (f_flt f) chs s n k Hok Hfl Hs HR). fold sel.
  pose proof Hok as [h1 h2 h3 h4 h5 h6 h7].
  unfold set_data. rewrite (set_identity _ _ _ n k); auto.
  - eexists. split; [reflexivity|]. simpl. split. apply mk_length. split; auto.
    intros c Hcc. rewrite nth_mk by auto. unfold selb. split; intros H.
    + replace (existsb _ sel) with true; auto. symmetry. apply existsb_exists. destruct H as [z [Hz E]]. exists z. split; auto.
      apply orb_true_iff. rewrite !Z.eqb_eq. auto.
    + destruct (existsb _ sel) eqn:E; auto. exfalso. apply H. apply existsb_exists in E. destruct E as [z [Hz E]]. exists z. split; auto.
      apply orb_true_iff in E. rewrite !Z.eqb_eq in E. auto.
  - split; simpl; [|discriminate]. split. apply mk_length. apply Forall_forall. intros col Hcol.
    apply In_nth with (d := []) in Hcol. destruct Hcol as [c [Hcc <-]]. rewrite mk_length in Hcc. rewrite nth_mk by auto.
    destruct (selb k sel c); rewrite ?Hfl; now apply (shape_col _ n k).
  - congruence.
Qed.
Print Assumptions C41_selected_channels.

Theorem C41_rejects :
  forall (f : filt) (l : list Z) (s : signal),
  (f_fs f <> s_fs s \/ exists z, In z l /\ (Z.of_nat (length (s_re s)) <= z)%Z) ->
  filter_signal f (Some l) s = Err AssertionError.
Proof.
  intros f l s [H|[z [Hz H]]]; unfold filter_signal.
  - destruct (Z.eqb_spec (f_fs f) (s_fs s)); easy.
  - destruct (Z.eqb_spec (f_fs f) (s_fs s)); auto. cbn [negb]. unfold filter_channels, ncols.
    destruct (forallb _ l) eqn:E; auto. rewrite forallb_forall in E. apply E, Z.ltb_lt in Hz. lia.
Qed.
Print Assumptions C41_rejects.

(** The imaginary part of a complex signal is dropped. *)
Theorem C41_imaginary_lost_refuted :
  forall f chs s s', filter_signal f chs s = Ok s' -> s_im s' = None.
Proof.
  intros f chs s s' H. unfold filter_signal in H. destruct (negb _); [discriminate|]. unfold filter_channels in H.
  destruct (negb _); [discriminate|]. destruct (match chs with None => _ | Some l => l end); [discriminate|].
  destruct (resolve_all _ _); [|discriminate]. unfold set_data, set_time_data in H. simpl in H.
  destruct (_ && _); [discriminate|]. destruct (s_constr s); [destruct (Rlt_dec _ _)|]; inversion H; reflexivity.
Qed.
Print Assumptions C41_imaginary_lost_refuted.

Definition gain2 : filt := mkFilt 48000 (map (fun x => (2 * x)%R)).
Definition rev_filt : filt := mkFilt 48000 (@rev R).
Example C41_example :
  let s := mkSig [[1;2];[3;4]]%R None 1%R false 48000 in
  sig_ok s 2 2 /\ exists s', filter_signal rev_filt (Some [-1])%Z s = Ok s' /\ s_re s' = [[1;2];[4;3]]%R.
Proof.
  split. { constructor; simpl; auto; try discriminate. split; [reflexivity|repeat constructor]. }
  eexists. split; reflexivity.
Qed.

(** ** C22 *)
(** Containers of multi-band signals: an accepted assignment of bands keeps them all alike. *)
Definition alike (same : bool) (l : list signal) : Prop :=
  forall s s', In s l -> In s' l ->
    length (s_re s) = length (s_re s') /\ (s_im s = None <-> s_im s' = None) /\
    (same = true -> s_fs s = s_fs s' /\ length (hd [] (s_re s)) = length (hd [] (s_re s'))).
Lemma alike_match same l : alike same l <-> bands_match same l.
Proof.
  unfold alike, bands_match, ncols, nrows. split; intros H s s' Hs Hs'; destruct (H s s' Hs Hs') as [H1 [H2 H3]]; (split; [auto|split; [|auto]]).
  - destruct (s_im s) eqn:E1, (s_im s') eqn:E2; simpl; auto; exfalso; destruct H2 as [H2 H2']; [specialize (H2' eq_refl)|specialize (H2 eq_refl)]; discriminate.
  - destruct (s_im s), (s_im s'); simpl in H2; split; congruence.
Qed.

Theorem C22_bands_stay_alike :
  forall (ops : list mb_op) (m : mband), alike (mb_same m) (mb_bands m) ->
  let m' := fold_left (fun m o => fst (mb_step m o)) ops m in
  alike (mb_same m') (mb_bands m').
Proof.
  assert (G : forall l m, alike (mb_same m) (mb_bands m) -> alike (mb_same (fst (mb_set l m))) (mb_bands (fst (mb_set l m)))).
  { intros l m H. assert (E : mb_same (fst (mb_set l m)) = mb_same m).
    { unfold mb_set. destruct l; auto. destruct (negb _); auto. destruct (mb_same m) eqn:Es; auto. destruct (forallb _ _); auto. }
    rewrite E, mb_set_bands. destruct (snd (mb_set l m)) eqn:Es; auto.
    apply alike_match. apply (mb_set_none l m (fst (mb_set l m))). rewrite <- Es. apply surjective_pairing. }
  induction ops as [|o t IH]; intros m H; auto. simpl. apply IH. destruct o as [l|s i|i|o]; simpl.
  - now apply G.
  - unfold mb_add. destruct (mb_bands m) eqn:E; apply G; now rewrite ?E.
  - unfold mb_remove. destruct (_ =? 0); auto. destruct (py_index _ _); auto.
  - unfold mb_swap. destruct (_ =? 1); auto. destruct (negb _); auto. destruct (negb _); auto. destruct (negb _); auto.
    destruct (mb_bands m) eqn:E; apply G; now rewrite ?E.
Qed.
Print Assumptions C22_bands_stay_alike.

(** add, remove and reorder act as the corresponding list operations when they are accepted. *)
Theorem C22_edits :
  forall (m m' : mband),
  (forall s, mb_add s (-1) m = (m', None) -> mb_bands m' = mb_bands m ++ [s]) /\
  (forall s i, 0 <= i <= length (mb_bands m) -> mb_add s (Z.of_nat i) m = (m', None) ->
     mb_bands m' = firstn i (mb_bands m) ++ s :: skipn i (mb_bands m)) /\
  (forall s j, 2 <= j <= length (mb_bands m) -> mb_add s (- Z.of_nat j) m = (m', None) ->
     exists l r, mb_bands m = l ++ r /\ length r = j /\ mb_bands m' = l ++ s :: r) /\
  (forall i q, i < length (mb_bands m) -> (q = Z.of_nat i \/ q = Z.of_nat i - Z.of_nat (length (mb_bands m)))%Z ->
     mb_remove q m = (m', None) ->
     mb_bands m' = firstn i (mb_bands m) ++ skipn (S i) (mb_bands m)) /\
  (forall o d, mb_swap o m = (m', None) ->
     mb_bands m' = map (fun z => nth (Z.to_nat z) (mb_bands m) d) o /\
     NoDup o /\ length o = length (mb_bands m) /\ (forall z, In z o -> (0 <= z < Z.of_nat (length (mb_bands m)))%Z)).
Proof.
  intros m m'.
  assert (G : forall l, mb_set l m = (m', None) -> mb_bands m' = l).
  { intros l E. pose proof (mb_set_bands l m) as H. now rewrite E in H. }
  split; [|split; [|split; [|split]]].
  - intros s E. unfold mb_add in E. destruct (mb_bands m) eqn:El; apply G in E; now rewrite E.
  - intros s i Hi E. unfold mb_add in E. destruct (mb_bands m) as [|b0 t] eqn:El; apply G in E; rewrite E.
    + assert (i = 0) by (simpl in Hi; lia). now subst.
    + destruct (Z.eqb_spec (Z.of_nat i) (-1)); try lia. unfold py_insert. destruct (Z.ltb_spec (Z.of_nat i) 0); try lia.
      rewrite Nat2Z.id. rewrite Nat.min_l by lia. reflexivity.
  - intros s j Hj E. unfold mb_add in E. destruct (mb_bands m) as [|b0 t] eqn:El; [simpl in Hj; lia|]. apply G in E. rewrite E.
    destruct (Z.eqb_spec (- Z.of_nat j) (-1)); try lia. unfold py_insert. destruct (Z.ltb_spec (- Z.of_nat j) 0); try lia.
    do 2 eexists. split; [symmetry; apply firstn_skipn|]. split; [|reflexivity]. rewrite skipn_length. lia.
  - intros i q Hi Hq E. unfold mb_remove in E. destruct (Nat.eqb_spec (length (mb_bands m)) 0); [discriminate|].
    assert (P : py_index (length (mb_bands m)) q = Some i).
    { unfold py_index. destruct Hq as [->| ->].
      - destruct (Z.leb_spec 0 (Z.of_nat i)); try lia. destruct (Z.ltb_spec (Z.of_nat i) (Z.of_nat (length (mb_bands m)))); try lia. f_equal. lia.
      - destruct (Z.leb_spec 0 (Z.of_nat i - Z.of_nat (length (mb_bands m)))); try lia.
        destruct (Z.leb_spec (- Z.of_nat (length (mb_bands m))) (Z.of_nat i - Z.of_nat (length (mb_bands m)))); try lia. f_equal. lia. }
    rewrite P in E. now apply G in E.
  - intros o d E. unfold mb_swap in E. destruct (_ =? 1); [discriminate|].
    destruct (Nat.eqb_spec (length (mb_bands m)) (length o)) as [EL|]; [|discriminate]. cbn [negb] in E.
    destruct (forallb _ o) eqn:EF; [|discriminate]. cbn [negb] in E. destruct (znodup o) eqn:EN; [|discriminate]. cbn [negb] in E.
    assert (HR : forall z, In z o -> (0 <= z < Z.of_nat (length (mb_bands m)))%Z).
    { intros z Hz. rewrite forallb_forall in EF. apply EF, andb_true_iff in Hz. rewrite Z.ltb_lt, Z.leb_le in Hz. lia. }
    split; [|split; [now apply znodup_spec|split; auto]].
    destruct (mb_bands m) as [|b0 t] eqn:El; apply G in E; rewrite E.
    + destruct o; [reflexivity|discriminate].
    + unfold select. rewrite map_map. apply map_ext_in. intros z Hz. apply nth_indep. apply HR in Hz. lia.
Qed.
Print Assumptions C22_edits.

(** The sum of the bands, real and complex. *)
Theorem C22_collapse_real :
  forall owns m b0 rest n k, mb_bands m = b0 :: rest -> mb_same m = true ->
  sig_ok b0 n k -> s_im b0 = None -> s_constr b0 = false ->
  exists out m', collapse owns m = Ok (out, m') /\ s_im out = None /\ shape (s_re out) n k /\
    forall i c, i < n -> c < k -> entry (s_re out) i c = fold_right Rplus 0%R (map (fun s => entry (s_re s) i c) (b0 :: rest)).
Proof.
  intros owns m b0 rest n k H1 H2 H3 H4 H5.
  destruct (collapse_real owns m b0 rest n k H1 H2 H3 H4 H5) as [out [re0 [E [E1 [E2 [_ E3]]]]]]. eauto 10.
Qed.
Print Assumptions C22_collapse_real.
Theorem C22_collapse_complex :
  forall owns m b0 rest n k im0, mb_bands m = b0 :: rest -> mb_same m = true ->
  sig_ok b0 n k -> s_im b0 = Some im0 -> s_constr b0 = false ->
  (forall s, In s rest -> exists im, s_im s = Some im) ->
  exists out im, collapse owns m = Ok (out, m) /\ s_im out = Some im /\ shape (s_re out) n k /\ shape im n k /\
    forall i c, i < n -> c < k ->
      entry (s_re out) i c = fold_right Rplus 0%R (map (fun s => entry (s_re s) i c) (b0 :: rest)) /\
      entry im i c = fold_right Rplus 0%R (map (fun s => entry (match s_im s with Some m => m | None => [] end) i c) (b0 :: rest)).
Proof. intros. eapply collapse_complex; eauto. Qed.
Print Assumptions C22_collapse_complex.

(** For real bands collapse overwrites the first band with the sum. *)
Theorem C22_first_band_overwritten_refuted :
  forall owns m b0 rest n k, mb_bands m = b0 :: rest -> mb_same m = true ->
  sig_ok b0 n k -> s_im b0 = None -> s_constr b0 = false ->
  exists out m' b0', collapse owns m = Ok (out, m') /\ mb_bands m' = b0' :: rest /\ s_re b0' = s_re out.
Proof.
  intros owns m b0 rest n k H1 H2 H3 H4 H5.
  destruct (collapse_real owns m b0 rest n k H1 H2 H3 H4 H5) as [out [re0 [E [E1 [E2 [-> E3]]]]]].
  exists out. eexists _, _. split; [exact E|]. split; reflexivity.
Qed.
Print Assumptions C22_first_band_overwritten_refuted.

(** Two bands 1 and 2: the first collapse gives 3, the second one 5. *)
Theorem C22_second_collapse_differs_refuted :
  exists m out m' out' m'', collapse false m = Ok (out, m') /\ collapse false m' = Ok (out', m'') /\
    entry (s_re out) 0 0 = 3%R /\ entry (s_re out') 0 0 = 5%R.
Proof.
  set (b x := mkSig [[x;x]]%R None 1%R false 48000).
  exists (mkMB true 1 (ROne 48000) [b 1%R; b 2%R]). do 4 eexists. split; [reflexivity|]. split; [reflexivity|].
  unfold entry. simpl. unfold get. simpl. split; lra.
Qed.
Print Assumptions C22_second_collapse_differs_refuted.

(** A rejected add_band at index 0 changes the reported number of channels although the bands stay. *)
Theorem C22_rejected_band_changes_channel_count_refuted :
  exists m s m' e, mb_add s 0 m = (m', Some e) /\ mb_bands m' = mb_bands m /\
    (forall b, In b (mb_bands m) -> length (s_re b) = 1) /\ mb_nch m = 1 /\ mb_nch m' = 2.
Proof.
  exists (mkMB true 1 (ROne 48000) [mkSig [[1;2]]%R None 1%R false 48000]), (mkSig [[1;2];[3;4]]%R None 1%R false 48000).
  do 2 eexists. split; [reflexivity|]. simpl. split; auto. split; auto. intros b [<-|[]]. reflexivity.
Qed.
Print Assumptions C22_rejected_band_changes_channel_count_refuted.

(** get_all_bands: channel c of the result is the chosen channel of band c (not more bands than samples). *)
Theorem C22_get_all_bands :
  forall m n k ch, mb_bands m <> [] -> (forall s, In s (mb_bands m) -> sig_ok s n k /\ s_im s = None) -> ch < k ->
  length (mb_bands m) <= n -> (exists fs, mb_rate m = ROne fs) ->
  exists s, get_all_bands ch m = Ok s /\ s_re s = map (fun b => nth ch (s_re b) []) (mb_bands m).
Proof.
  intros m n k ch Hne HB Hch Hn [fs Hfs]. unfold get_all_bands. destruct (mb_bands m) as [|b0 t] eqn:El; [easy|].
  rewrite Hfs. destruct (HB b0 (or_introl eq_refl)) as [Hok E]. rewrite E.
  pose proof Hok as [h1 h2 h3 h4 h5 h6 h7].
  rewrite (set_identity _ _ _ n (length (b0 :: t))); auto.
  - eexists. split; reflexivity.
  - split; [|discriminate]. split. apply map_length. apply Forall_map, Forall_forall. intros b Hb.
    destruct (HB b Hb) as [[_ _ _ g4 _ _ _] _]. now apply (shape_col _ n k).
  - simpl. lia.
  - discriminate.
Qed.
Print Assumptions C22_get_all_bands.

Example C22_example :
  let b x := mkSig [[x;x]]%R None 1%R false 48000 in
  let m := mkMB true 1 (ROne 48000) [b 1%R; b 2%R] in
  alike (mb_same m) (mb_bands m) /\ sig_ok (b 1%R) 2 1 /\
  map s_re (mb_bands (fst (mb_step m (MbSwap [1;0]%Z)))) = [[[2;2]];[[1;1]]]%R /\
  snd (mb_step m (MbAdd (mkSig [[1;2;3]]%R None 1%R false 48000) 1)) = Some AssertionError.
Proof.
  cbv zeta. split; [|split; [|split; reflexivity]].
  - intros s s' [<-|[<-|[]]] [<-|[<-|[]]]; simpl; auto; repeat split; auto.
  - constructor; simpl; auto; try discriminate. split; [reflexivity|repeat constructor].
Qed.

(** ** C23 *)
(** A bank of length-preserving filters on an unconstrained signal of the bank's sampling rate. *)
Definition bank_fits (b : bank) (s : signal) : Prop :=
  fb_same b = true /\ fb_rate b = ROne (s_fs s) /\
  forall f, In f (fb_filters b) -> f_fs f = s_fs s /\ forall col, length (f_flt f col) = length col.

Theorem C23_parallel :
  forall b s n k, sig_ok s n k -> s_constr s = false -> bank_fits b s ->
  exists outs, fb_parallel b s = Ok outs /\ map s_re outs = map (fun f => map (f_flt f) (s_re s)) (fb_filters b).
Proof.
  intros b s n k Hok Hc [H1 [H2 H3]]. unfold fb_parallel, fb_rate_ok. rewrite H2, Z.eqb_refl. cbn [negb].
  rewrite (all_ok_map _ (fun f => filtered (f_flt f) s)).
  - eexists. split; [reflexivity|]. rewrite map_map. reflexivity.
  - intros f Hf. destruct (H3 f Hf). now apply (filter_signal_eq f s n k).
Qed.
Print Assumptions C23_parallel.

Theorem C23_sequential :
  forall b s n k, sig_ok s n k -> s_constr s = false -> bank_fits b s ->
  exists out, fb_sequential b s = Ok out /\
    s_re out = map (fun col => fold_left (fun c f => f_flt f c) (fb_filters b) col) (s_re s).
Proof.
  intros b s n k Hok Hc [H1 [H2 H3]]. unfold fb_sequential, fb_rate_ok. rewrite H1, H2, Z.eqb_refl. cbn [negb].
  revert s Hok Hc H2 H3. generalize (fb_filters b). induction l as [|f t IH]; intros s Hok Hc H2 H3.
  - exists s. split; auto. simpl. now rewrite map_id.
  - simpl. destruct (H3 f (or_introl eq_refl)) as [E1 E2]. rewrite (filter_signal_eq f s n k) by auto.
    destruct (IH (filtered (f_flt f) s)) as [out [E3 E4]]; auto.
    + now apply filtered_ok.
    + intros g Hg. apply H3. now right.
    + exists out. split; auto. rewrite E4. simpl. now rewrite map_map.
Qed.
Print Assumptions C23_sequential.

Theorem C23_summed :
  forall b s n k, sig_ok s n k -> s_constr s = false -> bank_fits b s ->
  exists out, fb_summed b s = Ok out /\ shape (s_re out) n k /\
    forall i c, i < n -> c < k ->
      entry (s_re out) i c = fold_right Rplus 0%R (map (fun f => nth i (f_flt f (nth c (s_re s) [])) 0%R) (fb_filters b)).
Proof.
  intros b s n k Hok Hc [H1 [H2 H3]]. unfold fb_summed, fb_rate_ok. rewrite H1, H2, Z.eqb_refl. cbn [negb].
  rewrite (all_ok_map _ (fun f => filtered (f_flt f) s)).
  2:{ intros f Hf. destruct (H3 f Hf). now apply (filter_signal_eq f s n k). }
  cbn [bind]. cbv zeta. rewrite (nc s n k Hok), (nr s n k Hok). pose proof Hok as [h1 h2 h3 h4 h5 h6 h7].
  set (outs := map _ (fb_filters b)).
  set (m := mk k _).
  assert (Sh : shape m n k).
  { split. apply mk_length. apply Forall_forall. intros col Hcol. apply In_nth with (d := []) in Hcol.
    destruct Hcol as [c [Hcc <-]]. unfold m in Hcc. rewrite mk_length in Hcc. unfold m. now rewrite nth_mk, mk_length. }
  unfold set_data. rewrite (set_identity _ _ _ n k); auto.
  - eexists. split; [reflexivity|]. simpl. split; auto. intros i c Hi Hcc. unfold m, entry.
    rewrite nth_mk, nth_mk by auto. unfold outs. rewrite map_length. clear -h4 Hcc.
    assert (E : forall l, sum (HA := CRing_R) (length l) (fun j => get (nth c (s_re (nth j (map (fun f => filtered (f_flt f) s) l) s)) []) i) =
      fold_right Rplus 0%R (map (fun f => nth i (f_flt f (nth c (s_re s) [])) 0%R) l)).
    { induction l as [|f t IH]; auto. cbn [length]. rewrite sum_S_front. cbn [map nth fold_right].
      rewrite <- IH. f_equal. simpl s_re. rewrite (nth_map' _ _ c []) by (destruct h4; lia). reflexivity. }
    apply E.
  - split; auto. discriminate.
  - congruence.
Qed.
Print Assumptions C23_summed.

(** Editing: the list operations, and the recorded rate stays the rate of all filters, for any history in which the
    lists assigned to the attribute filters are themselves of one rate. A rejected edit leaves the bank as it was. *)
Definition rate_consistent (b : bank) : Prop :=
  fb_same b = true -> forall f, In f (fb_filters b) -> fb_rate b = ROne (f_fs f).
Definition assigns_one_rate (o : fb_op) : Prop :=
  match o with FbSet l => forall f g, In f l -> In g l -> f_fs f = f_fs g | _ => True end.
Theorem C23_history :
  forall ops b, rate_consistent b -> Forall assigns_one_rate ops ->
  rate_consistent (fold_left (fun b o => fst (fb_step b o)) ops b).
Proof.
  induction ops as [|o t IH]; intros b HI HF; auto. inversion HF; subst. simpl. apply IH; auto.
  apply (fb_step_inv b o HI). destruct o; simpl in *; auto.
Qed.
Print Assumptions C23_history.
Theorem C23_rejected_edit :
  forall o b, rate_consistent b -> assigns_one_rate o -> snd (fb_step b o) <> None -> fst (fb_step b o) = b.
Proof. intros o b HI HO. apply (fb_step_inv b o HI). destruct o; simpl in *; auto. Qed.
Print Assumptions C23_rejected_edit.
Theorem C23_edits :
  forall b b', rate_consistent b ->
  (forall f, fb_add f (-1) b = (b', None) -> fb_filters b' = fb_filters b ++ [f]) /\
  (forall f i, i <= length (fb_filters b) -> fb_add f (Z.of_nat i) b = (b', None) ->
     fb_filters b' = firstn i (fb_filters b) ++ f :: skipn i (fb_filters b)) /\
  (forall f j, 2 <= j <= length (fb_filters b) -> fb_add f (- Z.of_nat j) b = (b', None) ->
     exists l r, fb_filters b = l ++ r /\ length r = j /\ fb_filters b' = l ++ f :: r) /\
  (forall i, i < length (fb_filters b) ->
     exists b2, fb_remove (Z.of_nat i) b = (b2, None) /\ fb_filters b2 = firstn i (fb_filters b) ++ skipn (S i) (fb_filters b)) /\
  (forall o d, length (fb_filters b) <> 1 -> length o = length (fb_filters b) -> NoDup o -> (forall z, In z o -> (0 <= z < Z.of_nat (length o))%Z) ->
     exists b2, fb_swap o b = (b2, None) /\ fb_filters b2 = map (fun z => nth (Z.to_nat z) (fb_filters b) d) o).
Proof.
  intros b b' HI.
  assert (G : forall l b1, fb_set l b1 = (b', None) -> fb_filters b' = l).
  { intros l b1 E. unfold fb_set in E. destruct l. now inversion E. destruct (fb_same b1).
    destruct (forallb _ _); now inversion E. now inversion E. }
  assert (S : forall l, (forall f, In f l -> In f (fb_filters b)) -> exists b2, fb_set l b = (b2, None) /\ fb_filters b2 = l).
  { intros l Hl. destruct (fb_set_same l b) as [b2 [E [E2 _]]]; eauto. intros Hs f g Hf Hg.
    pose proof (HI Hs f (Hl f Hf)) as E1. rewrite (HI Hs g (Hl g Hg)) in E1. now injection E1. }
  split; [|split; [|split; [|split]]].
  - intros f E. unfold fb_add in E. destruct (fb_filters b) eqn:El. apply G in E. auto.
    destruct (_ && _); [discriminate|]. now apply G in E.
  - intros f i Hi E. unfold fb_add in E. destruct (fb_filters b) eqn:El.
    + apply G in E. assert (i = 0) by (simpl in Hi; lia). now subst.
    + destruct (_ && _); [discriminate|]. apply G in E. rewrite E.
      destruct (Z.eqb_spec (Z.of_nat i) (-1)); try lia. unfold py_insert. destruct (Z.ltb_spec (Z.of_nat i) 0); try lia.
      rewrite Nat2Z.id. rewrite Nat.min_l by lia. reflexivity.
  - intros f j Hj E. unfold fb_add in E. destruct (fb_filters b) eqn:El; [simpl in Hj; lia|].
    destruct (_ && _); [discriminate|]. apply G in E. rewrite E.
    destruct (Z.eqb_spec (- Z.of_nat j) (-1)); try lia. unfold py_insert. destruct (Z.ltb_spec (- Z.of_nat j) 0); try lia.
    do 2 eexists. split; [symmetry; apply firstn_skipn|]. split; [|reflexivity]. rewrite skipn_length. lia.
  - intros i Hi. unfold fb_remove. destruct (Nat.eqb_spec (length (fb_filters b)) 0); try lia. cbv zeta.
    destruct (Z.eqb_spec (Z.of_nat i) (-1)); try lia.
    destruct (Z.leb_spec 0 (Z.of_nat i)); try lia. destruct (Z.ltb_spec (Z.of_nat i) (Z.of_nat (length (fb_filters b)))); try lia.
    cbn [andb]. rewrite Nat2Z.id. apply S. intros f. apply in_delete.
  - intros o d Hn1 HL HN HR. unfold fb_swap. rewrite HL. destruct (Nat.eqb_spec (length (fb_filters b)) 1); try lia.
    rewrite Nat.eqb_refl. cbn [negb].
    assert (E1 : forallb (fun z => (z <? Z.of_nat (length (fb_filters b))) && (0 <=? z))%Z o = true).
    { apply forallb_forall. intros z Hz. apply HR in Hz. apply andb_true_iff. rewrite Z.ltb_lt, Z.leb_le. lia. }
    rewrite E1. cbn [negb]. assert (E2 : znodup o = true) by now apply znodup_spec. rewrite E2. cbn [negb].
    destruct (fb_filters b) as [|f0 t] eqn:El.
    + destruct o; [|discriminate]. apply S. easy.
    + destruct (S (select (map Z.to_nat o) f0 (f0 :: t))) as [b2 [E3 E4]].
      { intros f. apply in_select. now left. }
      exists b2. split; auto. rewrite E4. unfold select. rewrite map_map. apply map_ext_in. intros z Hz. apply nth_indep.
      apply HR in Hz. lia.
Qed.
Print Assumptions C23_edits.

(** Assigning filters of different rates is rejected, but the bank's rate has been replaced. *)
Theorem C23_rejected_assignment_changes_rate_refuted :
  exists b l b' e, rate_consistent b /\ fb_set l b = (b', Some e) /\ fb_filters b' = fb_filters b /\ ~ rate_consistent b'.
Proof.
  exists (mkBank true (ROne 48000) [gain2]), [mkFilt 44100 (fun x => x); gain2]. do 2 eexists. split.
  { intros _ f [<-|[]]. reflexivity. }
  split; [reflexivity|]. split; [reflexivity|]. intros H. specialize (H eq_refl gain2 (or_introl eq_refl)). discriminate.
Qed.
Print Assumptions C23_rejected_assignment_changes_rate_refuted.

(** A bank created with same_sampling_rate = False refuses every Signal. *)
Theorem C23_multirate_parallel_refuted :
  forall b s l, fb_rate b = RMany l -> fb_parallel b s = Err AssertionError.
Proof. intros b s l H. unfold fb_parallel, fb_rate_ok. now rewrite H. Qed.
Print Assumptions C23_multirate_parallel_refuted.

(** Transfer functions: product in sequential mode; in summed mode the returned value is the sum plus one. *)
Theorem C23_transfer_function_sequential :
  forall (A : Type) (HA : CRing A) (h : list A), tf_sequential h = fold_right rmul r1 h.
Proof.
  intros. unfold tf_sequential.
  assert (G : forall l acc, fold_left (fun a v : A => a *! v) l acc = acc *! fold_right rmul r1 l).
  { induction l; intros; simpl. now rewrite (Rmul_comm (@rth A HA)), (Rmul_1_l (@rth A HA)).
    rewrite IHl. symmetry. apply (Rmul_assoc (@rth A HA)). }
  rewrite G. apply (Rmul_1_l (@rth A HA)).
Qed.
Print Assumptions C23_transfer_function_sequential.
Theorem C23_transfer_function_summed_refuted :
  forall (A : Type) (HA : CRing A) (h : list A), tf_summed h = r1 +! fold_right radd r0 h.
Proof.
  intros. unfold tf_summed. generalize (r1 : A). induction h; intros; simpl.
  - now rewrite (Radd_comm (@rth A HA)), (Radd_0_l (@rth A HA)).
  - rewrite IHh. symmetry. apply (Radd_assoc (@rth A HA)).
Qed.
Print Assumptions C23_transfer_function_summed_refuted.

Example C23_example :
  let s := mkSig [[1;2];[3;4]]%R None 1%R false 48000 in
  let b := mkBank true (ROne 48000) [rev_filt; gain2] in
  sig_ok s 2 2 /\ bank_fits b s /\ rate_consistent b /\
  (exists out, fb_sequential b s = Ok out /\ s_re out = [[2*2;2*1];[2*4;2*3]]%R) /\
  (exists out, fb_parallel b s = Ok out /\ map s_re out = [[[2;1];[4;3]];[[2*1;2*2];[2*3;2*4]]]%R) /\
  tf_summed [5;7]%Z = 13%Z.
Proof.
  cbv zeta. split. { constructor; simpl; auto; try discriminate. split; [reflexivity|repeat constructor]. }
  split. { split; auto. split; auto. intros f [<-|[<-|[]]]; split; auto; intros col; simpl.
    apply rev_length. apply map_length. }
  split. { intros _ f [<-|[<-|[]]]; reflexivity. }
  split. { eexists. split; reflexivity. }
  split. { eexists. split; reflexivity. } reflexivity.
Qed.
