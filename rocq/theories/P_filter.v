(** Proofs about filtering with state, filter banks and multi-band signals. *)
From Coq Require Import List Arith Lia ZArith Bool Reals Lra.
From Verif Require Import Alg Spec M_arrays M_signal M_filter P_realtime P_arrays P_arrays2 P_signal.
Import ListNotations.
Local Open Scope nat_scope.

Section FiltP.
Context {A : Type} {HA : CRing A}.
Add Ring Aring : (@rth A HA).

Lemma conv_cons (b t : list A) v m : conv b (v :: t) (S m) = conv b t m +! get b (S m) *! v.
Proof.
  unfold conv. change (sum (S (S m)) ?f) with (sum (S m) f +! f (S m)).
  cbv beta. replace (S m - S m) with 0 by lia. change (get (v :: t) 0) with v.
  apply (f_equal (fun q => q +! get b (S m) *! v)).
  apply sum_ext. intros k Hk. replace (S m - k) with (S (m - k)) by lia. reflexivity.
Qed.
Lemma conv_cons0 (b t : list A) v : conv b (v :: t) 0 = get b 0 *! v.
Proof. unfold conv. simpl. change (get (v :: t) 0) with v. ring. Qed.

Lemma lfilter_app (b a x x' z : list A) :
  lfilter b a (x ++ x') z =
  (fst (lfilter b a x z) ++ fst (lfilter b a x' (snd (lfilter b a x z))), snd (lfilter b a x' (snd (lfilter b a x z)))).
Proof.
  revert z. induction x as [|v t IH]; intros z. simpl. now destruct (lfilter b a x' z).
  cbn [app lfilter]. destruct (lf_sample b a z v) as [y z1]. rewrite IH.
  destruct (lfilter b a t z1) as [ys z2]. reflexivity.
Qed.
Lemma lfilter_length (b a x z : list A) : length (fst (lfilter b a x z)) = length x.
Proof.
  revert z. induction x as [|v t IH]; intros z; auto. cbn [lfilter]. destruct (lf_sample b a z v) as [y z1].
  specialize (IH z1). destruct (lfilter b a t z1). simpl in *. now rewrite IH.
Qed.
Lemma lfilter_zlen (b a x z : list A) : length (snd (lfilter b a x z)) = length z.
Proof.
  revert z. induction x as [|v t IH]; intros z; auto. cbn [lfilter]. unfold lf_sample.
  match goal with |- context [lfilter b a t ?w] => set (z1 := w) end.
  specialize (IH z1). destruct (lfilter b a t z1). simpl in *. rewrite IH. unfold z1. apply mk_length.
Qed.

Lemma lfilter_diff (b a x z : list A) : get a 0 = r1 -> length b <= S (length z) -> length a <= S (length z) ->
  diff_eq_from z b a x (fst (lfilter b a x z)).
Proof.
  intros Ha Hb Hla. split. apply lfilter_length.
  revert z Hb Hla. induction x as [|v t IH]; intros z Hb Hla n Hn. simpl in Hn; lia.
  cbn [lfilter]. unfold lf_sample. set (y := get b 0 *! v +! get z 0). set (z1 := mk (length z) _).
  specialize (IH z1). destruct (lfilter b a t z1) as [ys z2]. cbn [fst] in *.
  assert (Hz1 : length z1 = length z) by apply mk_length.
  destruct n as [|m].
  - rewrite !conv_cons0, Ha. unfold y. ring.
  - rewrite !conv_cons. rewrite IH; try lia. 2: simpl in Hn; lia.
    assert (E : get z1 m = get z (S m) +! get b (S m) *! v -! get a (S m) *! y).
    { unfold z1. destruct (Nat.lt_ge_cases m (length z)). now rewrite get_mk.
      rewrite (get_out (mk _ _)) by (rewrite mk_length; lia). rewrite (get_out z), (get_out b), (get_out a) by lia. ring. }
    rewrite E. ring.
Qed.

Lemma get_one_S (m : nat) : get [r1] (S m) = (r0 : A).
Proof. apply get_out. simpl. lia. Qed.

Lemma lfilter_fir_state (b x z : list A) k : length b <= S (length z) -> k < length z ->
  get (snd (lfilter b [r1] x z)) k = conv b x (length x + k) +! get z (length x + k).
Proof.
  revert z k. induction x as [|v t IH]; intros z k Hb Hk.
  - simpl. rewrite conv_nil_r. ring.
  - cbn [lfilter]. unfold lf_sample. set (z1 := mk (length z) _).
    specialize (IH z1 k). destruct (lfilter b [r1] t z1) as [ys z2]. cbn [snd] in *.
    assert (Hz1 : length z1 = length z) by apply mk_length.
    rewrite IH by lia. cbn [length Nat.add]. rewrite conv_cons.
    assert (E : get z1 (length t + k) = get z (S (length t + k)) +! get b (S (length t + k)) *! v).
    { unfold z1. destruct (Nat.lt_ge_cases (length t + k) (length z)). rewrite get_mk by auto. rewrite get_one_S. ring.
      rewrite (get_out (mk _ _)) by (rewrite mk_length; lia). rewrite (get_out z), (get_out b) by lia. ring. }
    rewrite E. ring.
Qed.

Lemma fir_is_lfilter (b x z : list A) : 2 <= length b -> x <> [] -> length z = length b - 1 ->
  lfilter_fir_zi b x z = Ok (lfilter b [r1] x z).
Proof.
  intros Hb Hx Hz. rewrite lfilter_fir_zi_eq by auto. f_equal.
  pose proof (lfilter_diff b [r1] x z eq_refl) as [HL HD]; try (simpl; lia).
  pose proof (lfilter_zlen b [r1] x z) as HZ.
  pose proof (fun k => lfilter_fir_state b x z k) as HS.
  destruct (lfilter b [r1] x z) as [y zf]. cbn [fst snd] in *. f_equal.
  - apply get_ext. now rewrite mk_length. intros n Hn. rewrite mk_length in Hn. rewrite get_mk by auto.
    rewrite <- HD by auto. unfold conv. rewrite (sum_single _ 0); try lia.
    + rewrite Nat.sub_0_r. change (get [r1] 0) with (r1 : A). ring.
    + intros i Hi Hne. destruct i; [lia|]. rewrite get_one_S. ring.
  - apply get_ext. rewrite mk_length. lia. intros k Hk. rewrite mk_length in Hk. rewrite get_mk by auto. symmetry. apply HS; lia.
Qed.

Definition fir_ok (is_fir : bool) (b a : list A) : Prop := is_fir = true -> a = [r1] /\ 2 <= length b.

Lemma ba_core_eq is_fir (b a x z : list A) : fir_ok is_fir b a -> x <> [] -> length z = lf_order b a ->
  ba_core is_fir b a x z = Ok (lfilter b a x z).
Proof.
  intros Hf Hx Hz. unfold ba_core. destruct is_fir.
  - destruct (Hf eq_refl) as [-> H2]. apply fir_is_lfilter; auto. rewrite Hz. unfold lf_order. simpl. lia.
  - rewrite Hz, Nat.eqb_refl. reflexivity.
Qed.

Lemma all_ok_map {T U} (f : T -> result U) (g : T -> U) l : (forall v, In v l -> f v = Ok (g v)) ->
  all_ok (map f l) = Ok (map g l).
Proof.
  induction l as [|v t IH]; intros H; auto. simpl. rewrite (H v) by now left. rewrite IH; auto. intros; apply H; now right.
Qed.
Lemma combine_repeat {T U} (l : list T) (v : U) : combine l (repeat v (length l)) = map (fun x => (x, v)) l.
Proof. induction l; simpl; congruence. Qed.

(** one call starting from the states zi (one per channel) *)
Lemma ba_call_from is_fir (b a zi0 : list A) st (td : list (list A)) :
  fir_ok is_fir b a -> Forall (fun x => x <> []) td ->
  let zi := pick_zi zi0 st (length td) in
  Forall (fun z => length z = lf_order b a) zi -> length zi = length td ->
  ba_call is_fir b a zi0 st td =
    (Some (mk (lf_order b a) (fun j => map (fun p => get (snd (lfilter b a (fst p) (snd p))) j) (combine td zi))),
     Ok (map (fun p => fst (lfilter b a (fst p) (snd p))) (combine td zi))).
Proof.
  intros Hf Hx zi Hz Hl. unfold ba_call. fold zi.
  rewrite (all_ok_map _ (fun p => lfilter b a (fst p) (snd p))).
  - rewrite map_map. f_equal. f_equal. apply mk_ext. intros. now rewrite map_map.
  - intros [x z] Hin. pose proof (in_combine_l _ _ _ _ Hin) as H1. pose proof (in_combine_r _ _ _ _ Hin) as H2.
    rewrite Forall_forall in Hx, Hz. apply ba_core_eq; simpl; auto.
Qed.

Lemma pick_len {Z0} (zi0 : Z0) st n : length (pick_zi zi0 st n) = n.
Proof.
  unfold pick_zi. destruct st as [z|]; [|apply repeat_length]. destruct (Nat.eqb_spec (length z) n); auto. apply repeat_length.
Qed.
Lemma pick_fresh {Z0} (zi0 : Z0) st n : (forall z, st = Some z -> length z <> n) -> pick_zi zi0 st n = repeat zi0 n.
Proof.
  intros H. unfold pick_zi. destruct st as [z|]; auto. destruct (Nat.eqb_spec (length z) n); auto. exfalso. now apply (H z).
Qed.

Lemma ba_stream_lost is_fir (b a zi0 : list A) nch (blocks : list (list (list A))) :
  fir_ok is_fir b a -> length zi0 = lf_order b a -> lf_order b a <> nch ->
  Forall (fun td => length td = nch /\ Forall (fun x => x <> []) td) blocks ->
  stream (ba_call is_fir b a zi0) None blocks =
    map (fun td => Ok (map (fun x => fst (lfilter b a x zi0)) td)) blocks.
Proof.
  intros Hf Hz Hne HB.
  assert (G : forall st, (forall z, st = Some z -> length z <> nch) ->
     stream (ba_call is_fir b a zi0) st blocks = map (fun td => Ok (map (fun x => fst (lfilter b a x zi0)) td)) blocks).
  { induction HB as [|td t [HL HX] HB IH]; intros st Hst; auto. simpl.
    assert (EZ : pick_zi zi0 st (length td) = repeat zi0 (length td)) by (apply pick_fresh; now rewrite HL).
    rewrite ba_call_from; auto.
    - rewrite EZ, combine_repeat, map_map. f_equal. apply IH. intros z E. injection E as <-. now rewrite mk_length.
    - rewrite EZ. apply Forall_forall. intros z Hi. apply repeat_spec in Hi. now subst.
    - apply pick_len. }
  apply G. discriminate.
Qed.

Lemma ba_stream_mono is_fir (b a zi0 : list A) (blocks : list (list A)) :
  fir_ok is_fir b a -> length zi0 = 1 -> lf_order b a = 1 -> Forall (fun x => x <> []) blocks ->
  exists ys, stream (ba_call is_fir b a zi0) None (map (fun x => [x]) blocks) = map (fun y => Ok [y]) ys /\
    map (@length A) ys = map (@length A) blocks /\ concat ys = fst (lfilter b a (concat blocks) zi0).
Proof.
  intros Hf Hz Ho HB.
  assert (G : forall st z, length z = 1 -> pick_zi zi0 st 1 = [z] ->
    exists ys, stream (ba_call is_fir b a zi0) st (map (fun x => [x]) blocks) = map (fun y => Ok [y]) ys /\
    map (@length A) ys = map (@length A) blocks /\ concat ys = fst (lfilter b a (concat blocks) z)).
  { induction HB as [|x t Hx HB IH]; intros st z Hlz Hp. exists []. auto.
    simpl. rewrite ba_call_from; auto.
    - cbn [length]. rewrite Hp. cbn [combine map fst snd].
      destruct (IH (Some (mk (lf_order b a) (fun j => [get (snd (lfilter b a x z)) j]))) (snd (lfilter b a x z))) as [ys [E1 [E2 E3]]].
      + now rewrite lfilter_zlen.
      + unfold pick_zi. rewrite mk_length, Ho. cbn [Nat.eqb]. unfold mk. simpl.
        pose proof (lfilter_zlen b a x z) as L. destruct (snd (lfilter b a x z)) as [|z0 [|]]; simpl in *; try lia. reflexivity.
      + exists (fst (lfilter b a x z) :: ys). cbn [map concat]. rewrite E1, E2, lfilter_length, lfilter_app. cbn [fst].
        now rewrite E3.
    - cbn [length]. rewrite Hp. repeat constructor. lia.
    - cbn [length]. now rewrite Hp. }
  apply G; auto.
Qed.

(** second call when the number of channels equals the order: channel c starts from state c of every channel *)
Lemma ba_second_square is_fir (b a zi0 : list A) (td1 td2 : list (list A)) :
  fir_ok is_fir b a -> length zi0 = lf_order b a ->
  length td1 = lf_order b a -> length td2 = lf_order b a ->
  Forall (fun x => x <> []) td1 -> Forall (fun x => x <> []) td2 ->
  stream (ba_call is_fir b a zi0) None [td1; td2] =
    [Ok (map (fun x => fst (lfilter b a x zi0)) td1);
     Ok (mk (length td2) (fun c => fst (lfilter b a (nth c td2 []) (map (fun x => get (snd (lfilter b a x zi0)) c) td1))))].
Proof.
  intros Hf Hz H1 H2 X1 X2.
  assert (HR : Forall (fun z : list A => length z = lf_order b a) (repeat zi0 (length td1))).
  { apply Forall_forall. intros z Hi. apply repeat_spec in Hi. now subst. }
  cbn [stream]. rewrite ba_call_from; auto.
  2:{ unfold pick_zi. apply repeat_length. }
  change (pick_zi zi0 None (length td1)) with (repeat zi0 (length td1)).
  rewrite combine_repeat. rewrite map_map.
  set (st := mk (lf_order b a) _).
  assert (Est : st = mk (lf_order b a) (fun j => map (fun x => get (snd (lfilter b a x zi0)) j) td1)).
  { unfold st. apply mk_ext. intros. now rewrite map_map. }
  assert (EP : pick_zi zi0 (Some st) (length td2) = st).
  { unfold pick_zi. rewrite Est, mk_length, H2, Nat.eqb_refl. reflexivity. }
  rewrite ba_call_from; auto.
  - rewrite EP. f_equal. f_equal. f_equal.
    apply (list_eq_nth []). rewrite map_length, combine_length, mk_length, Est, mk_length. lia.
    intros c Hc. rewrite map_length, combine_length in Hc. rewrite nth_mk by lia.
    rewrite (nth_map' _ _ c ([], [])) by (rewrite combine_length; lia).
    rewrite combine_nth by (rewrite Est, mk_length; lia). cbn [fst snd].
    f_equal. f_equal. rewrite Est, nth_mk by lia. reflexivity.
  - rewrite EP, Est. apply Forall_forall. intros z Hi. apply In_nth with (d := []) in Hi. destruct Hi as [j [Hj <-]].
    rewrite mk_length in Hj. rewrite nth_mk by auto. now rewrite map_length.
  - rewrite EP, Est, mk_length. lia.
Qed.

(** *** SOS *)
Lemma sosfilt_zlen (sos : list (list A * list A)) x z : length (snd (sosfilt sos x z)) = length sos.
Proof.
  revert x z. induction sos as [|[b a] t IH]; intros x z; auto. simpl.
  destruct (lfilter b a x (hd [] z)) as [y z1]. specialize (IH y (tl z)). destruct (sosfilt t y (tl z)). simpl in *. now rewrite IH.
Qed.

Definition sos_zero_state (n : nat) (zi0 : list (list A)) : Prop := zi_shape_ok n zi0 = true.

Lemma sos_call_fresh sos (zi0 : list (list A)) st (td : list (list A)) :
  zi_shape_ok (length sos) zi0 = true -> (forall z, st = Some z -> length z <> length td) ->
  exists st', sos_call sos zi0 st td = (Some st', Ok (map (fun x => fst (sosfilt sos x zi0)) td)) /\
    length st' = length sos /\ Forall (fun r => length r = 2 /\ Forall (fun q => length q = length td) r) st'.
Proof.
  intros Hz Hst. unfold sos_call. rewrite pick_fresh by auto.
  assert (E : forallb (zi_shape_ok (length sos)) (repeat zi0 (length td)) = true).
  { apply forallb_forall. intros z Hi. apply repeat_spec in Hi. now subst. }
  rewrite E. cbn [negb]. rewrite combine_repeat, !map_map. eexists. split; [reflexivity|].
  rewrite mk_length. split; auto. apply Forall_forall. intros r Hr.
  apply In_nth with (d := []) in Hr. destruct Hr as [j [Hj <-]]. rewrite mk_length in Hj. rewrite nth_mk by auto.
  rewrite mk_length. split; auto. apply Forall_forall. intros q Hq. apply In_nth with (d := []) in Hq.
  destruct Hq as [i [Hi <-]]. rewrite mk_length in Hi. rewrite nth_mk by auto. now rewrite !map_length.
Qed.

Lemma sos_stream_lost sos (zi0 : list (list A)) nch blocks :
  zi_shape_ok (length sos) zi0 = true -> length sos <> nch -> Forall (fun td => length td = nch) blocks ->
  stream (sos_call sos zi0) None blocks = map (fun td => Ok (map (fun x => fst (sosfilt sos x zi0)) td)) blocks.
Proof.
  intros Hz Hne HB.
  assert (G : forall st, (forall z, st = Some z -> length z <> nch) ->
    stream (sos_call sos zi0) st blocks = map (fun td => Ok (map (fun x => fst (sosfilt sos x zi0)) td)) blocks).
  { induction HB as [|td t HL HB IH]; intros st Hst; auto. simpl.
    destruct (sos_call_fresh sos zi0 st td Hz) as [st' [E [H1 _]]]. now rewrite HL.
    rewrite E. f_equal. apply IH. intros z Ez. injection Ez as <-. lia. }
  apply G. discriminate.
Qed.

(** channels = sections, but not two: every call after the first raises *)
Lemma sos_stream_raises sos (zi0 : list (list A)) nch td blocks :
  zi_shape_ok (length sos) zi0 = true -> length sos = nch -> nch <> 2 -> 0 < nch ->
  length td = nch -> Forall (fun td => length td = nch) blocks ->
  stream (sos_call sos zi0) None (td :: blocks) =
    Ok (map (fun x => fst (sosfilt sos x zi0)) td) :: map (fun _ => Err ValueError) blocks.
Proof.
  intros Hz Hn H2 Hp Htd HB. simpl.
  destruct (sos_call_fresh sos zi0 None td Hz) as [st' [E [H1 H3]]]. discriminate.
  rewrite E. f_equal. clear E.
  assert (Hbad : forallb (zi_shape_ok (length sos)) st' = false).
  { destruct st' as [|r t]; [simpl in H1; lia|]. apply Forall_inv in H3. destruct H3 as [H5 _].
    simpl. unfold zi_shape_ok at 1. rewrite H5. destruct (Nat.eqb_spec 2 (length sos)); [lia|]. reflexivity. }
  induction HB as [|td' t HL HB IH]; auto. simpl.
  assert (ES : sos_call sos zi0 (Some st') td' = (Some st', Err ValueError)).
  { unfold sos_call. assert (EP : pick_zi zi0 (Some st') (length td') = st').
    { unfold pick_zi. destruct (Nat.eqb_spec (length st') (length td')); auto. lia. }
    rewrite EP, Hbad. reflexivity. }
  rewrite ES. f_equal. exact IH.
Qed.
End FiltP.

(** ** filter_channels *)
Lemma resolve_in n sel ks c : Forall2 (fun z k => py_index n z = Some k) sel ks -> c < n ->
  (In c ks <-> exists z, In z sel /\ (z = Z.of_nat c \/ z + Z.of_nat n = Z.of_nat c)%Z).
Proof.
  intros ER Hc. split.
  - intros Hi. induction ER as [|z k zs ks E ER IH]; [easy|]. destruct Hi as [->|Hi].
    + exists z. split; [now left|]. unfold py_index in E. destruct (Z.leb_spec 0 z).
      * destruct (Z.ltb_spec z (Z.of_nat n)); inversion E; lia.
      * destruct (Z.leb_spec (- Z.of_nat n) z); inversion E; lia.
    + destruct IH as [z' [H1 H2]]; auto. exists z'. split; auto. now right.
  - intros [z [Hz E]]. induction ER as [|z' k zs ks E' ER IH]; [easy|]. destruct Hz as [->|Hz].
    + left. unfold py_index in E'. destruct (Z.leb_spec 0 z).
      * destruct (Z.ltb_spec z (Z.of_nat n)); inversion E'; lia.
      * destruct (Z.leb_spec (- Z.of_nat n) z); inversion E'; lia.
    + right. now apply IH.
Qed.

Lemma py_index_some n z : (- Z.of_nat n <= z < Z.of_nat n)%Z -> exists k, py_index n z = Some k.
Proof.
  intros H. unfold py_index. destruct (Z.leb_spec 0 z).
  - destruct (Z.ltb_spec z (Z.of_nat n)); [eauto|lia].
  - destruct (Z.leb_spec (- Z.of_nat n) z); [eauto|lia].
Qed.

Definition selb (n : nat) (sel : list Z) (c : nat) : bool :=
  existsb (fun z => (z =? Z.of_nat c)%Z || (z + Z.of_nat n =? Z.of_nat c)%Z) sel.

Lemma filter_channels_eq flt chs s n k : sig_ok s n k -> (forall col, length (flt col) = length col) ->
  let sel := match chs with None => map Z.of_nat (seq 0 k) | Some l => l end in
  sel <> [] -> (forall z, In z sel -> (- Z.of_nat k <= z < Z.of_nat k)%Z) ->
  filter_channels flt chs s =
    set_data s (mkIn (mk k (fun c => if selb k sel c then flt (nth c (s_re s) []) else nth c (s_re s) [])) None false).
Proof.
  intros Hok Hfl sel Hs HR. unfold filter_channels. rewrite (nc s n k Hok). fold sel. clearbody sel.
  assert (E1 : forallb (fun z => (z <? Z.of_nat k)%Z) sel = true).
  { apply forallb_forall. intros z Hz. apply Z.ltb_lt. apply HR in Hz. lia. }
  rewrite E1. cbn [negb]. destruct sel as [|z0 sel'] eqn:Esel; [easy|]. rewrite <- Esel in *.
  destruct (resolve_all k sel) as [ks|] eqn:ER.
  2:{ apply resolve_all_none in ER. destruct ER as [z [Hz E]]. apply HR in Hz.
      destruct (py_index_some _ _ Hz). congruence. }
  apply resolve_all_spec in ER. f_equal. f_equal.
  assert (Hks : forall q, In q ks -> q < length (s_re s)).
  { pose proof (ok_re _ _ _ Hok) as [L _]. rewrite L. clear - ER. induction ER as [|z q zs ks E ER IH]; [easy|]. intros q' [<-|Hq]; auto. now apply py_index_lt in E. }
  assert (HL : length (s_re s) = k) by apply Hok.
  apply (list_eq_nth []). rewrite fold_upd_length, mk_length. auto.
  intros c Hc. rewrite fold_upd_length in Hc.
  rewrite (fold_upd_map (A := R) (fun q => flt (nth q (s_re s) []))) by auto.
  rewrite nth_mk by lia. unfold selb.
  assert (HI := resolve_in k sel ks c ER ltac:(lia)).
  destruct (in_dec Nat.eq_dec c ks) as [Hi|Hi], (existsb _ sel) eqn:EX; auto.
  - apply HI in Hi. destruct Hi as [z [Hz Hzc]]. exfalso. assert (existsb (fun z => (z =? Z.of_nat c)%Z || (z + Z.of_nat k =? Z.of_nat c)%Z) sel = true); [|congruence].
    apply existsb_exists. exists z. split; auto. apply orb_true_iff. rewrite !Z.eqb_eq. auto.
  - exfalso. apply Hi, HI. apply existsb_exists in EX. destruct EX as [z [Hz E]]. exists z. split; auto.
    apply orb_true_iff in E. rewrite !Z.eqb_eq in E. auto.
Qed.

Lemma filter_all_eq flt s n k : sig_ok s n k -> (forall col, length (flt col) = length col) ->
  filter_channels flt None s = set_data s (mkIn (map flt (s_re s)) None false).
Proof.
  intros Hok Hfl. rewrite (filter_channels_eq flt None s n k Hok Hfl).
  - f_equal. f_equal. pose proof (ok_re _ _ _ Hok) as [L _]. apply (list_eq_nth []).
    rewrite mk_length, map_length. lia. intros c Hc. rewrite mk_length in Hc. rewrite nth_mk by auto.
    rewrite (nth_map' _ _ c []) by lia.
    assert (E : selb k (map Z.of_nat (seq 0 k)) c = true).
    { apply existsb_exists. exists (Z.of_nat c). split. apply in_map, in_seq. lia. now rewrite Z.eqb_refl. }
    now rewrite E.
  - destruct Hok. destruct k; [lia|]. discriminate.
  - intros z Hz. apply in_map_iff in Hz. destruct Hz as [q [<- Hq]]. apply in_seq in Hq. lia.
Qed.

Lemma shape_map_flt flt m n k : (forall col, length (flt col) = length col) -> shape m n k -> shape (map flt m) n k.
Proof.
  intros Hf [H1 H2]. split. now rewrite map_length. apply Forall_map. eapply Forall_impl; [|exact H2].
  intros c Hc. simpl in *. now rewrite Hf.
Qed.

(** result of filtering all channels of an unconstrained signal *)
Definition filtered (flt : list R -> list R) (s : signal) : signal := mkSig (map flt (s_re s)) None 1%R (s_constr s) (s_fs s).
Lemma filtered_ok flt s n k : (forall col, length (flt col) = length col) -> s_constr s = false -> sig_ok s n k ->
  sig_ok (filtered flt s) n k.
Proof.
  intros Hf Hc [h1 h2 h3 h4 h5 h6 h7]. constructor; simpl; auto; try congruence.
  now apply shape_map_flt.
Qed.
Lemma filter_signal_eq f s n k : sig_ok s n k -> s_constr s = false -> f_fs f = s_fs s ->
  (forall col, length (f_flt f col) = length col) -> filter_signal f None s = Ok (filtered (f_flt f) s).
Proof.
  intros Hok Hc Hfs Hf. unfold filter_signal. rewrite Hfs, Z.eqb_refl. cbn [negb].
  rewrite (filter_all_eq _ s n k) by auto. unfold set_data. pose proof Hok as [h1 h2 h3 h4 h5 h6 h7].
  rewrite (set_identity _ _ _ n k); auto.
  - split; simpl. now apply shape_map_flt. discriminate.
  - congruence.
Qed.

(** ** filter bank *)
Definition fb_inv (b : bank) : Prop := fb_same b = true -> forall f, In f (fb_filters b) -> fb_rate b = ROne (f_fs f).
Definition fb_set_ok (o : fb_op) (b : bank) : Prop :=
  match o with FbSet l => fb_same b = true -> forall f g, In f l -> In g l -> f_fs f = f_fs g | _ => True end.

Lemma forallb_same_fs l f0 : (forall f, In f l -> f_fs f = f_fs f0) -> forallb (fun f => (f_fs f =? f_fs f0)%Z) l = true.
Proof. intros H. apply forallb_forall. intros f Hf. apply Z.eqb_eq. auto. Qed.

Lemma fb_set_same l b : (fb_same b = true -> forall f g, In f l -> In g l -> f_fs f = f_fs g) ->
  exists b', fb_set l b = (b', None) /\ fb_filters b' = l /\ fb_same b' = fb_same b /\ fb_inv b'.
Proof.
  intros H. unfold fb_set. destruct l as [|f0 t].
  - eexists. split; [reflexivity|]. simpl. split; auto. split; auto. intros _ f [].
  - destruct (fb_same b) eqn:E.
    + rewrite forallb_same_fs by (intros; apply H; auto; now left).
      eexists. split; [reflexivity|]. simpl. split; auto. split; auto. intros _ f Hf. simpl. f_equal. apply H; auto. now left.
    + eexists. split; [reflexivity|]. simpl. split; auto. split; auto. intros C. discriminate.
Qed.

Lemma in_firstn' {T} k (y : T) l : In y (firstn k l) -> In y l.
Proof. intros H. rewrite <- (firstn_skipn k l). apply in_app_iff. now left. Qed.
Lemma in_skipn' {T} k (y : T) l : In y (skipn k l) -> In y l.
Proof. intros H. rewrite <- (firstn_skipn k l). apply in_app_iff. now right. Qed.
Lemma in_insert {T} i (x y : T) l : In y (py_insert i x l) -> y = x \/ In y l.
Proof.
  unfold py_insert. rewrite in_app_iff. intros [H|[H|H]]; auto; right.
  - eapply in_firstn'; eauto.
  - eapply in_skipn'; eauto.
Qed.
Lemma in_delete {T} k (y : T) l : In y (delete_at k l) -> In y l.
Proof.
  unfold delete_at. rewrite in_app_iff. intros [H|H].
  - rewrite <- (firstn_skipn k l). apply in_app_iff. now left.
  - rewrite <- (firstn_skipn (S k) l). apply in_app_iff. now right.
Qed.
Lemma in_select {T} ks (d y : T) l : In d l -> In y (select ks d l) -> In y l.
Proof.
  intros Hd H. unfold select in H. apply in_map_iff in H. destruct H as [q [<- _]].
  destruct (nth_in_or_default q l d) as [?|E]; auto. now rewrite E.
Qed.

Lemma fb_step_inv b o : fb_inv b -> fb_set_ok o b ->
  fb_inv (fst (fb_step b o)) /\ (snd (fb_step b o) <> None -> fst (fb_step b o) = b) /\ fb_same (fst (fb_step b o)) = fb_same b.
Proof.
  intros HI HO.
  assert (G : forall l, (fb_same b = true -> forall f g, In f l -> In g l -> f_fs f = f_fs g) ->
     fb_inv (fst (fb_set l b)) /\ (snd (fb_set l b) <> None -> fst (fb_set l b) = b) /\ fb_same (fst (fb_set l b)) = fb_same b).
  { intros l H. destruct (fb_set_same l b H) as [b' [E [_ [E2 E3]]]]. rewrite E. simpl. split; auto. split; auto. easy. }
  assert (S : forall f g, fb_same b = true -> In f (fb_filters b) -> In g (fb_filters b) -> f_fs f = f_fs g).
  { intros f g Hs Hf Hg. pose proof (HI Hs f Hf) as E1. pose proof (HI Hs g Hg) as E2. rewrite E1 in E2. now injection E2. }
  destruct o as [l|f i|i|o]; simpl.
  - apply G. exact HO.
  - unfold fb_add. destruct (fb_filters b) as [|g0 t] eqn:El.
    + unfold fb_set. simpl. destruct (fb_same b) eqn:Es; simpl.
      * rewrite Z.eqb_refl. simpl. split; [|split; auto; easy]. intros _ f' [<-|[]]. reflexivity.
      * split; [|split; auto; easy]. intros C. discriminate.
    + destruct (fb_same b && negb _) eqn:Ec. { simpl. auto. }
      apply G. intros Hs. rewrite Hs in Ec. simpl in Ec. apply negb_false_iff in Ec.
      assert (Ef : forall f', In f' (g0 :: t) -> f_fs f' = f_fs f).
      { intros f' Hf'. rewrite <- El in Hf'. pose proof (HI Hs f' Hf') as E. rewrite E in Ec. now apply Z.eqb_eq in Ec. }
      assert (Ei : forall f', In f' (if (i =? -1)%Z then (g0 :: t) ++ [f] else py_insert i f (g0 :: t)) -> f_fs f' = f_fs f).
      { intros f' Hf'. destruct (i =? -1)%Z.
        - apply in_app_iff in Hf'. destruct Hf' as [Hf'|[<-|[]]]; auto.
        - apply in_insert in Hf'. destruct Hf' as [->|Hf']; auto. }
      intros f1 f2 H1 H2. rewrite (Ei f1 H1), (Ei f2 H2). reflexivity.
  - unfold fb_remove. destruct (length (fb_filters b) =? 0); [simpl; auto|].
    cbv zeta. match goal with |- context [if (?c && ?d)%bool then _ else _] => destruct (c && d) end; [|simpl; auto].
    apply G; intros Hs f g Hf Hg; apply S; auto; eapply in_delete; eauto.
  - unfold fb_swap. destruct (length o =? 1); [simpl; auto|]. destruct (negb _); [simpl; auto|].
    destruct (negb _); [simpl; auto|]. destruct (negb _); [simpl; auto|].
    destruct (fb_filters b) as [|f0 t] eqn:El.
    + apply G. intros _ f g [].
    + apply G. intros Hs f g Hf Hg. apply S; auto; eapply in_select; eauto; now left.
Qed.

(** ** multi-band *)
Definition mb_inv (m : mband) : Prop :=
  forall s, In s (mb_bands m) -> ncols (s_re s) = mb_nch m /\
    forall s', In s' (mb_bands m) -> is_some (s_im s) = is_some (s_im s') /\
      (mb_same m = true -> mb_rate m = ROne (s_fs s) /\ nrows (s_re s) = nrows (s_re s')).
Definition bands_match (same : bool) (l : list signal) : Prop :=
  forall s s', In s l -> In s' l -> ncols (s_re s) = ncols (s_re s') /\ is_some (s_im s) = is_some (s_im s') /\
    (same = true -> s_fs s = s_fs s' /\ nrows (s_re s) = nrows (s_re s')).

Lemma mb_set_ok l m : bands_match (mb_same m) l ->
  exists m', mb_set l m = (m', None) /\ mb_bands m' = l /\ mb_same m' = mb_same m /\ mb_inv m'.
Proof.
  intros H. unfold mb_set. destruct l as [|s0 t].
  - eexists. split; [reflexivity|]. simpl. split; auto. split; auto. intros s [].
  - assert (E : forallb (fun s => (ncols (s_re s) =? ncols (s_re s0)) && Bool.eqb (is_some (s_im s)) (is_some (s_im s0))) (s0 :: t) = true).
    { apply forallb_forall. intros s Hs. destruct (H s s0 Hs (or_introl eq_refl)) as [H1 [H2 _]].
      rewrite H1, H2, Nat.eqb_refl. simpl. apply Bool.eqb_reflx. }
    rewrite E. cbn [negb]. destruct (mb_same m) eqn:Es.
    + assert (E2 : forallb (fun s => (s_fs s =? s_fs s0)%Z && (nrows (s_re s) =? nrows (s_re s0))) (s0 :: t) = true).
      { apply forallb_forall. intros s Hs. destruct (H s s0 Hs (or_introl eq_refl)) as [_ [_ H3]].
        destruct (H3 eq_refl) as [-> ->]. now rewrite Z.eqb_refl, Nat.eqb_refl. }
      rewrite E2. eexists. split; [reflexivity|]. simpl. split; auto. split; auto.
      intros s Hs. simpl in *. split. { apply (H s s0); auto. now left. }
      intros s' Hs'. destruct (H s s' Hs Hs') as [H1 [H2 H3]]. split; auto. intros _. split.
      * f_equal. symmetry. apply (H s s0); auto. now left.
      * now apply H3.
    + eexists. split; [reflexivity|]. simpl. split; auto. split; auto.
      intros s Hs. simpl in *. split. { apply (H s s0); auto. now left. }
      intros s' Hs'. destruct (H s s' Hs Hs') as [H1 [H2 H3]]. split; auto. discriminate.
Qed.

Lemma mb_set_err l m m' e : mb_set l m = (m', Some e) -> ~ bands_match (mb_same m) l.
Proof. intros E H. destruct (mb_set_ok l m H) as [m2 [E2 _]]. rewrite E in E2. discriminate. Qed.
Lemma mb_set_bands l m : mb_bands (fst (mb_set l m)) = match snd (mb_set l m) with None => l | Some _ => mb_bands m end.
Proof.
  unfold mb_set. destruct l; auto. destruct (negb _); auto. destruct (mb_same m); auto. destruct (forallb _ _); auto.
Qed.
Lemma mb_set_none l m m' : mb_set l m = (m', None) -> bands_match (mb_same m) l.
Proof.
  unfold mb_set. destruct l as [|s0 t]. { intros _ s s' []. }
  destruct (forallb _ (s0 :: t)) eqn:E1; cbn [negb]; [|discriminate].
  intros E. assert (C : mb_same m = true -> forallb (fun s => (s_fs s =? s_fs s0)%Z && (nrows (s_re s) =? nrows (s_re s0))) (s0 :: t) = true).
  { intros Hs. rewrite Hs in E. destruct (forallb _ (s0 :: t)) eqn:E2 in E; [exact E2|discriminate]. }
  intros s s' Hs Hs'. rewrite forallb_forall in E1.
  pose proof (E1 s Hs) as A1. pose proof (E1 s' Hs') as A2. apply andb_true_iff in A1, A2.
  destruct A1 as [A1 B1], A2 as [A2 B2]. apply Nat.eqb_eq in A1, A2. apply Bool.eqb_prop in B1, B2.
  split; [congruence|]. split; [congruence|]. intros Es. specialize (C Es). rewrite forallb_forall in C.
  pose proof (C s Hs) as C1. pose proof (C s' Hs') as C2. apply andb_true_iff in C1, C2.
  destruct C1 as [C1 D1], C2 as [C2 D2]. apply Z.eqb_eq in C1, C2. apply Nat.eqb_eq in D1, D2. split; congruence.
Qed.

(** entry-wise sums of the bands *)
Lemma shape_madd x y n k : shape x n k -> shape (madd x y) n k.
Proof.
  intros [H1 H2]. unfold madd. split. now rewrite mk_length. apply Forall_forall. intros col Hc.
  apply In_nth with (d := []) in Hc. destruct Hc as [c [Hc <-]]. rewrite mk_length in Hc. rewrite nth_mk, mk_length by auto.
  rewrite Forall_forall in H2. apply H2, nth_In. auto.
Qed.
Lemma entry_madd x y n k i c : shape x n k -> i < n -> c < k -> entry (madd x y) i c = (entry x i c + entry y i c)%R.
Proof.
  intros H Hi Hc. pose proof (shape_col _ _ _ c H Hc) as HL. destruct H as [H1 H2]. unfold madd, entry.
  rewrite nth_mk by lia. unfold get. rewrite nth_mk by lia. reflexivity.
Qed.
Definition sum_list (l : list R) : R := fold_right Rplus 0%R l.
Lemma fold_madd (T : Type) (g : T -> mat) (l : list T) acc n k : shape acc n k ->
  shape (fold_left (fun acc s => madd acc (g s)) l acc) n k /\
  forall i c, i < n -> c < k -> entry (fold_left (fun acc s => madd acc (g s)) l acc) i c =
    (entry acc i c + sum_list (map (fun s => entry (g s) i c) l))%R.
Proof.
  revert acc. induction l as [|s t IH]; intros acc H.
  - split; auto. intros. simpl. lra.
  - simpl. destruct (IH (madd acc (g s))) as [S1 S2]. now apply shape_madd. split; auto.
    intros i c Hi Hc. rewrite S2 by auto. rewrite (entry_madd _ _ n k) by auto. lra.
Qed.
Lemma fold_madd_im (l : list signal) : forall acc n k, (forall s, In s l -> exists im, s_im s = Some im) -> shape acc n k ->
  let r := fold_left (fun acc s => match s_im s with Some i => madd acc i | None => acc end) l acc in
  shape r n k /\
  forall i c, i < n -> c < k -> entry r i c =
    (entry acc i c + sum_list (map (fun s => entry (match s_im s with Some m => m | None => [] end) i c) l))%R.
Proof.
  induction l as [|s t IH]; intros acc n k HS H.
  - simpl. split; auto. intros. simpl. lra.
  - destruct (HS s (or_introl eq_refl)) as [im E]. simpl. rewrite E.
    destruct (IH (madd acc im) n k) as [S1 S2]. { intros; apply HS; now right. } { now apply shape_madd. }
    split; auto. intros i c Hi Hc. rewrite S2 by auto. rewrite (entry_madd _ _ n k) by auto. lra.
Qed.
Lemma shape_zero m n k : shape m n k -> shape (map (fun col : list R => map (fun _ => 0%R) col) m) n k.
Proof.
  intros [H1 H2]. split. now rewrite map_length. apply Forall_map. eapply Forall_impl; [|exact H2]. simpl. intros. now rewrite map_length.
Qed.
Lemma entry_zero m n k i c : shape m n k -> i < n -> c < k -> entry (map (fun col : list R => map (fun _ => 0%R) col) m) i c = 0%R.
Proof.
  intros H Hi Hc. pose proof (shape_col _ _ _ c H Hc) as HL. unfold entry. rewrite (nth_map' _ _ c []) by (destruct H; lia).
  rewrite (nth_map' _ _ i 0%R) by lia. reflexivity.
Qed.

Lemma collapse_real owns m b0 rest n k : mb_bands m = b0 :: rest -> mb_same m = true ->
  sig_ok b0 n k -> s_im b0 = None -> s_constr b0 = false ->
  exists out re0, collapse owns m = Ok (out, mkMB true (mb_nch m) (mb_rate m) (set_re b0 re0 :: rest)) /\
    s_im out = None /\ shape (s_re out) n k /\ re0 = s_re out /\
    forall i c, i < n -> c < k -> entry (s_re out) i c = sum_list (map (fun s => entry (s_re s) i c) (b0 :: rest)).
Proof.
  intros Hb Hs Hok Him Hc. unfold collapse. rewrite Hs, Hb, Him. cbn [negb]. cbv zeta.
  pose proof Hok as [h1 h2 h3 h4 h5 h6 h7].
  destruct (fold_madd signal s_re rest (s_re b0) n k h4) as [S1 S2].
  set (total := fold_left _ rest (s_re b0)) in *.
  unfold set_data. rewrite (set_identity _ _ _ n k); auto.
  - cbn [bind]. eexists _, _. split; [destruct owns; reflexivity|]. simpl. auto 10.
  - split; auto. discriminate.
  - congruence.
Qed.

Lemma collapse_complex owns m b0 rest n k im0 : mb_bands m = b0 :: rest -> mb_same m = true ->
  sig_ok b0 n k -> s_im b0 = Some im0 -> s_constr b0 = false ->
  (forall s, In s rest -> exists im, s_im s = Some im) ->
  exists out im, collapse owns m = Ok (out, m) /\
    s_im out = Some im /\ shape (s_re out) n k /\ shape im n k /\
    forall i c, i < n -> c < k -> entry (s_re out) i c = sum_list (map (fun s => entry (s_re s) i c) (b0 :: rest)) /\
      entry im i c = sum_list (map (fun s => entry (match s_im s with Some m => m | None => [] end) i c) (b0 :: rest)).
Proof.
  intros Hb Hs Hok Him Hc HI. unfold collapse. rewrite Hs, Hb, Him. cbn [negb]. cbv zeta.
  pose proof Hok as [h1 h2 h3 h4 h5 h6 h7].
  pose proof (shape_zero _ _ _ h4) as SZ.
  destruct (fold_madd signal s_re (b0 :: rest) _ n k SZ) as [S1 S2].
  destruct (fold_madd_im (b0 :: rest) _ n k ltac:(intros s [<-|Hi]; eauto) SZ) as [T1 T2].
  unfold set_data. rewrite (set_identity _ _ _ n k); auto.
  - cbn [bind]. eexists _, _. split; [reflexivity|]. split; [reflexivity|]. split; auto. split; auto.
    intros i c Hi Hcc. split.
    + simpl s_re. rewrite S2 by auto. rewrite (entry_zero _ n k) by auto. apply Rplus_0_l.
    + rewrite T2 by auto. rewrite (entry_zero _ n k) by auto. apply Rplus_0_l.
  - split; auto. intros im E. injection E as <-. exact T1.
  - congruence.
Qed.
