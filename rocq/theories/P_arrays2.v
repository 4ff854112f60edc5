(** Proofs about framing, overlap-add, delay and trimming. *)
From Coq Require Import List Arith Lia ZArith Ring Bool.
From Verif Require Import Alg Spec M_arrays P_realtime P_arrays.
Import ListNotations.
Local Open Scope nat_scope.

Lemma ceil_div_nat (a s : nat) : 0 < s -> ceil_div (Z.of_nat a) (Z.of_nat s) = Z.of_nat ((a + (s - 1)) / s).
Proof.
  intros Hs. unfold ceil_div.
  pose proof (Nat.div_mod (a + (s - 1)) s ltac:(lia)).
  pose proof (Nat.mod_upper_bound (a + (s - 1)) s ltac:(lia)).
  assert (E : (- Z.of_nat a / Z.of_nat s = - Z.of_nat ((a + (s - 1)) / s))%Z).
  { symmetry. apply (Z.div_unique _ _ _ (Z.of_nat (s - 1) - Z.of_nat ((a + (s - 1)) mod s))).
    left; lia. nia. }
  rewrite E. lia.
Qed.

Lemma ceil_div_neg (a s : nat) : 0 < s -> 0 < a -> ceil_div (- Z.of_nat a) (Z.of_nat s) = (- Z.of_nat (a / s))%Z.
Proof. intros. unfold ceil_div. rewrite Z.opp_involutive. now rewrite Nat2Z.inj_div. Qed.

Section Frames.
Context {A : Type} {HA : CRing A}.
Add Ring fr_ring : (@rth A HA).

Lemma frames_ok (w s n : nat) (td : list A) :
  (forall i, i < n -> i * s + w <= length td) ->
  forallb (fun f => length f =? w) (mk n (fun i => firstn w (skipn (i * s) td))) = true.
Proof.
  intros H. apply forallb_forall. intros f Hf.
  apply (In_nth _ _ []) in Hf. destruct Hf as [i [Hi E]]. rewrite mk_length in Hi.
  rewrite nth_mk in E by auto. subst f. apply Nat.eqb_eq.
  rewrite firstn_length, skipn_length. specialize (H i Hi). lia.
Qed.

(** What both variants return: n frames whose samples are those of the signal (zero outside). *)
Definition frames_of (w s n : nat) (v : list A) (frames : list (list A)) : Prop :=
  length frames = n /\
  forall i, i < n -> length (nth i frames []) = w /\
    forall k, k < w -> get (nth i frames []) k = get v (i * s + k).

Lemma framed_keep w s (v : list A) : 0 < s ->
  exists frames, framed w s true v = Ok frames /\
    frames_of w s ((length v + (s - 1)) / s) v frames.
Proof.
  intros Hs. unfold framed, number_frames. rewrite ceil_div_nat by auto.
  set (n := (length v + (s - 1)) / s).
  destruct (Z.ltb_spec (Z.of_nat n) 0); try lia.
  rewrite Nat2Z.id.
  assert (Ep : Z.to_nat (Z.of_nat (length v) + (Z.of_nat w - Z.of_nat (length v) mod Z.of_nat s))
               = length v - length v mod s + w).
  { rewrite <- Nat2Z.inj_mod. pose proof (Nat.mod_le (length v) s ltac:(lia)). lia. }
  rewrite Ep. set (td := pad_trim_col _ true v).
  assert (Hl : length td = length v - length v mod s + w) by apply pad_trim_length.
  assert (Hn : forall i, i < n -> i * s + w <= length td).
  { intros i Hi. rewrite Hl. unfold n in Hi.
    pose proof (Nat.div_mod (length v) s ltac:(lia)) as D.
    pose proof (Nat.mod_upper_bound (length v) s ltac:(lia)).
    pose proof (Nat.div_mod (length v + (s - 1)) s ltac:(lia)) as D'.
    pose proof (Nat.mod_upper_bound (length v + (s - 1)) s ltac:(lia)).
    assert (S i * s <= length v + (s - 1)) by nia.
    assert (i * s <= length v) by nia.
    assert (i <= length v / s) by (apply Nat.div_le_lower_bound; lia).
    nia. }
  rewrite frames_ok by auto. eexists. split; [reflexivity|].
  split; [apply mk_length|]. intros i Hi. specialize (Hn i Hi). rewrite nth_mk by auto. split.
  - rewrite firstn_length, skipn_length. lia.
  - intros k Hk. rewrite get_firstn. destruct (Nat.ltb_spec k w); try lia.
    rewrite get_skipn. unfold td. rewrite pad_trim_end by lia. reflexivity.
Qed.

Lemma framed_full w s (v : list A) : 0 < s -> w <= length v ->
  exists frames, framed w s false v = Ok frames /\
    frames_of w s ((length v - w + (s - 1)) / s) v frames.
Proof.
  intros Hs Hw. unfold framed, number_frames.
  replace (Z.of_nat (length v) - Z.of_nat w)%Z with (Z.of_nat (length v - w)) by lia.
  rewrite ceil_div_nat by auto.
  set (n := (length v - w + (s - 1)) / s).
  destruct (Z.ltb_spec (Z.of_nat n) 0); try lia.
  rewrite Nat2Z.id, Z.add_0_r, Nat2Z.id.
  assert (Et : pad_trim_col (length v) true v = v) by (unfold pad_trim_col; now rewrite Nat.eqb_refl).
  rewrite Et.
  assert (Hn : forall i, i < n -> i * s + w <= length v).
  { intros i Hi. unfold n in Hi.
    pose proof (Nat.div_mod (length v - w + (s - 1)) s ltac:(lia)) as D'.
    assert (S i * s <= length v - w + (s - 1)) by nia. lia. }
  rewrite frames_ok by auto. eexists. split; [reflexivity|].
  split; [apply mk_length|]. intros i Hi. specialize (Hn i Hi). rewrite nth_mk by auto. split.
  - rewrite firstn_length, skipn_length. lia.
  - intros k Hk. rewrite get_firstn. destruct (Nat.ltb_spec k w); try lia.
    rewrite get_skipn. reflexivity.
Qed.

Lemma framed_short w s (v : list A) : 0 < s -> length v < w ->
  framed w s false v = if w - length v <? s then Ok [] else Err ValueError.
Proof.
  intros Hs Hw. unfold framed, number_frames.
  replace (Z.of_nat (length v) - Z.of_nat w)%Z with (- Z.of_nat (w - length v))%Z by lia.
  rewrite ceil_div_neg by lia.
  destruct (Nat.ltb_spec (w - length v) s).
  - rewrite Nat.div_small by lia. reflexivity.
  - pose proof (Nat.div_str_pos (w - length v) s ltac:(lia)).
    destruct (Z.ltb_spec (- Z.of_nat ((w - length v) / s)) 0); try lia. reflexivity.
Qed.

(** ** overlap-add *)
Lemma ola_step_len (td : list A) a w : a + w <= length td ->
  length (py_slice td (Z.of_nat a) (Z.of_nat (a + w))) = w.
Proof.
  intros. unfold py_slice, py_bound.
  destruct (Z.ltb_spec (Z.of_nat a) 0); try lia. destruct (Z.ltb_spec (Z.of_nat (a + w)) 0); try lia.
  rewrite !Nat2Z.id, firstn_length, skipn_length. lia.
Qed.

Definition covers (s w k i : nat) : bool := (i * s <=? k) && (k <? i * s + w).

Lemma overlap_add_eq s w (frames : list (list A)) total :
  (forall i, i < length frames -> i * s + w <= total) ->
  overlap_add s w frames total = Ok (mk total (fun k =>
     sum (length frames) (fun i => if covers s w k i then get (nth i frames []) (k - i * s) else r0))).
Proof.
  intros H. unfold overlap_add. revert H. generalize (length frames). intros n H.
  assert (G : forall m, m <= n ->
    fold_left (fun r i => bind r (fun td =>
               if length (py_slice td (Z.of_nat (i * s)) (Z.of_nat (i * s + w))) =? w
               then Ok (mk (length td) (fun k =>
                 if (i * s <=? k) && (k <? i * s + w)
                 then get td k +! get (nth i frames []) (k - i * s) else get td k))
               else Err ValueError)) (seq 0 m) (Ok (repeat r0 total))
    = Ok (mk total (fun k => sum m (fun i => if covers s w k i then get (nth i frames []) (k - i * s) else r0)))).
  { induction m as [|m IH]; intros Hm.
    - simpl. f_equal. apply get_ext. rewrite repeat_length, mk_length. reflexivity.
      intros i Hi. rewrite repeat_length in Hi. rewrite get_repeat0, get_mk; auto.
    - rewrite seq_S, fold_left_app, IH by lia. cbn [fold_left bind]. rewrite Nat.add_0_l.
      rewrite ola_step_len by (rewrite mk_length; apply H; lia). rewrite Nat.eqb_refl.
      rewrite mk_length. f_equal. apply mk_ext. intros k Hk. rewrite get_mk by auto.
      cbn [sum]. change ((m * s <=? k) && (k <? m * s + w)) with (covers s w k m).
      destruct (covers s w k m); [reflexivity|ring]. }
  now apply G.
Qed.

(** number of frames that contain sample k *)
Definition coverage (s w n k : nat) : nat := length (filter (covers s w k) (seq 0 n)).

Lemma sum_coverage (p : nat -> bool) (c : A) n :
  sum n (fun i => if p i then c else r0) = times (length (filter p (seq 0 n))) c.
Proof.
  induction n as [|n IH]; auto. cbn [sum]. rewrite IH, seq_S, filter_app, app_length. simpl.
  destruct (p n); simpl; rewrite ?Nat.add_0_r, ?Nat.add_1_r; simpl; ring.
Qed.

Lemma ola_frames s w n (v : list A) frames total : frames_of w s n v frames ->
  (forall i, i < n -> i * s + w <= total) ->
  overlap_add s w frames total = Ok (mk total (fun k => times (coverage s w n k) (get v k))).
Proof.
  intros [HL HF] Ht. rewrite overlap_add_eq by (rewrite HL; auto). f_equal. apply mk_ext. intros k Hk.
  unfold coverage. rewrite <- sum_coverage, HL. apply sum_ext. intros i Hi.
  unfold covers. destruct (Nat.leb_spec (i * s) k); simpl; auto.
  destruct (Nat.ltb_spec k (i * s + w)); auto.
  destruct (HF i Hi) as [_ G]. rewrite G by lia. f_equal. lia.
Qed.

Lemma coverage_full s r n k : 0 < s -> 0 < r -> (r - 1) * s <= k -> k < n * s ->
  coverage s (r * s) n k = r.
Proof.
  intros Hs Hr Hk Hn. unfold coverage.
  assert (E : forall m, length (filter (covers s (r * s) k) (seq 0 m)) =
              min m (k / s + 1) - min m (k / s + 1 - r)).
  { pose proof (Nat.div_mod k s ltac:(lia)) as D. pose proof (Nat.mod_upper_bound k s ltac:(lia)).
    induction m as [|m IH]. reflexivity.
    rewrite seq_S, filter_app, app_length, IH. simpl (filter _ (seq _ _)). cbn [seq filter].
    rewrite Nat.add_0_l. unfold covers.
    destruct (Nat.leb_spec (m * s) k); cbn [andb].
    - assert (m <= k / s) by (apply Nat.div_le_lower_bound; lia).
      destruct (Nat.ltb_spec k (m * s + r * s)); cbn [length].
      + assert (k / s < m + r) by (apply Nat.div_lt_upper_bound; lia). lia.
      + assert (m + r <= k / s) by (apply Nat.div_le_lower_bound; lia). lia.
    - assert (k / s < m) by (apply Nat.div_lt_upper_bound; lia). cbn [length]. lia. }
  rewrite E. assert (k / s < n) by (apply Nat.div_lt_upper_bound; lia).
  assert (r - 1 <= k / s) by (apply Nat.div_le_lower_bound; lia). lia.
Qed.
End Frames.

(** ** delay *)
Lemma resolve_all_spec n chs ks : resolve_all n chs = Some ks ->
  Forall2 (fun z k => py_index n z = Some k) chs ks.
Proof.
  revert ks. induction chs as [|z t IH]; intros ks; simpl.
  - intros E. inversion E. constructor.
  - destruct (py_index n z) eqn:E1; [|discriminate].
    destruct (resolve_all n t) eqn:E2; [|discriminate].
    intros E. inversion E. constructor; auto.
Qed.

Lemma resolve_all_none n chs : resolve_all n chs = None -> exists z, In z chs /\ py_index n z = None.
Proof.
  induction chs as [|z t IH]; simpl; [discriminate|].
  destruct (py_index n z) eqn:E1.
  - destruct (resolve_all n t) eqn:E2; [discriminate|]. intros. destruct IH as [z' [H1 H2]]; auto. exists z'; auto.
  - intros. exists z; auto.
Qed.

Lemma resolve_all_seq n : resolve_all n (map Z.of_nat (seq 0 n)) = Some (seq 0 n).
Proof.
  assert (G : forall l, (forall k, In k l -> k < n) -> resolve_all n (map Z.of_nat l) = Some l).
  { induction l as [|k l IH]; intros H; auto. simpl. rewrite py_index_nonneg by (apply H; now left).
    rewrite IH; auto. intros. apply H. now right. }
  apply G. intros k Hk. apply in_seq in Hk. lia.
Qed.

Section DelayP.
Context {A : Type} {HA : CRing A}.

Lemma fold_upd_map (f : nat -> list A) ks base c : (forall k, In k ks -> k < length base) ->
  nth c (fold_left (fun m p => upd m (fst p) (snd p)) (combine ks (map f ks)) base) [] =
    if in_dec Nat.eq_dec c ks then f c else nth c base [].
Proof.
  revert base. induction ks as [|k ks IH]; intros base H; auto.
  cbn [map combine fold_left fst snd]. rewrite IH by (intros; rewrite upd_length; apply H; now right).
  rewrite nth_upd by (apply H; now left).
  destruct (in_dec Nat.eq_dec c ks), (in_dec Nat.eq_dec c (k :: ks)); auto.
  - exfalso. apply n. now right.
  - destruct i; [subst|easy]. now rewrite Nat.eqb_refl.
  - destruct (Nat.eqb_spec c k); auto. subst. exfalso. apply n0. now left.
Qed.

Lemma fold_upd_length {T} ps (base : list T) :
  length (fold_left (fun m p => upd m (fst p) (snd p)) ps base) = length base.
Proof. revert base. induction ps; intros; simpl; auto. rewrite IHps. apply upd_length. Qed.

Lemma zmem_in z l : zmem z l = true <-> In z l.
Proof.
  induction l; simpl. split; easy. rewrite orb_true_iff, IHl, Z.eqb_eq. split; intros [H|H]; auto.
Qed.
Lemma znodup_spec l : znodup l = true <-> NoDup l.
Proof.
  induction l; simpl. split; constructor.
  rewrite andb_true_iff, negb_true_iff, IHl. split.
  - intros [H1 H2]. constructor; auto. intros H. apply zmem_in in H. congruence.
  - intros H. inversion H; subst. split; auto.
    destruct (zmem a l) eqn:E; auto. apply zmem_in in E. easy.
Qed.

Lemma nth_default_in (td : list (list A)) c len : Forall (fun col => length col = len) td -> c < length td ->
  length (nth c td []) = len.
Proof. intros H Hc. rewrite Forall_forall in H. apply H. now apply nth_In. Qed.

Lemma delay_eq d chs keep (td : list (list A)) len :
  0 < d -> Forall (fun col => length col = len) td -> td <> [] ->
  (keep = true -> d < len) ->
  let sel := match chs with None => map Z.of_nat (seq 0 (length td)) | Some l => l end in
  sel <> [] -> NoDup sel -> (forall z, In z sel -> (- Z.of_nat (length td) <= z < Z.of_nat (length td))%Z) ->
  exists out, delay_td d chs keep td = Ok out /\ length out = length td /\
    forall c, c < length td ->
      nth c out [] = (let full := if existsb (fun z => (z =? Z.of_nat c)%Z || (z + Z.of_nat (length td) =? Z.of_nat c)%Z) sel
                                  then repeat r0 d ++ nth c td [] else nth c td [] ++ repeat r0 d in
                      if keep then firstn len full else full).
Proof.
  intros Hd HF Hne Hk sel Hs HN Hr. unfold delay_td.
  assert (Elen : length (hd [] td) = len).
  { destruct td; [easy|]. simpl. now inversion HF. }
  rewrite Elen. fold sel. clearbody sel.
  destruct (Nat.eqb_spec d 0); try lia.
  assert (Ek : keep && negb (d <? len) = false).
  { destruct keep; auto. simpl. specialize (Hk eq_refl). destruct (Nat.ltb_spec d len); auto; lia. }
  rewrite Ek.
  assert (E1 : forallb (fun z => (z <? Z.of_nat (length td))%Z) sel = true).
  { apply forallb_forall. intros z Hz. apply Z.ltb_lt. apply Hr in Hz. lia. }
  rewrite E1. assert (E2 : znodup sel = true) by now apply znodup_spec. rewrite E2. cbn [andb negb].
  destruct sel as [|z0 sel'] eqn:Esel; [easy|]. rewrite <- Esel in *.
  destruct (resolve_all (length td) sel) as [ks|] eqn:ER.
  2:{ apply resolve_all_none in ER. destruct ER as [z [Hz E]]. apply Hr in Hz.
      unfold py_index in E. destruct (Z.leb_spec 0 z).
      - destruct (Z.ltb_spec z (Z.of_nat (length td))); [discriminate|lia].
      - destruct (Z.leb_spec (- Z.of_nat (length td)) z); [discriminate|lia]. }
  apply resolve_all_spec in ER.
  assert (Hks : forall k, In k ks -> k < length td).
  { clear - ER. induction ER as [|z k zs ks E ER IH]; [easy|]. intros q [<-|Hq]; auto. now apply py_index_lt in E. }
  assert (Hin : forall c, c < length td -> (In c ks <-> existsb (fun z => (z =? Z.of_nat c)%Z || (z + Z.of_nat (length td) =? Z.of_nat c)%Z) sel = true)).
  { intros c Hc. clear - ER Hc Hr. rewrite existsb_exists. split.
    - intros Hi. induction ER as [|z k zs ks E ER IH]; [easy|]. destruct Hi as [->|Hi].
      + exists z. split; [now left|]. unfold py_index in E. apply orb_true_iff. rewrite !Z.eqb_eq.
        destruct (Z.leb_spec 0 z).
        * destruct (Z.ltb_spec z (Z.of_nat (length td))); inversion E; lia.
        * destruct (Z.leb_spec (- Z.of_nat (length td)) z); inversion E; lia.
      + destruct IH as [z' [H1 H2]]; auto. intros; apply Hr; now right. exists z'. split; auto. now right.
    - intros [z [Hz E]]. apply orb_true_iff in E. rewrite !Z.eqb_eq in E.
      induction ER as [|z' k zs ks E' ER IH]; [easy|]. destruct Hz as [->|Hz].
      + left. assert (-Z.of_nat (length td) <= z < Z.of_nat (length td))%Z by (apply Hr; now left).
        unfold py_index in E'. destruct (Z.leb_spec 0 z).
        * destruct (Z.ltb_spec z (Z.of_nat (length td))); inversion E'; lia.
        * destruct (Z.leb_spec (- Z.of_nat (length td)) z); inversion E'; lia.
      + right. apply IH; auto. intros; apply Hr; now right. }
  set (base := map _ td). set (dl := map _ ks). set (out := fold_left _ _ _).
  assert (Hlo : length out = length td) by (unfold out; rewrite fold_upd_length; unfold base; apply map_length).
  assert (Ho : forall c, c < length td -> nth c out [] =
     if existsb (fun z => (z =? Z.of_nat c)%Z || (z + Z.of_nat (length td) =? Z.of_nat c)%Z) sel
     then repeat r0 d ++ nth c td [] else nth c td [] ++ repeat r0 d).
  { intros c Hc. unfold out, dl.
    rewrite (fold_upd_map (fun k => pad_trim_col (d + len) false (nth k td []))).
    2:{ intros. unfold base. rewrite map_length. auto. }
    pose proof (nth_default_in td c len HF Hc) as Hl.
    destruct (in_dec Nat.eq_dec c ks) as [Hi|Hi]; rewrite (Hin c Hc) in Hi.
    - rewrite Hi. rewrite pad_trim_start_pad by lia. rewrite Hl. do 2 f_equal. lia.
    - apply not_true_is_false in Hi. rewrite Hi. unfold base. rewrite (nth_map' _ td c []) by auto.
      rewrite pad_trim_end_pad by lia. rewrite Hl. do 2 f_equal. lia. }
  exists (if keep then map (firstn len) out else out). split; [reflexivity|]. destruct keep.
  - split. now rewrite map_length. intros c Hc. rewrite (nth_map' _ out c []) by lia. now rewrite Ho.
  - split; auto.
Qed.
End DelayP.

(** ** trimming at a level *)
Section TrimP.
Context {T : Type}.
Definition row_hit (above : T -> bool) (td : list (list T)) (r : nat) : Prop :=
  exists col x, In col td /\ nth_error col r = Some x /\ above x = true.

Definition row_entries (above : T -> bool) (td : list (list T)) (r : nat) : list nat :=
  flat_map (fun col => match nth_error col r with Some x => if above x then [r] else [] | None => [] end) td.

Lemma row_entries_spec above td r : 
  (forall k, In k (row_entries above td r) -> k = r) /\ length (row_entries above td r) <= length td /\
  (row_entries above td r <> [] <-> row_hit above td r).
Proof.
  induction td as [|col td [I1 [I2 I3]]]; simpl.
  - split; [easy|]. split; [lia|]. split; [easy|]. intros [c [x [H _]]]. easy.
  - unfold row_entries in *. simpl. destruct (nth_error col r) as [x|] eqn:E; [destruct (above x) eqn:Ea|].
    + simpl. split. intros k [Hk|Hk]; auto. split; [lia|]. split; [|easy].
      intros _. exists col, x. split; [now left|auto].
    + simpl. split; auto. split; [lia|]. rewrite I3. split.
      * intros [c [y [H1 H2]]]. exists c, y. split; [now right|auto].
      * intros [c [y [[<-|H1] [H2 H3]]]]. congruence. exists c, y; auto.
    + simpl. split; auto. split; [lia|]. rewrite I3. split.
      * intros [c [y [H1 H2]]]. exists c, y. split; [now right|auto].
      * intros [c [y [[<-|H1] [H2 H3]]]]. congruence. exists c, y; auto.
Qed.

Lemma lmin_spec l : match lmin l with
  | Ok m => In m l /\ forall k, In k l -> m <= k | Err e => l = [] /\ e = ValueError end.
Proof.
  destruct l as [|h t]; simpl; auto.
  assert (G : forall t h, In (fold_left Nat.min t h) (h :: t) /\ forall k, In k (h :: t) -> fold_left Nat.min t h <= k).
  { clear. induction t as [|a t IH]; intros h; simpl.
    - split; auto. intros k [<-|[]]. lia.
    - destruct (IH (min h a)) as [G1 G2]. split.
      + destruct G1 as [G1|G1]; auto. rewrite <- G1. destruct (Nat.min_spec h a) as [[_ ->]|[_ ->]]; auto.
      + intros k Hk. pose proof (G2 (min h a) (or_introl eq_refl)).
        destruct Hk as [<-|[<-|Hk]]; try lia. apply G2. now right. }
  apply G.
Qed.

Lemma lmax_spec l : match lmax l with
  | Ok m => In m l /\ forall k, In k l -> k <= m | Err e => l = [] /\ e = ValueError end.
Proof.
  destruct l as [|h t]; simpl; auto.
  assert (G : forall t h, In (fold_left Nat.max t h) (h :: t) /\ forall k, In k (h :: t) -> k <= fold_left Nat.max t h).
  { clear. induction t as [|a t IH]; intros h; simpl.
    - split; auto. intros k [<-|[]]. lia.
    - destruct (IH (max h a)) as [G1 G2]. split.
      + destruct G1 as [G1|G1]; auto. rewrite <- G1. destruct (Nat.max_spec h a) as [[_ ->]|[_ ->]]; auto.
      + intros k Hk. pose proof (G2 (max h a) (or_introl eq_refl)).
        destruct Hk as [<-|[<-|Hk]]; try lia. apply G2. now right. }
  apply G.
Qed.

Lemma above_rows_sorted above td : let l := above_rows above td in
  (forall i j, i < j < length l -> nth i l 0 <= nth j l 0) /\
  (forall r, In r l <-> r < length (hd [] td) /\ row_hit above td r).
Proof.
  unfold above_rows. generalize (length (hd [] td)). intros n.
  change (fun r => flat_map _ td) with (row_entries above td).
  induction n as [|n [I1 I2]].
  - simpl. split. intros. lia. intros. split; [easy|]. intros [H _]; lia.
  - rewrite seq_S, flat_map_app. cbn [flat_map]. rewrite Nat.add_0_l, app_nil_r.
    set (l := flat_map _ (seq 0 n)) in *.
    destruct (row_entries_spec above td n) as [E1 [E2 E3]]. split.
    + intros i j Hij. rewrite app_length in Hij.
      assert (Hr : forall q, length l <= q < length l + length (row_entries above td n) ->
                nth q (l ++ row_entries above td n) 0 = n).
      { intros q Hq. rewrite app_nth2 by lia. apply E1. apply nth_In. lia. }
      assert (Hl : forall q, q < length l -> nth q (l ++ row_entries above td n) 0 <= n).
      { intros q Hq. rewrite app_nth1 by lia. pose proof (nth_In l 0 Hq) as G. apply I2 in G. lia. }
      destruct (Nat.lt_ge_cases j (length l)).
      * rewrite !app_nth1 by lia. apply I1. lia.
      * rewrite (Hr j) by lia. destruct (Nat.lt_ge_cases i (length l)). now apply Hl. rewrite Hr; lia.
    + intros r. rewrite in_app_iff, I2. split.
      * intros [[H1 H2]|H]. split; auto; lia. pose proof (E1 _ H). subst. split; [lia|].
        apply E3. intros C. rewrite C in H. easy.
      * intros [H1 H2]. destruct (Nat.eq_dec r n); [right|left; split; auto; lia].
        subst. apply E3 in H2. destruct (row_entries above td n) as [|k q] eqn:E; [easy|].
        assert (k = n) by (apply E1; now left). subst. now left.
Qed.

Lemma trim_level_eq above s e (td : list (list T)) len :
  td <> [] -> Forall (fun col => length col = len) td -> s || e = true ->
  (exists r, row_hit above td r) ->
  exists start stop, trim_level above s e td = Ok (map (fun col => firstn (stop - start) (skipn start col)) td, start, stop) /\
    start < stop <= len /\
    (if s then row_hit above td start /\ (forall r, r < start -> ~ row_hit above td r) else start = 0) /\
    (if e then row_hit above td (stop - 1) /\ (forall r, stop <= r -> ~ row_hit above td r) else stop = len).
Proof.
  intros Hne HF Hse [r Hr]. unfold trim_level. rewrite Hse. cbn [negb].
  assert (Elen : length (hd [] td) = len) by (destruct td; [easy|]; simpl; now inversion HF).
  rewrite Elen.
  assert (Hlt : forall q, row_hit above td q -> q < len).
  { intros q [c [x [H1 [H2 _]]]]. rewrite Forall_forall in HF. rewrite <- (HF c H1).
    apply nth_error_Some. congruence. }
  destruct (above_rows_sorted above td) as [S1 S2]. set (rows := above_rows above td) in *.
  assert (Hin : forall q, In q rows <-> row_hit above td q).
  { intros q. rewrite S2, Elen. split; [easy|]. intros H; split; auto. }
  assert (Hn : 0 < length td) by (destruct td; [easy|simpl; lia]).
  assert (Hrow : rows <> []) by (apply Hin in Hr; destruct rows; easy).
  assert (Hmin : exists m, lmin (firstn (length td) rows) = Ok m /\ In m rows /\ forall k, In k rows -> m <= k).
  { pose proof (lmin_spec (firstn (length td) rows)) as G. destruct (lmin _) as [m|er].
    - destruct G as [G1 G2]. exists m. split; auto.
      assert (Hm : In m rows) by (rewrite <- (firstn_skipn (length td) rows); apply in_or_app; now left).
      split; auto. intros k Hk. apply (In_nth _ _ 0) in Hk. destruct Hk as [i [Hi Ei]].
      assert (H0 : m <= nth 0 rows 0).
      { apply G2. destruct rows; [easy|]. destruct (length td); [lia|]. simpl. now left. }
      destruct i. lia. pose proof (S1 0 (S i) ltac:(lia)). lia.
    - destruct G as [G _]. destruct rows; [easy|]. destruct (length td); [lia|]. discriminate. }
  assert (Hmax : exists m, lmax (skipn (length rows - length td) rows) = Ok m /\ In m rows /\ forall k, In k rows -> k <= m).
  { assert (Hlr : 0 < length rows) by (destruct rows; [easy|simpl; lia]).
    pose proof (lmax_spec (skipn (length rows - length td) rows)) as G. destruct (lmax _) as [m|er].
    - destruct G as [G1 G2]. exists m. split; auto.
      assert (Hm : In m rows) by (rewrite <- (firstn_skipn (length rows - length td) rows); apply in_or_app; now right).
      split; auto. intros k Hk. apply (In_nth _ _ 0) in Hk. destruct Hk as [i [Hi Ei]].
      assert (H0 : nth (length rows - 1) rows 0 <= m).
      { apply G2. replace (nth (length rows - 1) rows 0) with
          (nth (length rows - 1 - (length rows - length td)) (skipn (length rows - length td) rows) 0).
        - apply nth_In. rewrite skipn_length. lia.
        - rewrite nth_skipn. f_equal. lia. }
      destruct (Nat.eq_dec i (length rows - 1)). subst; lia.
      pose proof (S1 i (length rows - 1) ltac:(lia)). lia.
    - destruct G as [G _]. apply (f_equal (@length nat)) in G. rewrite skipn_length in G. simpl in G. lia. }
  destruct Hmin as [mi [Ei [Hi1 Hi2]]]. destruct Hmax as [ma [Ea [Ha1 Ha2]]].
  rewrite Ei, Ea. cbn [bind].
  assert (Hma : ma < len) by (apply Hlt, Hin; auto).
  replace (min len (ma + 1)) with (ma + 1) by lia.
  assert (mi <= ma) by auto.
  exists (if s then mi else 0), (if e then ma + 1 else len).
  assert (Q1 : (if s then row_hit above td mi /\ (forall q, q < mi -> ~ row_hit above td q) else 0 = 0)).
  { destruct s; auto. split; [now apply Hin|]. intros q Hq Hh. apply Hin in Hh. apply Hi2 in Hh. lia. }
  assert (Q2 : (if e then row_hit above td (ma + 1 - 1) /\ (forall q, ma + 1 <= q -> ~ row_hit above td q) else len = len)).
  { destruct e; auto. rewrite Nat.add_sub. split; [now apply Hin|]. intros q Hq Hh. apply Hin in Hh. apply Ha2 in Hh. lia. }
  split; [destruct s, e; reflexivity|]. split; [destruct s, e; lia|].
  destruct s, e; auto.
Qed.

Lemma trim_level_none above s e (td : list (list T)) : s || e = true ->
  (forall r, ~ row_hit above td r) -> trim_level above s e td = Err ValueError.
Proof.
  intros Hse Hn. unfold trim_level. rewrite Hse. cbn [negb].
  destruct (above_rows_sorted above td) as [_ S2].
  destruct (above_rows above td) as [|k l].
  - destruct s, e; try discriminate; simpl; auto; rewrite ?firstn_nil; simpl; auto.
  - exfalso. apply (Hn k). apply S2. now left.
Qed.
End TrimP.
