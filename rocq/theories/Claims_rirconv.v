(** Property C107: applying a room impulse response to a signal. *)
From Coq Require Import List Arith Lia ZArith Bool Reals Lra Psatz.
From Verif Require Import Alg Spec M_arrays M_signal P_arrays P_signal M_rirconv.
Import ListNotations.
Local Open Scope R_scope.

(** ** Specification *)
(** p is the largest of the N absolute values of f *)
Definition summit (f : nat -> R) (N : nat) (p : R) : Prop :=
  (forall i, (i < N)%nat -> Rabs (f i) <= p) /\ exists i, (i < N)%nat /\ Rabs (f i) = p.
(** length of the result *)
Definition span (keep : bool) (n L : nat) : nat := if keep then n else (n + L - 1)%nat.
(** sample i of channel c of the signal heard through the response h *)
Definition heard (h : list R) (s : signal) (c i : nat) : R := conv (HA := CRing_R) h (nth c (s_re s) []) i.

(** ** Lemmas *)
Definition wet (keep : bool) (h x : list R) : list R := let y := conv_full (HA := CRing_R) x h in if keep then firstn (length x) y else y.
Lemma nonnil {T} (x : list T) : (0 < length x)%nat -> x <> [].
Proof. destruct x; simpl; [lia|easy]. Qed.
Lemma wet_length keep h x : (0 < length x)%nat -> (0 < length h)%nat -> length (wet keep h x) = span keep (length x) (length h).
Proof.
  intros X H. unfold wet, span. destruct keep; [rewrite firstn_length|]; rewrite conv_full_length by (now apply nonnil); lia.
Qed.
Lemma wet_nth keep h x i : (i < span keep (length x) (length h))%nat -> nth i (wet keep h x) 0 = conv (HA := CRing_R) h x i.
Proof.
  intros Hi. unfold wet, span in *. pose proof (get_conv_full (HA := CRing_R) x h i) as G. unfold get in G. cbn [r0 CRing_R] in G.
  destruct keep; [rewrite nth_firstn by auto|]; exact G.
Qed.
Lemma vpeak_summit x p : (0 < length x)%nat -> (vpeak x = p <-> summit (fun i => nth i x 0) (length x) p).
Proof.
  intros L. assert (S0 : summit (fun i => nth i x 0) (length x) (vpeak x)).
  { split. intros i Hi. apply vpeak_ge. now apply nth_In. destruct (vpeak_att x) as [->|[v [V E]]]; [simpl in L; lia|].
    apply (In_nth _ _ 0) in V. destruct V as [i [Hi <-]]. exists i. auto. }
  split; [now intros <-|]. intros [A [i [Hi B]]]. destruct S0 as [C [j [Hj D]]]. specialize (A j Hj). specialize (C i Hi). lra.
Qed.
Lemma summit_ext f g N p : (forall i, (i < N)%nat -> f i = g i) -> summit f N p -> summit g N p.
Proof. intros E [A [i [Hi B]]]. split. intros. rewrite <- E; auto. exists i. rewrite <- E; auto. Qed.
Lemma rir_col_plain keep h x : rir_col false keep h x = Some (wet keep h x).
Proof. reflexivity. Qed.
Lemma rir_col_peak keep h x : rir_col true keep h x =
  if Req_EM_T (vpeak (wet keep h x)) 0 then None else Some (map (fun v => v * (vpeak x / vpeak (wet keep h x))) (wet keep h x)).
Proof. reflexivity. Qed.
Lemma all_some_map {T U} (f : T -> option U) (g : T -> U) l : (forall x, In x l -> f x = Some (g x)) -> all_some (map f l) = Some (map g l).
Proof. induction l; intros H; simpl; auto. rewrite H by (now left). rewrite IHl; auto. intros. apply H. now right. Qed.
Lemma all_some_none {T} (l : list (option T)) : In None l -> all_some l = None.
Proof. induction l as [|[v|] l IH]; simpl; intros H; auto; [destruct H|]. destruct H as [E|H]; [discriminate|]. now rewrite IH. Qed.
Lemma all_some_inv {T} (l : list (option T)) : all_some l = None -> In None l.
Proof. induction l as [|[v|] l IH]; simpl; intros H; auto; [discriminate|]. destruct (all_some l); [discriminate|]. auto. Qed.
Lemma shape_cols (f : list R -> list R) m n k N : shape m n k -> (forall x, length x = n -> length (f x) = N) -> shape (map f m) N k.
Proof.
  intros [A B] F. split; [now rewrite map_length|]. rewrite Forall_forall in *. intros y Y. apply in_map_iff in Y. destruct Y as [x [<- X]]. auto.
Qed.
Lemma entry_cols (f : list R -> list R) m n k i c : shape m n k -> (c < k)%nat -> entry (map f m) i c = nth i (f (nth c m [])) 0.
Proof. intros [A B] C. unfold entry. rewrite (nth_map' f m c [] []); [auto|lia]. Qed.
Lemma go_plain keep h s :
  convolve_rir false keep [h] (s_fs s) s = bind (set_data s (mkIn (map (wet keep h) (s_re s)) None false)) (fun s' => Ok (Some s')).
Proof.
  unfold convolve_rir. cbn [ncols length Nat.eqb negb hd]. rewrite Z.eqb_refl. cbn [negb].
  rewrite (all_some_map _ (wet keep h)); auto.
Qed.
Definition level_wet keep h x := map (fun v => v * (vpeak x / vpeak (wet keep h x))) (wet keep h x).
Lemma go_peak keep h s : (forall x, In x (s_re s) -> vpeak (wet keep h x) <> 0) ->
  convolve_rir true keep [h] (s_fs s) s = bind (set_data s (mkIn (map (level_wet keep h) (s_re s)) None false)) (fun s' => Ok (Some s')).
Proof.
  intros H. unfold convolve_rir. cbn [ncols length Nat.eqb negb hd]. rewrite Z.eqb_refl. cbn [negb].
  rewrite (all_some_map _ (level_wet keep h)); auto. intros x X. rewrite rir_col_peak. destruct (Req_EM_T _ _); [now apply H in X|auto].
Qed.
Lemma col_in m n k c : shape m n k -> (c < k)%nat -> In (nth c m []) m.
Proof. intros [A _] C. apply nth_In. lia. Qed.

(** ** Theorems *)
(** Without level matching, every channel is the convolution with the response, of the documented length, all multiplied by one factor; it is 1
    unless the signal is constrained and the loudest sample of all is above 1, and then the reciprocal of that sample. *)
Theorem C107_plain keep h s n k p : sig_ok s n k -> (0 < length h)%nat ->
  (forall c i, (c < k)%nat -> (i < span keep n (length h))%nat -> Rabs (heard h s c i) <= p) ->
  (exists c i, (c < k)%nat /\ (i < span keep n (length h))%nat /\ Rabs (heard h s c i) = p) ->
  exists s', convolve_rir false keep [h] (s_fs s) s = Ok (Some s') /\ shape (s_re s') (span keep n (length h)) k /\ s_im s' = None /\
    s_constr s' = s_constr s /\ s_fs s' = s_fs s /\
    forall c i, (c < k)%nat -> (i < span keep n (length h))%nat ->
      entry (s_re s') i c = (if s_constr s then if Rlt_dec 1 p then / p else 1 else 1) * heard h s c i.
Proof.
  intros O H P1 P2. destruct O as [Hk Hkn Hn Re _ _ _]. set (N := span keep n (length h)) in *.
  assert (HN : (n <= N)%nat) by (unfold N, span; destruct keep; lia).
  assert (Sh : shape (map (wet keep h) (s_re s)) N k).
  { apply (shape_cols _ _ n). auto. intros x X. rewrite wet_length; rewrite ?X; auto; lia. }
  assert (En : forall c i, (c < k)%nat -> (i < N)%nat -> entry (map (wet keep h) (s_re s)) i c = heard h s c i).
  { intros c i C I. rewrite (entry_cols _ _ n k) by auto. unfold heard. apply wet_nth. rewrite (shape_col _ n k) by auto. exact I. }
  destruct (set_time_data_spec (s_constr s) (s_fs s) (mkIn (map (wet keep h) (s_re s)) None false) N k p) as (g & E & A & B & D & F & G & I); auto; try lia; try nia.
  - split; [auto|discriminate].
  - split.
    + intros i c I C. split; [|discriminate]. cbn [i_re]. rewrite En by auto. now apply P1.
    + destruct P2 as (c & i & C & I & E). exists i, c. repeat split; auto. left. cbn [i_re]. rewrite En; auto.
  - rewrite Nat.max_l, Nat.min_r in * by lia. exists g. rewrite go_plain. unfold set_data. rewrite E. cbn [bind i_im] in *. repeat split; auto; try apply F.
    intros c i C J. rewrite G by auto. cbn [i_re]. unfold oriented. replace (N <? k)%nat with false by (symmetry; apply Nat.ltb_ge; lia). rewrite En by auto. f_equal. rewrite D.
    destruct (s_constr s); auto. destruct (Rlt_dec 1 p); auto. field. lra.
Qed.
Print Assumptions C107_plain.

(** With level matching, every channel is the convolution multiplied by a positive factor of its own, and has exactly the peak of the channel it
    comes from; the result is never rescaled. *)
Theorem C107_peak keep h s n k : sig_ok s n k -> (0 < length h)%nat ->
  (forall c, (c < k)%nat -> exists i, (i < span keep n (length h))%nat /\ heard h s c i <> 0) ->
  exists s', convolve_rir true keep [h] (s_fs s) s = Ok (Some s') /\ shape (s_re s') (span keep n (length h)) k /\ s_im s' = None /\
    s_scale s' = 1 /\ s_constr s' = s_constr s /\ s_fs s' = s_fs s /\
    forall c, (c < k)%nat ->
      (exists g, 0 < g /\ forall i, (i < span keep n (length h))%nat -> entry (s_re s') i c = g * heard h s c i) /\
      (forall p, summit (fun i => entry (s_re s) i c) n p -> summit (fun i => entry (s_re s') i c) (span keep n (length h)) p).
Proof.
  intros O H NZ. destruct O as [Hk Hkn Hn Re _ Bd _]. set (N := span keep n (length h)) in *.
  assert (HN : (n <= N)%nat) by (unfold N, span; destruct keep; lia).
  assert (Lw : forall c, (c < k)%nat -> length (wet keep h (nth c (s_re s) [])) = N).
  { intros c C. pose proof (shape_col _ n k c Re C) as X. rewrite wet_length; rewrite ?X; auto; lia. }
  assert (En : forall c i, (c < k)%nat -> (i < N)%nat -> nth i (wet keep h (nth c (s_re s) [])) 0 = heard h s c i).
  { intros c i C I. unfold heard. apply wet_nth. rewrite (shape_col _ n k) by auto. exact I. }
  assert (Vp : forall c, (c < k)%nat -> 0 < vpeak (wet keep h (nth c (s_re s) []))).
  { intros c C. destruct (NZ c C) as (i & I & X). rewrite <- En in X by auto.
    assert (V : In (nth i (wet keep h (nth c (s_re s) [])) 0) (wet keep h (nth c (s_re s) []))) by (apply nth_In; rewrite Lw; auto).
    apply vpeak_ge in V. pose proof (Rabs_pos_lt _ X). lra. }
  assert (Vx : forall c, (c < k)%nat -> 0 < vpeak (nth c (s_re s) [])).
  { intros c C. destruct (Rle_lt_or_eq_dec 0 _ (vpeak_pos (nth c (s_re s) []))) as [|E]; auto. exfalso. destruct (NZ c C) as (i & I & X). apply X.
    unfold heard, conv. apply (sum_zero' (HA := CRing_R)). intros j J.
    assert (Z : get (HA := CRing_R) (nth c (s_re s) []) (i - j) = 0).
    { destruct (Nat.lt_ge_cases (i - j) (length (nth c (s_re s) []))) as [Q|Q].
      - assert (V : In (get (HA := CRing_R) (nth c (s_re s) []) (i - j)) (nth c (s_re s) [])) by (apply nth_In; auto).
        apply vpeak_ge in V. pose proof (Rabs_pos (get (HA := CRing_R) (nth c (s_re s) []) (i - j))).
        destruct (Req_EM_T (get (HA := CRing_R) (nth c (s_re s) []) (i - j)) 0) as [|NQ]; auto. apply Rabs_pos_lt in NQ. lra.
      - apply (get_out (HA := CRing_R)). lia. }
    rewrite Z. cbn. ring. }
  assert (Sh : shape (map (level_wet keep h) (s_re s)) N k).
  { apply (shape_cols _ _ n). auto. intros x X. unfold level_wet. rewrite map_length, wet_length; rewrite ?X; auto; lia. }
  assert (Ev : forall c i, (c < k)%nat -> (i < N)%nat -> entry (map (level_wet keep h) (s_re s)) i c =
     vpeak (nth c (s_re s) []) / vpeak (wet keep h (nth c (s_re s) [])) * heard h s c i).
  { intros c i C I. rewrite (entry_cols _ _ n k) by auto. unfold level_wet. rewrite (nth_map' _ _ i 0 0) by (rewrite Lw; auto). rewrite En by auto. ring. }
  assert (Sm : forall c, (c < k)%nat -> summit (fun i => entry (map (level_wet keep h) (s_re s)) i c) N (vpeak (nth c (s_re s) []))).
  { intros c C. destruct (proj1 (vpeak_summit (wet keep h (nth c (s_re s) [])) _ ltac:(rewrite Lw by auto; lia)) eq_refl) as [A [j [J B]]].
    rewrite Lw in * by auto. specialize (Vp c C). specialize (Vx c C).
    assert (G : 0 < vpeak (nth c (s_re s) []) / vpeak (wet keep h (nth c (s_re s) []))) by (now apply Rdiv_lt_0_compat).
    split.
    - intros i I. rewrite Ev by auto. rewrite Rabs_mult, (Rabs_pos_eq (_ / _)) by lra. specialize (A i I). rewrite En in A by auto.
      replace (vpeak (nth c (s_re s) [])) with (vpeak (nth c (s_re s) []) / vpeak (wet keep h (nth c (s_re s) [])) * vpeak (wet keep h (nth c (s_re s) []))) at 2
        by (field; lra). apply Rmult_le_compat_l; lra.
    - exists j. split; auto. rewrite Ev by auto. rewrite Rabs_mult, (Rabs_pos_eq (_ / _)) by lra. rewrite En in B by auto. rewrite B. field. lra. }
  exists (mkSig (map (level_wet keep h) (s_re s)) None 1 (s_constr s) (s_fs s)). rewrite go_peak.
  - unfold set_data. rewrite (set_identity (s_constr s) (s_fs s) (mkIn (map (level_wet keep h) (s_re s)) None false) N k); try lia.
    + cbn [bind i_re i_im s_re s_im s_scale s_constr s_fs]. repeat split; auto; try apply Sh.
      * exists (vpeak (nth c (s_re s) []) / vpeak (wet keep h (nth c (s_re s) []))). split; [apply Rdiv_lt_0_compat; auto|auto].
      * intros i I. assert (Q : vpeak (nth c (s_re s) []) = p). { apply vpeak_summit; rewrite (shape_col _ n k) by auto; [lia|auto]. } rewrite <- Q. apply Sm; auto.
      * assert (Q : vpeak (nth c (s_re s) []) = p). { apply vpeak_summit; rewrite (shape_col _ n k) by auto; [lia|auto]. } rewrite <- Q. apply Sm; auto.
    + split; [auto|discriminate].
    + intros C1. split; [|discriminate]. intros i c I C. cbn [i_re]. destruct (Sm c C) as [A _]. eapply Rle_trans; [now apply A|].
      destruct (proj1 (vpeak_summit (nth c (s_re s) []) _ ltac:(rewrite (shape_col _ n k) by auto; lia)) eq_refl) as [_ [j [J <-]]].
      rewrite (shape_col _ n k) in J by auto. now apply (Bd C1).
  - intros x X. apply (In_nth _ _ []) in X. destruct X as [c [C <-]]. destruct Re as [RL _]. rewrite RL in C. specialize (Vp c C). lra.
Qed.
Print Assumptions C107_peak.

(** Level matching needs every channel of the convolution to be heard within the kept length: if one is silent the result is not a number. *)
Theorem C107_silent_refuted keep h s n k c : sig_ok s n k -> (0 < length h)%nat -> (c < k)%nat ->
  (forall i, (i < span keep n (length h))%nat -> heard h s c i = 0) -> convolve_rir true keep [h] (s_fs s) s = Ok None.
Proof.
  intros O H C Z. destruct O as [Hk Hkn Hn Re _ _ _]. unfold convolve_rir. cbn [ncols length Nat.eqb negb hd]. rewrite Z.eqb_refl. cbn [negb].
  rewrite all_some_none; auto. apply in_map_iff. exists (nth c (s_re s) []). split; [|now apply (col_in _ n k)].
  rewrite rir_col_peak. destruct (Req_EM_T _ _) as [|NE]; auto. exfalso. apply NE. pose proof (shape_col _ n k c Re C) as X.
  apply vpeak_summit; rewrite wet_length; rewrite ?X; auto; try lia.
  - unfold span. destruct keep; lia.
  - split; [intros i I|exists 0%nat; split; [unfold span; destruct keep; lia|]]; rewrite wet_nth; try (rewrite X; auto; unfold span; destruct keep; lia);
      change (Rabs (heard h s c i) <= 0) || change (Rabs (heard h s c 0) = 0); rewrite Z; rewrite ?Rabs_R0; auto; try lra. unfold span; destruct keep; lia.
Qed.
Print Assumptions C107_silent_refuted.

(** In particular with the length kept, a response that begins after the end of the signal, and any response when a channel is silent. *)
Theorem C107_late_refuted h s n k : sig_ok s n k -> (0 < length h)%nat -> (forall i, (i < n)%nat -> nth i h 0 = 0) ->
  convolve_rir true true [h] (s_fs s) s = Ok None.
Proof.
  intros O H Z. apply (C107_silent_refuted true h s n k 0); auto. destruct O; lia. intros i I. unfold heard, conv. apply (sum_zero' (HA := CRing_R)).
  intros j J. unfold get at 1. cbn [r0 CRing_R span] in *. rewrite Z by lia. cbn. ring.
Qed.
Print Assumptions C107_late_refuted.
Theorem C107_silence_refuted keep h s n k c : sig_ok s n k -> (0 < length h)%nat -> (c < k)%nat -> (forall i, (i < n)%nat -> entry (s_re s) i c = 0) ->
  convolve_rir true keep [h] (s_fs s) s = Ok None.
Proof.
  intros O H C Z. apply (C107_silent_refuted keep h s n k c); auto. intros i I. unfold heard, conv. apply (sum_zero' (HA := CRing_R)).
  intros j J. destruct O as [_ _ _ Re _ _ _]. pose proof (shape_col _ n k c Re C) as X.
  assert (G : get (HA := CRing_R) (nth c (s_re s) []) (i - j) = 0).
  { destruct (Nat.lt_ge_cases (i - j) n). now apply Z. apply (get_out (HA := CRing_R)). lia. }
  rewrite G. cbn. ring.
Qed.
Print Assumptions C107_silence_refuted.

(** With level matching the level of the response does not matter. *)
Lemma conv_scale a h x i : conv (HA := CRing_R) (map (Rmult a) h) x i = a * conv (HA := CRing_R) h x i.
Proof.
  unfold conv. rewrite <- (sum_scal_l (HA := CRing_R)). apply (sum_ext (HA := CRing_R)). intros j _.
  assert (G : get (HA := CRing_R) (map (Rmult a) h) j = a * get (HA := CRing_R) h j).
  { unfold get. cbn [r0 CRing_R]. destruct (Nat.lt_ge_cases j (length h)). now rewrite (nth_map' _ _ j 0 0).
    rewrite !nth_overflow; rewrite ?map_length; auto. ring. }
  rewrite G. cbn. ring.
Qed.
Lemma wet_scale a keep h x : wet keep (map (Rmult a) h) x = map (Rmult a) (wet keep h x).
Proof.
  destruct (Nat.eq_dec (length x) 0) as [X|X]. { destruct x; [|discriminate]. unfold wet. destruct keep; simpl; auto. }
  destruct (Nat.eq_dec (length h) 0) as [H|H]. { destruct h; [|discriminate]. unfold wet. destruct x; [easy|]. destruct keep; reflexivity. }
  apply (list_eq_nth 0).
  - rewrite map_length, !wet_length; rewrite ?map_length; auto; lia.
  - intros i I. rewrite wet_length in I; rewrite ?map_length in *; try lia. rewrite wet_nth by (rewrite map_length; auto).
    rewrite (nth_map' _ _ i 0 0) by (rewrite wet_length; auto; lia). rewrite wet_nth by auto. apply conv_scale.
Qed.
Lemma vpeak_map a y : vpeak (map (Rmult a) y) = Rabs a * vpeak y.
Proof.
  induction y; simpl. ring. rewrite IHy, Rabs_mult, RmaxRmult by (apply Rabs_pos). reflexivity.
Qed.
Theorem C107_gain a keep h fs s : 0 < a -> convolve_rir true keep [map (Rmult a) h] fs s = convolve_rir true keep [h] fs s.
Proof.
  intros A. unfold convolve_rir. cbn [ncols length Nat.eqb negb hd]. destruct (negb _); auto.
  replace (map (rir_col true keep (map (Rmult a) h)) (s_re s)) with (map (rir_col true keep h) (s_re s)); auto.
  apply map_ext. intros x. rewrite !rir_col_peak, wet_scale, vpeak_map, (Rabs_pos_eq a) by lra.
  destruct (Req_EM_T (vpeak (wet keep h x)) 0) as [E|E], (Req_EM_T (a * vpeak (wet keep h x)) 0) as [F|F]; auto.
  - rewrite E in F. lra.
  - apply Rmult_integral in F. lra.
  - f_equal. rewrite map_map. apply map_ext. intros v. field. split; auto. lra.
Qed.
Print Assumptions C107_gain.

(** A perfect impulse leaves the samples alone. *)
Theorem C107_impulse keep a s n k : sig_ok s n k -> 0 < a -> (forall c, (c < k)%nat -> exists i, (i < n)%nat /\ entry (s_re s) i c <> 0) ->
  convolve_rir true keep [[a]] (s_fs s) s = Ok (Some (mkSig (s_re s) None 1 (s_constr s) (s_fs s))).
Proof.
  intros O A NZ. pose proof O as [Hk Hkn Hn Re _ Bd _]. replace [a] with (map (Rmult a) [1]) by (cbn [map]; f_equal; ring). rewrite C107_gain by auto.
  assert (W : forall x, length x = n -> wet keep [1] x = x).
  { intros x X. apply (list_eq_nth 0). rewrite wet_length; simpl; try lia. unfold span. destruct keep; lia.
    intros i I. rewrite wet_length in I; simpl; try lia. rewrite wet_nth by auto. unfold conv. rewrite (sum_S_front (HA := CRing_R)).
    rewrite (sum_zero' (HA := CRing_R)). 2: { intros j _. unfold get at 1. cbn [r0 CRing_R]. rewrite nth_overflow by (simpl; lia). cbn. ring. }
    rewrite Nat.sub_0_r. unfold get. cbn. ring. }
  assert (V : forall x, In x (s_re s) -> length x = n /\ vpeak x <> 0).
  { intros x X. pose proof Re as [RL RF]. rewrite Forall_forall in RF. split; auto. apply (In_nth _ _ []) in X. destruct X as [c [C <-]]. rewrite RL in C.
    destruct (NZ c C) as (i & I & E). pose proof (shape_col _ n k c Re C) as X. assert (Q : In (entry (s_re s) i c) (nth c (s_re s) [])) by (apply nth_In; lia).
    apply vpeak_ge in Q. apply Rabs_pos_lt in E. lra. }
  rewrite go_peak. 2: { intros x X. destruct (V x X). rewrite W; auto. }
  replace (map (level_wet keep [1]) (s_re s)) with (s_re s).
  2: { rewrite <- (map_id (s_re s)) at 1. apply map_ext_in. intros x X. destruct (V x X). unfold level_wet. rewrite W by auto.
       rewrite <- (map_id x) at 1. apply map_ext. intros v. field. auto. }
  unfold set_data. rewrite (set_identity _ _ _ n k); auto. split; [auto|discriminate]. intros C1. split; [|discriminate]. intros i c I C. now apply (Bd C1).
Qed.
Print Assumptions C107_impulse.

(** The same response does not give all channels the same level: level matching is done channel by channel, so channels whose levels agree
    through the room are made to differ, and no common factor relates the result to the convolution. *)
Definition pair : signal := mkSig [[1; 0]; [1; 1]] None 1 true 48000.
Lemma pair_ok : sig_ok pair 2 2.
Proof.
  constructor; try lia; try discriminate.
  - split; [auto|repeat constructor].
  - intros _ i c I C. destruct c as [|[|c]], i as [|[|i]]; try lia; unfold entry; cbn; rewrite ?Rabs_R0, ?Rabs_R1; lra.
Qed.
Lemma pair_heard : heard [1; 1] pair 0 0 = 1 /\ heard [1; 1] pair 0 1 = 1 /\ heard [1; 1] pair 1 0 = 1 /\ heard [1; 1] pair 1 1 = 2.
Proof. unfold heard, conv, get. cbn. repeat split; ring. Qed.
Theorem C107_balance_refuted : exists h s s', sig_ok s 2 2 /\ convolve_rir true true [h] (s_fs s) s = Ok (Some s') /\
  ~ exists g, forall c i, (c < 2)%nat -> (i < 2)%nat -> entry (s_re s') i c = g * heard h s c i.
Proof.
  destruct pair_heard as (H1 & H2 & H3 & H4).
  destruct (C107_peak true [1; 1] pair 2 2 pair_ok) as (s' & E & Sh & _ & _ & _ & _ & F). simpl; lia.
  { intros c C. exists 0%nat. split; [simpl; lia|]. destruct c as [|[|c]]; try lia; rewrite ?H1, ?H3; lra. }
  exists [1; 1], pair, s'. split; [apply pair_ok|]. split; auto. intros [g G].
  assert (S0 : summit (fun i => entry (s_re s') i 0) 2 1).
  { apply (F 0%nat); [lia|]. split. intros i I. destruct i as [|[|i]]; try lia; unfold entry; cbn; rewrite ?Rabs_R0, ?Rabs_R1; lra.
    exists 0%nat. split; [lia|]. unfold entry. cbn. apply Rabs_R1. }
  assert (S1 : summit (fun i => entry (s_re s') i 1) 2 1).
  { apply (F 1%nat); [lia|]. split. intros i I. destruct i as [|[|i]]; try lia; unfold entry; cbn; rewrite ?Rabs_R0, ?Rabs_R1; lra.
    exists 0%nat. split; [lia|]. unfold entry. cbn. apply Rabs_R1. }
  destruct S0 as [_ [i [I A]]]. destruct S1 as [B _]. specialize (B 1%nat ltac:(lia)). cbn beta in *. rewrite (G 1%nat 1%nat) in B by lia. rewrite H4 in B.
  rewrite (G 0%nat i) in A by lia. assert (Hi : heard [1; 1] pair 0 i = 1) by (destruct i as [|[|i]]; auto; lia). rewrite Hi, Rmult_1_r in A.
  rewrite Rabs_mult, A, (Rabs_pos_eq 2) in B by lra. lra.
Qed.
Print Assumptions C107_balance_refuted.

(** The response must have one channel and the sampling rate of the signal. *)
Theorem C107_errors peak keep rir fs s : length rir <> 1%nat \/ fs <> s_fs s -> convolve_rir peak keep rir fs s = Err AssertionError.
Proof.
  intros H. unfold convolve_rir, ncols. destruct (Nat.eqb_spec (length rir) 1) as [E|]; auto. cbn [negb]. destruct H as [|H]; [easy|].
  apply Z.eqb_neq in H. now rewrite H.
Qed.
Print Assumptions C107_errors.

(** ** Concrete cases *)
Example C107_example : exists s', convolve_rir true true [[1; 1]] 48000 pair = Ok (Some s') /\ shape (s_re s') 2 2 /\ s_scale s' = 1.
Proof.
  destruct pair_heard as (H1 & H2 & H3 & H4). destruct (C107_peak true [1; 1] pair 2 2 pair_ok) as (s' & E & Sh & _ & Sc & _). simpl; lia.
  { intros c C. exists 0%nat. split; [simpl; lia|]. destruct c as [|[|c]]; try lia; rewrite ?H1, ?H3; lra. }
  exists s'. auto.
Qed.
(** The loudest sample is 2 and the signal is constrained: without level matching the result is halved. *)
Example C107_plain_case : exists s', convolve_rir false true [[1; 1]] 48000 pair = Ok (Some s') /\ entry (s_re s') 1 1 = 1 /\ entry (s_re s') 0 0 = 1 / 2.
Proof.
  destruct pair_heard as (H1 & H2 & H3 & H4). destruct (C107_plain true [1; 1] pair 2 2 2 pair_ok) as (s' & E & _ & _ & _ & _ & F). simpl; lia.
  { intros c i C I. cbn [span] in I. destruct c as [|[|c]], i as [|[|i]]; try lia; rewrite ?H1, ?H2, ?H3, ?H4; rewrite Rabs_pos_eq; lra. }
  { exists 1%nat, 1%nat. cbn [span]. repeat split; try lia. rewrite H4. apply Rabs_pos_eq. lra. }
  exists s'. cbn [span s_constr pair] in F. split; auto. rewrite !F by lia. destruct (Rlt_dec 1 2); [|lra]. rewrite H4, H1. lra.
Qed.
Example C107_late_case : convolve_rir true true [[0; 0; 1]] 48000 pair = Ok None.
Proof. apply (C107_late_refuted _ pair 2 2 pair_ok). simpl; lia. intros i I. destruct i as [|[|i]]; try lia; reflexivity. Qed.
Example C107_silence_case : convolve_rir true false [[1; 1]] 48000 (mkSig [[1; 0]; [0; 0]] None 1 true 48000) = Ok None.
Proof.
  apply (C107_silence_refuted _ _ (mkSig [[1; 0]; [0; 0]] None 1 true 48000) 2 2 1).
  - constructor; try lia; try discriminate. { split; [auto|repeat constructor]. } intros _ i c I C. destruct c as [|[|c]], i as [|[|i]]; try lia; unfold entry; cbn; rewrite ?Rabs_R0, ?Rabs_R1; lra.
  - simpl; lia.
  - lia.
  - intros i I. destruct i as [|[|i]]; try lia; reflexivity.
Qed.
Example C107_impulse_case : convolve_rir true true [[/ 2]] 48000 pair = Ok (Some pair).
Proof.
  apply (C107_impulse true (/ 2) pair 2 2 pair_ok). lra. intros c C. exists 0%nat. split; [lia|].
  destruct c as [|[|c]]; try lia; unfold entry; cbn; lra.
Qed.
