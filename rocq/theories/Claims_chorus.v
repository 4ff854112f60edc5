(** C97: the chorus effect. *)
From Coq Require Import List Arith Lia ZArith Bool Reals Lra.
From Verif Require Import Alg Spec M_arrays M_signal M_delay M_effects P_arrays P_signal Claims_distortion Claims_fdw Claims_tremolo.
Import ListNotations.
Local Open Scope R_scope.

(** ** spec *)
(** a sample, zero outside of the signal *)
Definition zero_ext (x : list R) (z : Z) : R := if (z <? 0)%Z then 0 else nth (Z.to_nat z) x 0.
Definition total (l : list R) : R := fold_right Rplus 0 l.
(** the sample and the voices, each [d] samples later *)
Definition voiced (mix : R) (ds : list (list Z)) (x : list R) (i : nat) : R := nth i x 0 + mix * total (map (fun d => zero_ext x (Z.of_nat i + nth i d 0%Z)) ds).

(** ** lemmas *)
Lemma max_abs_ge : forall ds d i, In d ds -> (Z.abs (nth i d 0%Z) <= max_abs ds)%Z.
Proof.
  assert (M0 : forall l : list Z, (0 <= fold_right Z.max 0 l)%Z) by (induction l; cbn; lia).
  assert (M1 : forall (l : list Z) v, In v l -> (v <= fold_right Z.max 0 l)%Z) by (induction l as [|a l IH]; cbn; [tauto|intros v [->|H]; [lia|specialize (IH v H); lia]]).
  intros ds d i H. unfold max_abs. destruct (Nat.lt_ge_cases i (length d)) as [Hi|Hi].
  - apply Z.le_trans with (fold_right Z.max 0 (map Z.abs d))%Z; [apply M1, in_map, nth_In, Hi|]. apply M1. apply (in_map (fun col => fold_right Z.max 0%Z (map Z.abs col))). exact H.
  - rewrite nth_overflow by exact Hi. cbn. apply M0.
Qed.
Lemma nth_padded : forall (x : list R) k i, nth i (x ++ repeat 0 k) 0 = nth i x 0.
Proof.
  intros x k i. destruct (Nat.lt_ge_cases i (length x)); [apply app_nth1; assumption|]. rewrite app_nth2, (nth_overflow x) by lia. apply nth_repeat.
Qed.
Lemma vpeak_padded : forall (x : list R) k, vpeak (x ++ repeat 0 k) = vpeak x.
Proof.
  intros x k. induction x as [|a x IH].
  - induction k as [|k IH]; [reflexivity|]. cbn [repeat app vpeak fold_right] in *. unfold vpeak in *. cbn [app] in IH. rewrite IH. cbn. rewrite Rabs_R0. apply Rmax_left. lra.
  - cbn [app vpeak fold_right]. unfold vpeak in IH. rewrite IH. reflexivity.
Qed.
Lemma voices_zero_ext : forall ds x i, (i < length x)%nat ->
  map (fun col => match py_index (length (x ++ repeat 0 (Z.to_nat (max_abs ds)))) (Z.of_nat i + nth i col 0%Z) with Some k => nth k (x ++ repeat 0 (Z.to_nat (max_abs ds))) 0 | None => 0 end) ds =
  map (fun d => zero_ext x (Z.of_nat i + nth i d 0%Z)) ds.
Proof.
  intros ds x i Hi. apply map_ext_in. intros d Hd. pose proof (max_abs_ge ds d i Hd) as B. rewrite app_length, repeat_length. set (z := (Z.of_nat i + nth i d 0)%Z). unfold py_index, zero_ext.
  destruct (Z.leb_spec 0 z) as [Hz|Hz].
  - destruct (Z.ltb_spec z 0) as [|_]; [lia|]. destruct (Z.ltb_spec z (Z.of_nat (length x + Z.to_nat (max_abs ds)))) as [_|K]; [apply nth_padded|unfold z in K; lia].
  - destruct (Z.ltb_spec z 0) as [_|]; [|lia]. destruct (Z.leb_spec (- Z.of_nat (length x + Z.to_nat (max_abs ds))) z) as [_|K]; [|reflexivity]. rewrite nth_padded. apply nth_overflow. unfold z. lia.
Qed.

(** ** one channel *)
Lemma channel_law : forall mix ds x, chorus_channel mix ds x = restore (vpeak x) (mk (length x) (voiced mix ds x)).
Proof.
  intros mix ds x. unfold chorus_channel. rewrite vpeak_padded. f_equal. apply list_eq_nth with (d := 0).
  - rewrite map_length, combine_length, !mk_length. lia.
  - intros i Hi. rewrite map_length, combine_length, mk_length, Nat.min_id in Hi. rewrite (nth_map' _ _ i (0, 0) 0) by (rewrite combine_length, mk_length; lia).
    rewrite combine_nth by (rewrite mk_length; reflexivity). cbn [fst snd]. rewrite !nth_mk by exact Hi. rewrite nth_padded, voices_zero_ext by exact Hi. unfold voiced, total, sum_of. ring.
Qed.

(** The clean signal is always in, whatever the mix, which is the weight of the voices only; then the channel is scaled to the peak it had. A channel whose
    sum vanishes, a silent one among them, is nan. *)
Theorem C97_channel : forall mix ds x p, peak_of x p ->
  (forall q, peak_of (mk (length x) (voiced mix ds x)) q -> q <> 0 ->
     exists z, chorus_channel mix ds x = Some z /\ length z = length x /\ (forall i, (i < length x)%nat -> nth i z 0 = p / q * voiced mix ds x i) /\ peak_of z p) /\
  (chorus_channel mix ds x = None <-> forall i, (i < length x)%nat -> voiced mix ds x i = 0) /\
  (p = 0 -> chorus_channel mix ds x = None).
Proof.
  intros mix ds x p Hp. pose proof (peak_of_vpeak _ _ Hp) as E. assert (P0 : 0 <= p) by (rewrite <- E; apply vpeak_pos). set (y := mk (length x) (voiced mix ds x)).
  assert (L : length y = length x) by apply mk_length. assert (N : chorus_channel mix ds x = None <-> forall i, (i < length x)%nat -> voiced mix ds x i = 0).
  { rewrite channel_law. fold y. unfold restore. destruct (Req_EM_T (vpeak y) 0) as [Z|Z]; split; intro K; try reflexivity; try discriminate.
    - intros i Hi. replace (voiced mix ds x i) with (nth i y 0) by (unfold y; apply nth_mk, Hi). pose proof (vpeak_ge y (nth i y 0)) as G. assert (In (nth i y 0) y) by (apply nth_In; lia). specialize (G H). rewrite Z in G.
      destruct (Req_EM_T (nth i y 0) 0) as [|NZ]; [assumption|]. pose proof (Rabs_pos_lt _ NZ). lra.
    - exfalso. apply Z. destruct (vpeak_att y) as [->|(v & Hv & ->)]; [reflexivity|]. unfold y in Hv. apply in_mk in Hv. destruct Hv as (t & Ht & ->). rewrite K by exact Ht. apply Rabs_R0. }
  split; [|split; [exact N|]].
  - intros q Hq Hz. pose proof (peak_of_vpeak _ _ Hq) as Eq. fold y in Eq. assert (Q0 : 0 < q) by (pose proof (vpeak_pos y); lra).
    exists (map (fun v => v * (p / q)) y). split; [rewrite channel_law; fold y; unfold restore; rewrite Eq, E; destruct (Req_EM_T q 0); [lra|reflexivity]|].
    split; [rewrite map_length; exact L|]. split.
    + intros i Hi. rewrite (nth_map' _ y i 0 0) by lia. unfold y. rewrite nth_mk by exact Hi. ring.
    + fold y in Hq. assert (R0 : 0 <= p / q) by (apply Rmult_le_pos; [exact P0|left; apply Rinv_0_lt_compat, Q0]). destruct Hq as (B & v & Hv & Ev). split.
      * intros u Hu. apply in_map_iff in Hu. destruct Hu as (a & <- & Ha). rewrite Rabs_mult, (Rabs_right (p / q)) by lra. specialize (B a Ha). replace p with (q * (p / q)) at 2 by (field; lra). apply Rmult_le_compat_r; assumption.
      * exists (v * (p / q)). split; [apply (in_map (fun v => v * (p / q))), Hv|]. rewrite Rabs_mult, Ev, (Rabs_right (p / q)) by lra. field. lra.
  - intro Z. apply N. intros i Hi. assert (X : forall j, nth j x 0 = 0).
    { intro j. destruct (Nat.lt_ge_cases j (length x)) as [Hj|Hj]; [|apply nth_overflow, Hj]. destruct Hp as (B & _). specialize (B _ (nth_In x 0 Hj)). rewrite Z in B. destruct (Req_EM_T (nth j x 0) 0) as [|NZ]; [assumption|]. pose proof (Rabs_pos_lt _ NZ). lra. }
    unfold voiced. rewrite X. replace (total _) with 0; [ring|]. symmetry. clear -X. unfold total. induction ds as [|d ds IH]; cbn [map fold_right]; [reflexivity|]. rewrite IH. unfold zero_ext. destruct (_ <? 0)%Z; [|rewrite X]; ring.
Qed.
Print Assumptions C97_channel.
Example C97_channel_example : peak_of [1; 0] 1 /\ peak_of (mk 2 (voiced 1 [[0; 0]%Z] [1; 0])) 2.
Proof.
  split; split.
  - intros v [<-|[<-|[]]]; [rewrite Rabs_right|rewrite Rabs_R0]; lra.
  - exists 1. split; [left; reflexivity|apply Rabs_right; lra].
  - intros v Hv. apply in_mk in Hv. destruct Hv as (t & Ht & ->). destruct t as [|[|t]]; [| |lia]; unfold voiced, total, zero_ext; cbn; [rewrite Rabs_right; lra|]. change (Pos.to_nat 1) with 1%nat. cbv iota. replace (0 + 1 * (0 + 0)) with 0 by ring. rewrite Rabs_R0. lra.
  - exists 2. split; [left; unfold voiced, total, zero_ext; cbn; ring|apply Rabs_right; lra].
Qed.

(** ** the effect *)
Definition settled (c : chorus) : Prop := (0 < c_voices c)%nat /\ length (c_bases c) = c_voices c /\ length (c_depths c) = c_voices c /\ length (c_mods c) = c_voices c.
Lemma opt_results_all : forall (T : Type) (l : list (result (option T))) (ws : list T), Forall2 (fun r w => r = Ok (Some w)) l ws -> opt_results l = Ok (Some ws).
Proof. intros T l ws H. induction H as [|r w l ws E _ IH]; [reflexivity|]. cbn. rewrite E. cbn. rewrite IH. reflexivity. Qed.
Lemma np_round_near : forall r, Rabs (IZR (np_round r) - r) <= 1 / 2.
Proof.
  intro r. pose proof (Claims_fdw.round_nearest r) as H. unfold Claims_fdw.nearest in H. rewrite Rabs_minus_sym. exact H.
Qed.

(** Once every parameter is there for each voice, with plain oscillators, the effect is applied: the voices are the signal some samples later, by the base
    delay plus the oscillator times the depth, rounded to samples. *)
Theorem C97_apply : forall c fs m, settled c -> Forall plain (c_mods c) -> exists ds, length ds = c_voices c /\ apply_chorus c fs m = Ok (Some (map (chorus_channel (c_mix c) ds) m)) /\
  forall v, (v < c_voices c)%nat -> exists w, waveform (nth v (c_mods c) default_lfo) fs (nrows m) = Ok (Some w) /\ length (nth v ds []) = nrows m /\
    forall i, (i < nrows m)%nat -> Rabs (IZR (nth i (nth v ds []) 0%Z) - (nth v (c_bases c) 0 + nth v (c_depths c) 0 * nth i w 0) * fs / 1000) <= 1 / 2.
Proof.
  intros c fs m (V0 & Lb & Ld & Lm) Hp. set (n := nrows m).
  set (wf v := match waveform (nth v (c_mods c) default_lfo) fs n with Ok (Some w) => w | _ => [] end).
  assert (W : forall v, (v < c_voices c)%nat -> waveform (nth v (c_mods c) default_lfo) fs n = Ok (Some (wf v)) /\ length (wf v) = n).
  { intros v Hv. rewrite Forall_forall in Hp. destruct (C96_plain (nth v (c_mods c) default_lfo) fs n) as (w & E & L & _); [apply Hp, nth_In; lia|]. unfold wf. rewrite E. split; [reflexivity|exact L]. }
  set (col v := map (fun u => u * nth v (c_depths c) 0 + nth v (c_bases c) 0) (wf v)).
  assert (E : voice_delays c fs n = Ok (Some (mk (c_voices c) col))).
  { unfold voice_delays. rewrite (opt_results_all _ _ (mk (c_voices c) col)).
    - cbn [bind option_map]. rewrite mk_length, Nat.sub_diag. cbn [repeat]. rewrite app_nil_r. reflexivity.
    - assert (G : forall k l, (k + length l = c_voices c)%nat -> (forall j, (j < length l)%nat -> nth j l default_lfo = nth (k + j) (c_mods c) default_lfo) ->
        Forall2 (fun r w => r = Ok (Some w)) (map (fun p : nat * lfo => let (i, o) := p in bind (waveform o fs n) (fun w => match nth_error (c_depths c) i, nth_error (c_bases c) i with Some d, Some b => if (i <? c_voices c)%nat then Ok (option_map (map (fun v => v * d + b)) w) else Err IndexError | _, _ => Err IndexError end)) (combine (seq k (length l)) l)) (map col (seq k (length l)))).
      { intros k l. revert k. induction l as [|o l IH]; intros k Hk Hl; [constructor|]. cbn [length seq combine map]. constructor.
        - pose proof (Hl 0%nat ltac:(cbn; lia)) as O. cbn [nth] in O. rewrite Nat.add_0_r in O. subst o. cbn [length] in Hk. destruct (W k ltac:(lia)) as (Ew & _). rewrite Ew. cbn [bind].
          rewrite (nth_error_nth' _ 0) by lia. rewrite (nth_error_nth' _ 0) by lia. destruct (Nat.ltb_spec k (c_voices c)); [reflexivity|lia].
        - apply IH; [cbn [length] in Hk; lia|]. intros j Hj. specialize (Hl (S j) ltac:(cbn; lia)). cbn [nth] in Hl. rewrite Hl. f_equal. lia. }
      specialize (G 0%nat (c_mods c) Lm (fun _ _ => eq_refl)). unfold mk. rewrite Lm in G |- *. exact G. }
  exists (map (map (delay_in_samples fs)) (mk (c_voices c) col)). split; [rewrite map_length, mk_length; reflexivity|]. split.
  - unfold apply_chorus. fold n. rewrite E. cbn [bind option_map]. destruct (mk (c_voices c) col) eqn:K; [|reflexivity]. apply (f_equal (@length _)) in K. rewrite mk_length in K. cbn in K. lia.
  - intros v Hv. destruct (W v Hv) as (Ew & Lw). exists (wf v). split; [exact Ew|]. assert (Ec : nth v (map (map (delay_in_samples fs)) (mk (c_voices c) col)) [] = map (delay_in_samples fs) (col v)) by (rewrite (nth_map' _ _ v [] []) by (rewrite mk_length; exact Hv); rewrite nth_mk by exact Hv; reflexivity).
    rewrite Ec. split; [unfold col; rewrite !map_length; exact Lw|]. intros i Hi. rewrite (nth_map' _ _ i 0 0%Z) by (unfold col; rewrite map_length; lia). unfold col. rewrite (nth_map' _ _ i 0 0) by lia. unfold delay_in_samples.
    replace ((nth v (c_bases c) 0 + nth v (c_depths c) 0 * nth i (wf v) 0) * fs / 1000) with ((nth i (wf v) 0 * nth v (c_depths c) 0 + nth v (c_bases c) 0) * (1 / 1000) * fs) by field. apply np_round_near.
Qed.
Print Assumptions C97_apply.
Example C97_apply_example : settled (mkC 2 [15; 20] [5; 5] [mkLfo 2 Harmonic 0 None; mkLfo 1 Square 0 None] 1) /\ Forall plain [mkLfo 2 Harmonic 0 None; mkLfo 1 Square 0 None].
Proof. split; [repeat split; cbn; lia|]. constructor; [left; reflexivity|constructor; [|constructor]]. right. split; [left; reflexivity|reflexivity]. Qed.

(** The voices do not follow the signal, they precede it: of an impulse at sample k the voice with a delay of D samples stands D samples before it, and is lost when the
    impulse comes earlier than that. *)
Theorem C97_delayed_refuted : forall n k (D : nat) a mix, (k < n)%nat -> (0 < D)%nat -> a <> 0 -> 0 < mix <= 1 ->
  chorus_channel mix [repeat (Z.of_nat D) n] (mk n (fun i => if (i =? k)%nat then a else 0)) =
  Some (mk n (fun i => if (i =? k)%nat then a else if (i + D =? k)%nat then mix * a else 0)).
Proof.
  intros n k D a mix Hk HD Ha Hm. set (x := mk n _). assert (Lx : length x = n) by apply mk_length.
  assert (PK : forall f : nat -> R, (forall i, (i < n)%nat -> Rabs (f i) <= Rabs a) -> f k = a -> vpeak (mk n f) = Rabs a).
  { intros f B Ef. apply peak_of_vpeak. split; [intros v Hv; apply in_mk in Hv; destruct Hv as (t & Ht & ->); apply B, Ht|]. exists a. split; [|reflexivity]. rewrite <- Ef. unfold mk. apply in_map, in_seq. lia. }
  assert (A0 : 0 < Rabs a) by (apply Rabs_pos_lt, Ha).
  assert (Y : mk n (voiced mix [repeat (Z.of_nat D) n] x) = mk n (fun i => if (i =? k)%nat then a else if (i + D =? k)%nat then mix * a else 0)).
  { apply list_eq_nth with (d := 0); [rewrite !mk_length; reflexivity|]. intros i Hi. rewrite mk_length in Hi. rewrite !nth_mk by exact Hi. unfold voiced, total. cbn [map fold_right]. rewrite Rplus_0_r.
    replace (nth i (repeat (Z.of_nat D) n) 0%Z) with (Z.of_nat D) by (symmetry; rewrite (nth_indep _ 0%Z (Z.of_nat D)) by (rewrite repeat_length; exact Hi); apply nth_repeat). unfold zero_ext. destruct (Z.ltb_spec (Z.of_nat i + Z.of_nat D) 0); [lia|].
    replace (Z.to_nat (Z.of_nat i + Z.of_nat D)) with (i + D)%nat by lia. unfold x. rewrite nth_mk by exact Hi. destruct (Nat.lt_ge_cases (i + D) n) as [L|L].
    - rewrite nth_mk by exact L. destruct (Nat.eqb_spec i k), (Nat.eqb_spec (i + D) k); try lia; ring.
    - rewrite nth_overflow by (rewrite mk_length; exact L). destruct (Nat.eqb_spec i k), (Nat.eqb_spec (i + D) k); try lia; ring. }
  rewrite channel_law, Lx, Y. unfold restore. unfold x. rewrite !PK.
  - destruct (Req_EM_T (Rabs a) 0); [lra|]. f_equal. rewrite <- (map_id (mk n _)) at 2. apply map_ext. intro v. field. lra.
  - intros i Hi. destruct (i =? k)%nat; [lra|]. rewrite Rabs_R0. lra.
  - rewrite Nat.eqb_refl. reflexivity.
  - intros i Hi. destruct (i =? k)%nat; [lra|]. destruct (i + D =? k)%nat; [|rewrite Rabs_R0; lra]. rewrite Rabs_mult, (Rabs_right mix) by lra. nra.
  - rewrite Nat.eqb_refl. reflexivity.
Qed.
Print Assumptions C97_delayed_refuted.

(** ** parameters *)
Definition given (mods : chorus_mod) : option (list lfo) := match mods with COne o => Some [o] | CList l => Some l | CArray => None end.
Definition fits {T} (n : nat) (l : list T) : Prop := length l = 1%nat \/ length l = n.
Definition filled {T} (n : nat) (l l' : list T) : Prop := length l' = n /\ forall d i, (i < n)%nat -> nth i l' d = nth (if (length l =? 1)%nat then 0%nat else i) l d.
Lemma one_or_true : forall (T : Type) n (l : list T), one_or n (length l) = true <-> fits n l.
Proof. intros T n l. unfold one_or, fits. rewrite orb_true_iff, !Nat.eqb_eq. reflexivity. Qed.
Lemma spread_filled : forall (T : Type) n (l : list T), fits n l -> filled n l (spread n l).
Proof.
  intros T n l H. unfold filled, spread. destruct l as [|a [|b l]].
  - destruct H as [H|H]; [discriminate|]. split; [exact H|reflexivity].
  - split; [apply repeat_length|]. intros d i Hi. cbn [length Nat.eqb nth]. rewrite (nth_indep _ d a) by (rewrite repeat_length; exact Hi). apply nth_repeat.
  - destruct H as [H|H]; [discriminate|]. split; [exact H|]. intros d i Hi. reflexivity.
Qed.
(** An object can be made just when the lists have one length or a single element, the delays are above zero and the mix is in ]0, 100] percent; then each voice has all
    its parameters. *)
Theorem C97_accepted : forall depths bases mods mix c, new_chorus depths bases mods mix = Ok c <->
  exists l n, given mods = Some l /\ n = Nat.max (length bases) (Nat.max (length depths) (length l)) /\ fits n bases /\ fits n depths /\ fits n l /\ (forall v, In v bases -> 0 < v) /\ 0 < mix <= 100 /\
    c_voices c = n /\ filled n bases (c_bases c) /\ filled n depths (c_depths c) /\ filled n l (c_mods c) /\ c_mix c = mix / 100.
Proof.
  assert (FB : forall l, forallb (fun v => if Rlt_dec 0 v then true else false) l = true <-> forall v, In v l -> 0 < v).
  { intro l. rewrite forallb_forall. split; intros H v Hv; specialize (H v Hv); destruct (Rlt_dec 0 v); try assumption; try reflexivity; try discriminate; contradiction. }
  assert (FU : forall (T : Type) (d : T) n (l a b : list T), filled n l a -> filled n l b -> a = b) by (intros T d n l a b (La & Ha) (Lb & Hb); apply list_eq_nth with (d := d); [congruence|]; intros i Hi; rewrite Ha, Hb by congruence; reflexivity).
  assert (SC : forall depths bases l n mods mix, given mods = Some l -> n = Nat.max (length bases) (Nat.max (length depths) (length l)) ->
    new_chorus depths bases mods mix = if (forallb (fun v => if Rlt_dec 0 v then true else false) bases && one_or n (length bases))%bool then if one_or n (length l) then if one_or n (length depths) then
      if Rle_dec (mix / 100) 1 then if Rlt_dec 0 (mix / 100) then Ok (mkC n (spread n bases) (spread n depths) (spread n l) (mix / 100)) else Err AssertionError else Err AssertionError else Err AssertionError else Err AssertionError else Err AssertionError).
  { intros depths bases l n mods mix G En. unfold new_chorus, set_chorus. destruct mods as [o|l'|]; [| |discriminate]; injection G as G; subst l; cbn [length] in En |- *; rewrite <- En; (destruct (_ && _)%bool; [|reflexivity]); cbn [c_bases c_depths c_mods c_mix].
    - unfold one_or at 2. cbn [Nat.eqb orb]. destruct (one_or n (length depths)); [|reflexivity]. destruct (Rle_dec _ _); [|reflexivity]. destruct (Rlt_dec _ _); reflexivity.
    - destruct (one_or n (length l')); [|reflexivity]. destruct (one_or n (length depths)); [|reflexivity]. destruct (Rle_dec _ _); [|reflexivity]. destruct (Rlt_dec _ _); reflexivity. }
  intros depths bases mods mix c. split.
  - intro H. destruct (given mods) as [l|] eqn:G.
    + exists l, (Nat.max (length bases) (Nat.max (length depths) (length l))). set (n := Nat.max _ _). rewrite (SC depths bases l n mods mix G eq_refl) in H.
      destruct (forallb _ bases) eqn:E1; [|discriminate]. cbn [andb] in H. destruct (one_or n (length bases)) eqn:E2; [|discriminate]. destruct (one_or n (length l)) eqn:E3; [|discriminate]. destruct (one_or n (length depths)) eqn:E4; [|discriminate].
      destruct (Rle_dec (mix / 100) 1); [|discriminate]. destruct (Rlt_dec 0 (mix / 100)); [|discriminate]. injection H as <-. apply one_or_true in E2, E3, E4. rewrite FB in E1.
      split; [reflexivity|]. split; [reflexivity|]. do 4 (split; [assumption|]). split; [lra|]. cbn. split; [reflexivity|]. repeat (split; [apply spread_filled; assumption|]). reflexivity.
    + destruct mods as [o|l|]; try discriminate. unfold new_chorus, set_chorus in H. destruct (_ && _)%bool in H; discriminate.
  - intros (l & n & G & En & F1 & F2 & F3 & B & M & K1 & K2 & K3 & K4 & K5). rewrite (SC depths bases l n mods mix G En). apply FB in B. rewrite B. pose proof (spread_filled _ _ _ F1) as S1. pose proof (spread_filled _ _ _ F2) as S2. pose proof (spread_filled _ _ _ F3) as S3.
    apply one_or_true in F1, F2, F3. rewrite F1, F2, F3. cbn [andb]. destruct (Rle_dec (mix / 100) 1); [|lra]. destruct (Rlt_dec 0 (mix / 100)); [|lra]. f_equal. destruct c as [cv cb cd cm cx]. cbn in *. subst cv cx.
    rewrite (FU _ 0 _ _ _ _ S1 K2), (FU _ 0 _ _ _ _ S2 K3), (FU _ default_lfo _ _ _ _ S3 K4). reflexivity.
Qed.
Print Assumptions C97_accepted.
Example C97_accepted_example : exists c, new_chorus [5] [15; 20] (COne default_lfo) 50 = Ok c.
Proof.
  exists (mkC 2 [15; 20] [5; 5] [default_lfo; default_lfo] (50 / 100)). apply C97_accepted. exists [default_lfo], 2%nat. unfold fits, filled. cbn [given length Nat.max c_voices c_bases c_depths c_mods c_mix].
  repeat split; auto; try lra; try (intros v [<-|[<-|[]]]; lra); intros d i Hi; destruct i as [|[|i]]; try lia; reflexivity.
Qed.

(** Changing one list leaves the others at their old length. More base delays only: the added voices are the signal itself, undelayed. More oscillators only: the effect cannot be
    applied any more. *)
Theorem C97_stale_refuted : forall o b d mix b1 b2 o1 o2 fs m, plain o -> plain o1 -> plain o2 -> 0 < b1 -> 0 < b2 ->
  let c := mkC 1 [b] [d] [o] mix in
  (exists c', set_chorus None (Some [b1; b2]) None None c = (c', Ok tt) /\ c_voices c' = 2%nat /\
     exists d1, apply_chorus c' fs m = Ok (Some (map (chorus_channel mix [d1; repeat 0%Z (nrows m)]) m))) /\
  (exists c', set_chorus None None (Some (CList [o1; o2])) None c = (c', Ok tt) /\ c_voices c' = 2%nat /\ apply_chorus c' fs m = Err IndexError).
Proof.
  intros o b d mix b1 b2 o1 o2 fs m Po P1 P2 H1 H2 c. destruct (C96_plain o fs (nrows m) Po) as (w & E & _). destruct (C96_plain o1 fs (nrows m) P1) as (w1 & E1 & _). destruct (C96_plain o2 fs (nrows m) P2) as (w2 & E2 & _). split.
  - exists (mkC 2 [b1; b2] [d] [o] mix). split; [|split; [reflexivity|]].
    + unfold set_chorus, c. cbn. destruct (Rlt_dec 0 b1); [|lra]. destruct (Rlt_dec 0 b2); [|lra]. reflexivity.
    + eexists. unfold apply_chorus, voice_delays. cbn [c_mods c_voices c_depths c_bases c_mix length seq combine map opt_results nth_error]. rewrite E. cbn [bind option_map Nat.ltb Nat.leb opt_results length Nat.sub repeat app map]. do 2 f_equal. apply map_ext. intro x.
      do 3 f_equal. assert (Z0 : delay_in_samples fs 0 = 0%Z) by (unfold delay_in_samples; rewrite !Rmult_0_l; apply round_char; [unfold nearest; rewrite Rminus_0_r, Rabs_R0; lra|reflexivity]). clear - Z0. generalize (nrows m). intro k. induction k as [|k IH]; [reflexivity|]. cbn [repeat map]. rewrite Z0, IH. reflexivity.
  - exists (mkC 2 [b] [d] [o1; o2] mix). split; [reflexivity|]. split; [reflexivity|]. unfold apply_chorus, voice_delays. cbn [c_mods c_voices c_depths c_bases c_mix length seq combine map opt_results nth_error]. rewrite E1, E2. reflexivity.
Qed.
Print Assumptions C97_stale_refuted.

(** A call that sets no list, or all of them, keeps every voice complete. *)
Theorem C97_kept : forall c c', settled c ->
  (forall mix, set_chorus None None None mix c = (c', Ok tt) -> settled c' /\ c_bases c' = c_bases c /\ c_depths c' = c_depths c /\ c_mods c' = c_mods c) /\
  (forall depths bases mods mix, bases <> [] -> set_chorus (Some depths) (Some bases) (Some mods) mix c = (c', Ok tt) -> settled c').
Proof.
  intros c c' (V0 & Lb & Ld & Lm). split.
  - intros mix H. unfold set_chorus in H. rewrite Lb, Ld, Lm, !Nat.max_id in H. destruct mix as [v|]; [destruct (Rle_dec (v / 100) 1); [destruct (Rlt_dec 0 (v / 100))|]|]; try discriminate; injection H as <-; unfold settled; cbn; auto.
  - intros depths bases mods mix Hb H. unfold set_chorus in H. set (n := Nat.max _ _) in H. assert (N0 : (0 < n)%nat) by (unfold n; destruct bases; [congruence|]; cbn [length]; lia).
    assert (SP : forall (T : Type) (l : list T), one_or n (length l) = true -> length (spread n l) = n) by (intros T l K; apply one_or_true in K; apply spread_filled, K).
    destruct (forallb _ bases && _)%bool eqn:E1 in H; [|discriminate]. apply andb_true_iff in E1. destruct E1 as (_ & E1). cbn [c_bases c_depths c_mods c_mix] in H.
    assert (G : forall l, length l = n -> (let '(c0, e) := (if one_or n (length depths) then (mkC n (spread n bases) (spread n depths) l (c_mix c), Ok tt) else (mkC n (spread n bases) depths l (c_mix c), Err AssertionError)) in
       match e with Err _ => (c0, e) | Ok _ => match mix with Some v => if Rle_dec (v / 100) 1 then if Rlt_dec 0 (v / 100) then (mkC n (c_bases c0) (c_depths c0) (c_mods c0) (v / 100), Ok tt) else (c0, Err AssertionError) else (c0, Err AssertionError) | None => (c0, Ok tt) end end) = (c', Ok tt) -> settled c').
    { intros l Ll K. destruct (one_or n (length depths)) eqn:E2; [|discriminate]. unfold settled. destruct mix as [v|]; [destruct (Rle_dec (v / 100) 1); [destruct (Rlt_dec 0 (v / 100))|]|]; try discriminate; injection K as <-; cbn; rewrite !SP by assumption; auto. }
    destruct mods as [o|l|]; [| |discriminate].
    + cbn [c_bases c_depths c_mods c_mix] in H. apply (G _ (repeat_length _ _) H).
    + destruct (one_or n (length l)) eqn:E3; [|discriminate]. apply (G _ (SP _ _ E3) H).
Qed.
Print Assumptions C97_kept.

(** Arrays, documented as modulators, are refused; the base delays and the number of voices of the call are already in force then. *)
Theorem C97_array_refuted : forall c b1 b2 depths mix, 0 < b1 -> 0 < b2 -> (length depths <= 2)%nat ->
  set_chorus (Some depths) (Some [b1; b2]) (Some CArray) mix c = (mkC 2 [b1; b2] (c_depths c) (c_mods c) (c_mix c), Err AssertionError).
Proof.
  intros c b1 b2 depths mix H1 H2 Hd. unfold set_chorus. cbn [length]. replace (Nat.max 2 (Nat.max (length depths) 1)) with 2%nat by lia. cbn [forallb]. destruct (Rlt_dec 0 b1); [|lra]. destruct (Rlt_dec 0 b2); [|lra]. reflexivity.
Qed.
Print Assumptions C97_array_refuted.
