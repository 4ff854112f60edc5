(** C72: monopole sources, their mixture on an array and the delay-and-sum beamformer in the time domain. *)
From Coq Require Import List Arith Lia ZArith Bool Reals Lra Psatz.
From Verif Require Import Alg Spec Dft M_arrays M_delay M_latency M_beam M_fracdelay P_arrays P_arrays2 P_ar Claims_grid Claims_steering Claims_fracdelay.
Import ListNotations.
Local Open Scope R_scope.

(** ** Specification *)
(** The whole number nearest to [d], the smaller one of two. *)
Definition nearest_whole (d : R) : Z := (- Int_part (1 / 2 - d))%Z.
(** The signal [x] delayed by [d] samples, at the time [i]: interpolation with the 31 samples around [i] - [d]. *)
Definition wave (b : R -> R) (d : R) (x : list R) (i : nat) : R := interpolated b (kaiser_beta 60) 30 (nearest_whole d - 15) d x i.
(** What a source makes heard at a microphone. *)
Definition heard (b : R -> R) (fs c : R) (m : point) (s : source) (i : nat) : R := wave b (euclid m (so_place s) / c * fs) (so_signal s) i / (1 + euclid m (so_place s)).
(** The delays are shorter than the signal. *)
Definition in_reach (fs c : R) (mics : list point) (s : source) : Prop := so_signal s <> [] /\ forall m, In m mics -> euclid m (so_place s) / c * fs < INR (length (so_signal s)).
Definition total_heard b fs c m (srcs : list source) i : R := fold_right Rplus 0 (map (fun s => heard b fs c m s i) srcs).
(** Every source is cut to the length of the shortest one up to it. *)
Fixpoint cut (t : nat) (srcs : list source) : list source :=
  match srcs with [] => [] | s :: r => let t' := min t (length (so_signal s)) in mkSource (firstn t' (so_signal s)) (so_place s) :: cut t' r end.
Definition shortest (t : nat) (srcs : list source) : nat := fold_left (fun t s => min t (length (so_signal s))) srcs t.

(** ** Lemmas *)
Lemma nearest_centred d : centred 30 (nearest_whole d - 15) d.
Proof.
  unfold centred, nearest_whole. change (Nat.odd 30) with false. cbv iota. pose proof (base_Int_part (1 / 2 - d)) as [A B]. rewrite minus_IZR, opp_IZR. replace (INR 30) with 30 by (simpl; lra). lra.
Qed.
Lemma wave_whole b m x i : b (Rsqr (kaiser_beta 60)) <> 0 -> wave b (INR m) x i = if (i <? m)%nat then 0 else get x (i - m).
Proof. intros B. unfold wave. apply interpolated_whole; auto. apply nearest_centred. lia. Qed.
Lemma wave_zero b x i : b (Rsqr (kaiser_beta 60)) <> 0 -> wave b 0 x i = get x i.
Proof. intros B. change 0 with (INR 0) at 1. rewrite wave_whole by auto. simpl. now rewrite Nat.sub_0_r. Qed.
Lemma wave_after b d x i : 0 <= d -> INR (length x) + d + 16 <= INR i -> wave b d x i = 0.
Proof. intros H K. apply interpolated_after. pose proof (nearest_centred d) as C. unfold centred in C. change (Nat.odd 30) with false in C. cbv iota in C. replace (INR 30) with 30 in C by (simpl; lra). apply le_IZR. rewrite !plus_IZR, <- !INR_IZR_INZ. replace (INR 30) with 30 by (simpl; lra). lra. Qed.
Lemma div_nonneg x y : 0 <= x -> 0 < y -> 0 <= x / y.
Proof. intros. apply Rmult_le_pos; auto. left. now apply Rinv_0_lt_compat. Qed.
Lemma frac_one_law b fs tau keep x : b (Rsqr (kaiser_beta 60)) <> 0 -> 0 < fs -> 0 <= tau -> x <> [] -> (keep = true -> tau * fs < INR (length x)) ->
  exists y, frac_one b fs tau keep x = Ok y /\ (keep = true -> length y = length x) /\ (forall i, (i < length y)%nat -> get y i = wave b (tau * fs) x i) /\
    (keep = false -> forall i, (length y <= i)%nat -> wave b (tau * fs) x i = 0).
Proof.
  intros B Hf Ht Hx Hk. unfold frac_one. destruct (Req_EM_T tau 0) as [->|N].
  - destruct (C71_limits b fs 0 None keep 30 60 [x] Hf) as (E & _). rewrite E by auto. exists x. cbn [bind nth]. rewrite Rmult_0_l. split; auto. split; auto. split; intros; rewrite wave_zero by auto; auto. now apply (get_out (HA := CRing_R)).
  - destruct (one_channel b fs tau keep 30 60 x) as (y & lo & E & C & Bd & L & G); auto. lra. rewrite E. cbn [bind nth]. exists y. split; auto. assert (El : lo = (nearest_whole (tau * fs) - 15)%Z) by (eapply centred_unique; [exact C|apply nearest_centred]). split. intros ->. auto.
    split. intros i Hi. rewrite G by auto. unfold wave. now rewrite El. intros -> i Hi. unfold wave. rewrite <- El. apply interpolated_after. cbv iota in L. lia.
Qed.
Lemma collect_map {A B} (f : A -> result B) (P : A -> B -> Prop) l : (forall a, In a l -> exists y, f a = Ok y /\ P a y) ->
  exists ys, collect (map f l) = Ok ys /\ length ys = length l /\ forall i da db, (i < length l)%nat -> P (nth i l da) (nth i ys db).
Proof.
  induction l as [|a l IH]; intros H. exists []. repeat split; auto. simpl. lia. destruct (H a ltac:(now left)) as (y & E & Py). destruct IH as (ys & E' & L & V). { intros; apply H; now right. }
  exists (y :: ys). simpl. rewrite E. simpl. rewrite E'. simpl. split; auto. split; [lia|]. intros i da db Hi. destruct i; simpl; auto. apply V. lia.
Qed.
Lemma collect_err {A B} (f : A -> result B) l e : (forall a, In a l -> f a = Err e \/ exists y, f a = Ok y) -> (exists a, In a l /\ f a = Err e) -> collect (map f l) = Err e.
Proof.
  induction l as [|a l IH]; intros H (x & Hx & Ex). easy. simpl. destruct (H a ltac:(now left)) as [E|[y E]]; rewrite E; simpl; auto. rewrite IH; auto. intros; apply H; now right. exists x. split; auto. destruct Hx as [->|]; auto. congruence.
Qed.
Lemma on_array_law b fs c mics s : b (Rsqr (kaiser_beta 60)) <> 0 -> 0 < fs -> 0 < c -> in_reach fs c mics s ->
  exists ys, on_array b fs c mics s = Ok ys /\ length ys = length mics /\ forall m, (m < length mics)%nat -> length (nth m ys []) = length (so_signal s) /\
    forall i, (i < length (so_signal s))%nat -> get (nth m ys []) i = heard b fs c (mic mics m) s i.
Proof.
  intros B Hf Hc (Hx & Hr). unfold on_array. destruct (collect_map (fun m : point => let d := dist m (so_place s) in bind (frac_one b fs (d / c) true (so_signal s)) (fun y => Ok (map (fun v => v / (1 + d)) y)))
    (fun m y => length y = length (so_signal s) /\ forall i, (i < length (so_signal s))%nat -> get y i = heard b fs c m s i) mics) as (ys & E & L & V).
  - intros m Hm. cbv zeta. pose proof (Hr m Hm) as R1. assert (D0 : 0 <= dist m (so_place s)) by apply dist_nonneg. rewrite <- dist_euclid in R1. destruct (frac_one_law b fs (dist m (so_place s) / c) true (so_signal s)) as (y & E & L & G & _); auto. now apply div_nonneg.
    rewrite E. cbn [bind]. eexists. split; [reflexivity|]. rewrite map_length. split; auto. intros i Hi. unfold get. rewrite (nth_map' _ y i 0) by (rewrite L; auto). change (nth i y 0) with (get (HA := CRing_R) y i). rewrite G by (rewrite L; auto). unfold heard. now rewrite dist_euclid.
  - exists ys. split; [exact E|]. split; [exact L|]. intros m Hm. apply (V m (0, 0, 0) []). auto.
Qed.

(** ** Sources *)
Theorem C72_monopole :
  forall b fs c mics s, b (Rsqr (kaiser_beta 60)) <> 0 -> 0 < fs -> 0 < c ->
  (in_reach fs c mics s -> exists ys, on_array b fs c mics s = Ok ys /\ length ys = length mics /\ forall m, (m < length mics)%nat -> length (nth m ys []) = length (so_signal s) /\
    forall i, (i < length (so_signal s))%nat -> get (nth m ys []) i = heard b fs c (mic mics m) s i) /\
  (so_signal s <> [] -> (exists m, In m mics /\ INR (length (so_signal s)) <= euclid m (so_place s) / c * fs) -> on_array b fs c mics s = Err AssertionError).
Proof.
  intros b fs c mics s B Hf Hc. split. now apply on_array_law. intros Hx (m & Hm & K). unfold on_array. apply collect_err.
  - intros a Ha. cbv zeta. destruct (Rlt_dec (dist a (so_place s) / c * fs) (INR (length (so_signal s)))) as [L|L].
    + right. destruct (frac_one_law b fs (dist a (so_place s) / c) true (so_signal s)) as (y & E & _); auto. apply div_nonneg; auto. apply dist_nonneg. rewrite E. eexists. reflexivity.
    + left. assert (0 < INR (length (so_signal s))) by (apply lt_0_INR; destruct (so_signal s); [easy|simpl; lia]). assert (0 < dist a (so_place s) / c) by (destruct (Rlt_dec 0 (dist a (so_place s) / c)); auto; exfalso; nra).
      unfold frac_one. destruct (C71_limits b fs (dist a (so_place s) / c) None true 30 60 [so_signal s] Hf) as (_ & _ & E & _). rewrite E; auto. simpl. lra.
  - exists m. split; auto. cbv zeta. rewrite <- dist_euclid in K. assert (0 < INR (length (so_signal s))) by (apply lt_0_INR; destruct (so_signal s); [easy|simpl; lia]). assert (0 < dist m (so_place s) / c) by (destruct (Rlt_dec 0 (dist m (so_place s) / c)); auto; exfalso; nra).
    unfold frac_one. destruct (C71_limits b fs (dist m (so_place s) / c) None true 30 60 [so_signal s] Hf) as (_ & _ & E & _). rewrite E; auto.
Qed.
Print Assumptions C72_monopole.

(** ** Mixtures *)
Lemma shortest_le t srcs : (shortest t srcs <= t)%nat.
Proof. revert t. induction srcs as [|s r IH]; intros t; simpl; auto. unfold shortest in *. simpl. etransitivity; [apply IH|]. lia. Qed.
Lemma mix_rest_law b fs c mics (B : b (Rsqr (kaiser_beta 60)) <> 0) (Hf : 0 < fs) (Hc : 0 < c) : forall srcs total acc (F : nat -> nat -> R), length acc = length mics ->
  (forall m, (m < length mics)%nat -> length (nth m acc []) = total /\ forall i, (i < total)%nat -> get (nth m acc []) i = F m i) ->
  (forall s, In s (cut total srcs) -> in_reach fs c mics s) ->
  exists out, mix_rest b fs c mics total acc srcs = (cut total srcs, Ok out) /\ length out = length mics /\
    forall m, (m < length mics)%nat -> length (nth m out []) = shortest total srcs /\ forall i, (i < shortest total srcs)%nat -> get (nth m out []) i = F m i + total_heard b fs c (mic mics m) (cut total srcs) i.
Proof.
  induction srcs as [|s rest IH]; intros total acc F La Va R1; cbn [mix_rest cut].
  - exists acc. split; auto. split; auto. intros m Hm. destruct (Va m Hm) as [L G]. split; auto. intros i Hi. rewrite G by auto. unfold total_heard. simpl. ring.
  - cbn [cut] in R1. set (n := length (so_signal s)) in *. set (t := min total n) in *. assert (Et : (if (total =? n)%nat then total else t) = t) by (destruct (Nat.eqb_spec total n); unfold t; lia). rewrite Et.
    set (s' := mkSource (firstn t (so_signal s)) (so_place s)) in *. assert (Es : (if (total =? n)%nat then s else mkSource (pad_trim_col t true (so_signal s)) (so_place s)) = s').
    { destruct (Nat.eqb_spec total n) as [E|E]. unfold s', t. rewrite E, Nat.min_id. unfold n. rewrite firstn_all. now destruct s. unfold s'. rewrite pad_trim_end_trim by (unfold t, n; lia). reflexivity. } rewrite Es.
    set (acc' := if (total =? n)%nat then acc else map (pad_trim_col t true) acc). assert (La' : length acc' = length mics) by (unfold acc'; destruct (total =? n)%nat; rewrite ?map_length; auto).
    assert (Va' : forall m, (m < length mics)%nat -> length (nth m acc' []) = t /\ forall i, (i < t)%nat -> get (nth m acc' []) i = F m i).
    { intros m Hm. destruct (Va m Hm) as [L G]. unfold acc'. destruct (Nat.eqb_spec total n) as [E|E]. replace t with total by (unfold t; lia). auto. rewrite (nth_map' _ acc m []) by lia. split. apply pad_trim_length. intros i Hi. rewrite pad_trim_end by auto. apply G. unfold t in Hi. lia. }
    assert (Ls : length (so_signal s') = t) by (unfold s'; simpl; rewrite firstn_length; unfold t, n; lia).
    destruct (on_array_law b fs c mics s' B Hf Hc) as (y & E & Ly & Vy). { apply R1. now left. } rewrite E. rewrite Ls in Vy.
    destruct (IH t (mk (length acc') (fun m => vadd (nth m acc' []) (nth m y []))) (fun m i => F m i + heard b fs c (mic mics m) s' i)) as (out & E' & Lo & Vo).
    + rewrite mk_length. auto.
    + intros m Hm. rewrite nth_mk by lia. destruct (Va' m Hm) as [L1 G1]. destruct (Vy m Hm) as [L2 G2]. split. rewrite vadd_length. auto. intros i Hi. rewrite get_vadd by lia. rewrite G1, G2 by auto. reflexivity.
    + intros q Hq. apply R1. now right.
    + rewrite E'. exists out. split; auto. split; auto. intros m Hm. destruct (Vo m Hm) as [L G]. split; auto. intros i Hi. rewrite G by auto. unfold total_heard. cbn [map fold_right]. ring.
Qed.
(** The mixture is the sum of what the sources make heard, each but the first cut to the shortest up to it before it is delayed; the caller's
    list loses its first source, and the others keep the cut signals. *)
Theorem C72_mixture :
  forall b fs c mics s rest, b (Rsqr (kaiser_beta 60)) <> 0 -> 0 < fs -> 0 < c -> let n := length (so_signal s) in
  in_reach fs c mics s -> (forall q, In q (cut n rest) -> in_reach fs c mics q) ->
  exists out, mix b fs c mics (s :: rest) = (cut n rest, Ok out) /\ length out = length mics /\
    forall m, (m < length mics)%nat -> length (nth m out []) = shortest n rest /\ forall i, (i < shortest n rest)%nat -> get (nth m out []) i = total_heard b fs c (mic mics m) (s :: cut n rest) i.
Proof.
  intros b fs c mics s rest B Hf Hc n R1 R2. unfold mix. destruct (on_array_law b fs c mics s B Hf Hc R1) as (y & E & Ly & Vy). rewrite E. fold n in Vy. fold n.
  destruct (mix_rest_law b fs c mics B Hf Hc rest n y (fun m i => heard b fs c (mic mics m) s i) Ly Vy R2) as (out & E' & Lo & Vo). exists out. split; auto.
Qed.
Print Assumptions C72_mixture.
Lemma cut_equal n srcs : (forall s, In s srcs -> length (so_signal s) = n) -> cut n srcs = srcs /\ shortest n srcs = n.
Proof.
  induction srcs as [|s r IH]; intros H; auto. cbn [cut]. unfold shortest. cbn [fold_left]. rewrite (H s (or_introl eq_refl)), Nat.min_id. destruct IH as [E1 E2]. { intros; apply H; now right. } rewrite E1. split. f_equal. destruct s as [x p]. simpl. f_equal. rewrite <- (H (mkSource x p)) by now left. simpl. apply firstn_all. exact E2.
Qed.
(** Signals of equal length: any order of the sources gives the same mixture. *)
Theorem C72_equal_lengths :
  forall b fs c mics srcs n, b (Rsqr (kaiser_beta 60)) <> 0 -> 0 < fs -> 0 < c -> srcs <> [] -> (forall s, In s srcs -> length (so_signal s) = n /\ in_reach fs c mics s) ->
  exists out, mix b fs c mics srcs = (tl srcs, Ok out) /\ length out = length mics /\
    forall m, (m < length mics)%nat -> length (nth m out []) = n /\ forall i, (i < n)%nat -> get (nth m out []) i = total_heard b fs c (mic mics m) srcs i.
Proof.
  intros b fs c mics srcs n B Hf Hc N H. destruct srcs as [|s rest]; [easy|]. destruct (H s (or_introl eq_refl)) as [Ls Rs]. destruct (cut_equal n rest) as [E1 E2]. { intros q Hq. apply H. now right. }
  destruct (C72_mixture b fs c mics s rest B Hf Hc Rs) as (out & E & L & V). rewrite Ls, E1. intros q Hq. apply H. now right. rewrite Ls, E1, ?E2 in *. exists out. auto.
Qed.
Print Assumptions C72_equal_lengths.
(** Calling again with the same list: the call after k calls mixes the sources without the first k, and after all sources are used up it raises. *)
Theorem C72_repeated_calls :
  forall b fs c mics srcs n k, b (Rsqr (kaiser_beta 60)) <> 0 -> 0 < fs -> 0 < c -> (forall s, In s srcs -> length (so_signal s) = n /\ in_reach fs c mics s) ->
  let after := final (fun l (_ : unit) => mix b fs c mics l) srcs (repeat tt k) in
  after = skipn k srcs /\ ((length srcs <= k)%nat -> snd (mix b fs c mics after) = Err AssertionError) /\
  ((k < length srcs)%nat -> exists out, snd (mix b fs c mics after) = Ok out /\ forall m i, (m < length mics)%nat -> (i < n)%nat -> get (nth m out []) i = total_heard b fs c (mic mics m) (skipn k srcs) i).
Proof.
  intros b fs c mics srcs n k B Hf Hc H after. assert (E : after = skipn k srcs).
  { unfold after. clear after. revert srcs H. induction k as [|k IH]; intros srcs H; auto. cbn [repeat final]. destruct srcs as [|s rest].
    - unfold final in *. simpl. rewrite IH by easy. now destruct k.
    - destruct (C72_equal_lengths b fs c mics (s :: rest) n B Hf Hc) as (out & E & _); auto; [discriminate|]. rewrite E. cbn [fst tl skipn]. apply IH. intros q Hq. apply H. now right. }
  split; auto. rewrite E. split.
  - intros L. rewrite skipn_all2 by auto. reflexivity.
  - intros L. destruct (C72_equal_lengths b fs c mics (skipn k srcs) n B Hf Hc) as (out & E' & _ & V). intros Z. apply (f_equal (@length _)) in Z. rewrite skipn_length in Z. simpl in Z. lia. intros s Hs. apply H. rewrite <- (firstn_skipn k srcs). apply in_or_app. now right.
    rewrite E'. exists out. split; auto. intros m i Hm Hi. now apply V.
Qed.
Print Assumptions C72_repeated_calls.
(** Two equal calls need not give the same mixture. *)
Definition case_mics : list point := [(0, 0, 0); (1, 0, 0)].
Definition case_source : source := mkSource [1; 2; 3] (0, 0, 0).
Lemma euclid_axis a r : euclid (a, 0, 0) (r, 0, 0) = Rabs (a - r).
Proof. unfold euclid. cbn [fst snd coord]. rewrite <- sqrt_Rsqr_abs. f_equal. unfold Rsqr. ring. Qed.
Lemma case_reach : in_reach 1 1 case_mics case_source.
Proof.
  split. discriminate. intros m [<-|[<-|[]]]; unfold case_source; cbn [so_place so_signal length]; rewrite euclid_axis; simpl.
  - rewrite Rminus_0_r, Rabs_R0. lra.
  - rewrite Rminus_0_r, Rabs_R1. lra.
Qed.
Theorem C72_same_call_refuted :
  exists mics srcs, (forall s, In s srcs -> length (so_signal s) = 3%nat /\ in_reach 1 1 mics s) /\
    forall b, b (Rsqr (kaiser_beta 60)) <> 0 -> exists first second, snd (mix b 1 1 mics srcs) = Ok first /\ snd (mix b 1 1 mics (fst (mix b 1 1 mics srcs))) = Ok second /\
      get (nth 0 first []) 0 = 2 /\ get (nth 0 second []) 0 = 1.
Proof.
  exists case_mics, [case_source; case_source]. assert (H : forall s, In s [case_source; case_source] -> length (so_signal s) = 3%nat /\ in_reach 1 1 case_mics s) by (intros s [<-|[<-|[]]]; split; auto; apply case_reach).
  split; auto. intros b B. destruct (C72_repeated_calls b 1 1 case_mics [case_source; case_source] 3 0 B Rlt_0_1 Rlt_0_1 H) as (_ & _ & X). destruct (X ltac:(simpl; lia)) as (f & E1 & V1).
  destruct (C72_repeated_calls b 1 1 case_mics [case_source; case_source] 3 1 B Rlt_0_1 Rlt_0_1 H) as (_ & _ & Y). destruct (Y ltac:(simpl; lia)) as (g & E2 & V2). exists f, g. split; [exact E1|]. split; [exact E2|].
  rewrite V1, V2 by (simpl; lia). assert (Hh : heard b 1 1 (mic case_mics 0) case_source 0 = 1).
  { unfold heard. replace (euclid (mic case_mics 0) (so_place case_source)) with 0. unfold Rdiv at 2. rewrite !Rmult_0_l, wave_zero by auto. unfold get. simpl. field. change (mic case_mics 0) with (0, 0, 0). unfold case_source. cbn [so_place]. rewrite euclid_axis, Rminus_0_r, Rabs_R0. reflexivity. }
  unfold total_heard. cbn [skipn map fold_right]. rewrite Hh. lra.
Qed.
Print Assumptions C72_same_call_refuted.

(** ** The beamformer *)
Lemma collect_mk {B} (f : nat -> result B) (P : nat -> B -> Prop) n : (forall i, (i < n)%nat -> exists y, f i = Ok y /\ P i y) ->
  exists ys, collect (mk n f) = Ok ys /\ length ys = n /\ forall i d, (i < n)%nat -> P i (nth i ys d).
Proof.
  intros H. unfold mk. destruct (collect_map f P (seq 0 n)) as (ys & E & L & V). intros a Ha. apply in_seq in Ha. apply H. lia. rewrite seq_length in L. exists ys. split; [exact E|]. split; auto. intros i d Hi. specialize (V i 0%nat d). rewrite seq_length, seq_nth in V by auto. apply V. auto.
Qed.
Lemma fold_vadd_get L : forall ys (z : list R) (F : nat -> nat -> R), length z = L -> (forall m, (m < length ys)%nat -> forall i, (i < L)%nat -> get (nth m ys []) i = F m i) ->
  length (fold_left vadd ys z) = L /\ forall i, (i < L)%nat -> get (fold_left vadd ys z) i = get z i + rsum (length ys) (fun m => F m i).
Proof.
  induction ys as [|y ys IH]; intros z F Lz V. split; auto. intros. simpl. change (@r0 R CRing_R) with 0. ring.
  cbn [fold_left length]. destruct (IH (vadd z y) (fun m => F (S m))) as [L1 G1]. now rewrite vadd_length. intros m Hm. apply (V (S m)). simpl. lia. split; auto. intros i Hi. rewrite G1 by auto. rewrite get_vadd by lia. rewrite (sum_S_front (HA := CRing_R)). pose proof (V 0%nat ltac:(simpl; lia) i Hi) as V0. cbn [nth] in V0. rewrite V0. change (@radd R CRing_R) with Rplus. ring.
Qed.
(** The output at a grid point: the mean over the microphones of the signals, weighted with the distances and delayed so that all paths are
    as long as the longest one, [far]. *)
Theorem C72_beamformer :
  forall b fs c mics grid xs n, b (Rsqr (kaiser_beta 60)) <> 0 -> 0 < fs -> 0 < c -> mics <> [] -> grid <> [] -> length xs = length mics -> (0 < n)%nat -> (forall x, In x xs -> length x = n) ->
  exists out near far len, das_time b fs c mics grid xs = Ok out /\ length out = length grid /\
    (forall m g, In m mics -> In g grid -> near <= euclid m g <= far) /\ (exists m g, In m mics /\ In g grid /\ euclid m g = far) /\ (exists m g, In m mics /\ In g grid /\ euclid m g = near) /\
    INR n + (far - near) / c * fs + 1 < INR len <= INR n + (far - near) / c * fs + 2 /\
    forall g, (g < length grid)%nat -> length (nth g out []) = len /\ forall i, (i < len)%nat ->
      get (nth g out []) i = rsum (length mics) (fun m => euclid (mic mics m) (mic grid g) * wave b ((far - euclid (mic mics m) (mic grid g)) / c * fs) (nth m xs []) i) / INR (length mics).
Proof.
  intros b fs c mics grid xs n B Hf Hc Nm Ng Lx Hn Hx. unfold das_time. set (ds := flat_map _ mics).
  assert (Din : forall v, In v ds <-> exists m g, In m mics /\ In g grid /\ euclid m g = v). { intros v. unfold ds. rewrite in_flat_map. split. intros (m & Hm & Hv). apply in_map_iff in Hv as (g & E & Hg). exists m, g. rewrite <- dist_euclid. auto. intros (m & g & Hm & Hg & E). exists m. split; auto. apply in_map_iff. exists g. rewrite dist_euclid. auto. }
  assert (Nd : ds <> []). { destruct mics as [|m]; [easy|]. destruct grid as [|g]; [easy|]. discriminate. } destruct (max_list_spec ds Nd) as [M1 M2]. destruct (min_list_spec ds Nd) as [M3 M4]. set (far := max_list ds) in *. set (near := min_list ds) in *.
  assert (En : length (hd [] xs) = n). { destruct xs as [|x xs']; [destruct mics; [easy|discriminate]|]. apply Hx. now left. } rewrite En. set (u := (far - near) / c * fs).
  assert (U : 0 <= u). { unfold u. assert (near <= far) by (apply M2; auto). apply Rmult_le_pos; [|lra]. apply div_nonneg; auto. lra. }
  set (len := (n + Z.to_nat (Int_part (u + 2)))%nat). assert (Ul : INR n + u + 1 < INR len <= INR n + u + 2).
  { pose proof (base_Int_part (u + 2)) as [A A']. assert (0 <= Int_part (u + 2))%Z by (apply Z.lt_succ_r, lt_IZR; rewrite succ_IZR; lra). unfold len. rewrite plus_INR, (INR_IZR_INZ (Z.to_nat _)), Z2Nat.id by auto. lra. }
  destruct (collect_map (fun g => bind (collect (mk (length mics) (fun im => let d := dist (nth im mics (0, 0, 0)) g in bind (frac_one b fs ((far - d) / c) false (nth im xs [])) (fun y => Ok (pad_trim_col len true (map (fun v => v * d) y))))))
         (fun ys => Ok (map (fun v => v / INR (length mics)) (fold_left vadd ys (repeat 0 len)))))
    (fun g col => In g grid -> length col = len /\ forall i, (i < len)%nat -> get col i = rsum (length mics) (fun m => euclid (mic mics m) g * wave b ((far - euclid (mic mics m) g) / c * fs) (nth m xs []) i) / INR (length mics)) grid) as (out & E & L & V).
  - intros g Hg. destruct (collect_mk (fun im => let d := dist (nth im mics (0, 0, 0)) g in bind (frac_one b fs ((far - d) / c) false (nth im xs [])) (fun y => Ok (pad_trim_col len true (map (fun v => v * d) y))))
      (fun m y => forall i, (i < len)%nat -> get y i = euclid (mic mics m) g * wave b ((far - euclid (mic mics m) g) / c * fs) (nth m xs []) i) (length mics)) as (ys & E & L & V).
    { intros m Hm. cbv zeta. change (nth m mics (0, 0, 0)) with (mic mics m). assert (Im : In (mic mics m) mics) by (apply nth_In; auto). assert (Id : In (dist (mic mics m) g) ds) by (apply Din; exists (mic mics m), g; rewrite dist_euclid; auto). apply M2 in Id.
      assert (Lm : length (nth m xs []) = n) by (apply Hx, nth_In; lia). destruct (frac_one_law b fs ((far - dist (mic mics m) g) / c) false (nth m xs [])) as (y & E & _ & G & G'); auto. apply div_nonneg; auto; lra. destruct (nth m xs []); [simpl in Lm; lia|discriminate]. discriminate.
      rewrite E. cbn [bind]. eexists. split; [reflexivity|]. intros i Hi. rewrite pad_trim_end by auto. rewrite <- dist_euclid. destruct (Nat.lt_ge_cases i (length y)).
      - unfold get at 1. rewrite (nth_map' _ y i 0) by auto. change (nth i y 0) with (get (HA := CRing_R) y i). rewrite G by auto. ring.
      - rewrite get_out by (rewrite map_length; auto). rewrite G' by auto. change (@r0 R CRing_R) with 0. ring. }
    rewrite E. cbn [bind]. eexists. split; [reflexivity|]. intros _. rewrite map_length. destruct (fold_vadd_get len ys (repeat 0 len) (fun m i => euclid (mic mics m) g * wave b ((far - euclid (mic mics m) g) / c * fs) (nth m xs []) i)) as [L1 G1]. apply repeat_length. intros m Hm. apply V. lia.
    split; auto. intros i Hi. unfold get at 1. rewrite (nth_map' _ _ i 0) by (rewrite L1; auto). match goal with |- nth i ?l 0 / _ = _ => change (nth i l 0) with (get (HA := CRing_R) l i) end. rewrite G1 by auto. change (repeat 0 len) with (repeat (@r0 R CRing_R) len). rewrite (get_repeat0 (HA := CRing_R)), L. change (@r0 R CRing_R) with 0. f_equal. ring.
  - exists out, near, far, len. split; [exact E|]. split; auto. split; [|split; [|split; [|split; [exact Ul|]]]].
    + intros m g Hm Hg. assert (In (euclid m g) ds) by (apply Din; eauto). auto.
    + apply Din. auto.
    + apply Din. auto.
    + intros g Hg. apply (V g (0, 0, 0) []); auto. apply nth_In; auto.
Qed.
Print Assumptions C72_beamformer.
(** A source at a grid point, all distances whole numbers of samples: the output at this point is the emitted signal, later by the longest path,
    times the mean of d / (1 + d) over the microphones: less than one, since the simulated decay is not the one the beamformer makes up for. *)
Theorem C72_focus :
  forall b fs c mics grid s g, b (Rsqr (kaiser_beta 60)) <> 0 -> 0 < fs -> 0 < c -> mics <> [] -> (g < length grid)%nat -> so_place s = mic grid g -> in_reach fs c mics s ->
  (forall m q, In m mics -> In q grid -> exists k, euclid m q / c * fs = INR k) ->
  exists ys out delay gain, on_array b fs c mics s = Ok ys /\ das_time b fs c mics grid ys = Ok out /\
    (exists m q, In m mics /\ In q grid /\ euclid m q / c * fs = INR delay) /\ (forall m q, In m mics -> In q grid -> euclid m q / c * fs <= INR delay) /\
    gain = rsum (length mics) (fun m => euclid (mic mics m) (so_place s) / (1 + euclid (mic mics m) (so_place s))) / INR (length mics) /\ 0 <= gain < 1 /\
    forall i, (i < length (so_signal s))%nat -> get (nth g out []) i = gain * (if (i <? delay)%nat then 0 else get (so_signal s) (i - delay)).
Proof.
  intros b fs c mics grid s g B Hf Hc Nm Hg Pl Rs W. destruct (on_array_law b fs c mics s B Hf Hc Rs) as (ys & E & Ly & Vy). set (n := length (so_signal s)) in *. assert (Hn : (0 < n)%nat) by (destruct Rs as [X _]; unfold n; destruct (so_signal s); [easy|simpl; lia]).
  destruct (C72_beamformer b fs c mics grid ys n B Hf Hc Nm) as (out & near & far & len & E' & Lo & Bd & (m1 & q1 & Hm1 & Hq1 & F1) & _ & Ln & V); auto. { destruct grid; [simpl in Hg; lia|discriminate]. } { intros x Hx. apply (In_nth _ _ []) in Hx as (k & Hk & <-). apply Vy. lia. }
  destruct (W m1 q1 Hm1 Hq1) as (delay & Ed). rewrite F1 in Ed. assert (Sc : forall u v, u <= v -> u / c * fs <= v / c * fs). { intros u v H. apply Rmult_le_compat_r; [lra|]. unfold Rdiv. apply Rmult_le_compat_r; auto. left. now apply Rinv_0_lt_compat. }
  assert (M0 : 0 < INR (length mics)) by (apply lt_0_INR; destruct mics; [easy|simpl; lia]).
  set (d := fun m => euclid (mic mics m) (so_place s)). assert (D0 : forall m, 0 <= d m) by (intros m; unfold d; rewrite <- dist_euclid; apply dist_nonneg).
  set (gain := rsum (length mics) (fun m => d m / (1 + d m)) / INR (length mics)). exists ys, out, delay, gain. split; auto. split; auto. split. { exists m1, q1. rewrite F1. auto. } split. { intros m q Hm Hq. rewrite <- Ed. apply Sc. apply Bd; auto. } split; [reflexivity|]. split.
  - unfold gain. split.
    + apply div_nonneg; auto. apply rsum_nonneg. intros m Hm. apply div_nonneg; auto. specialize (D0 m). lra.
    + apply Rmult_lt_reg_r with (INR (length mics)); auto. unfold Rdiv. rewrite Rmult_assoc, Rinv_l, Rmult_1_r, Rmult_1_l by lra.
      assert (S : forall N, (0 < N)%nat -> rsum N (fun m => d m * / (1 + d m)) < INR N).
      { induction N as [|N IH]; intros H. lia. rewrite S_INR. cbn [sum]. change (@radd R CRing_R) with Rplus. assert (d N * / (1 + d N) < 1). { specialize (D0 N). apply Rmult_lt_reg_r with (1 + d N). lra. rewrite Rmult_assoc, Rinv_l by lra. lra. } destruct N. simpl. change (@r0 R CRing_R) with 0. lra. specialize (IH ltac:(lia)). lra. }
      apply S. destruct mics; [easy|simpl; lia].
  - intros i Hi. destruct (V g Hg) as [L1 G1]. assert (Il : (i < len)%nat). { apply INR_lt. apply lt_INR in Hi. assert (near <= far). { destruct (Bd m1 q1 Hm1 Hq1). lra. } specialize (Sc near far H). assert (0 <= (far - near) / c * fs). { apply Rmult_le_pos; [|lra]. apply div_nonneg; auto; lra. } lra. }
    rewrite G1 by auto. rewrite <- Pl. transitivity (rsum (length mics) (fun m => (if (i <? delay)%nat then 0 else get (so_signal s) (i - delay)) * (d m / (1 + d m))) / INR (length mics)).
    2:{ rewrite rsum_mul_l. unfold gain. field. lra. }
    f_equal. apply sum_ext. intros m Hm. fold (d m). assert (Im : In (mic mics m) mics) by (apply nth_In; auto). assert (Ig : In (mic grid g) grid) by (apply nth_In; auto). destruct (W _ _ Im Ig) as (k & Ek). rewrite <- Pl in Ek. fold (d m) in Ek.
    assert (Kd : (k <= delay)%nat). { apply INR_le. rewrite <- Ek, <- Ed. apply Sc. unfold d. rewrite Pl. apply Bd; auto. }
    replace ((far - d m) / c * fs) with (INR (delay - k)) by (rewrite minus_INR by auto; rewrite <- Ed, <- Ek; field; lra). rewrite wave_whole by auto. destruct (Vy m Hm) as [L2 G2]. specialize (D0 m).
    destruct (Nat.ltb_spec i (delay - k)).
    + destruct (Nat.ltb_spec i delay); [|lia]. ring.
    + rewrite G2 by (unfold n; lia). unfold heard. fold (d m). rewrite Ek, wave_whole by auto. destruct (Nat.ltb_spec (i - (delay - k)) k), (Nat.ltb_spec i delay); try lia.
      * field. lra.
      * replace (i - (delay - k) - k)%nat with (i - delay)%nat by lia. field. lra.
Qed.
Print Assumptions C72_focus.
(** A line of two microphones and two grid points one sample apart from each other. *)
Example C72_focus_case : forall b, b (Rsqr (kaiser_beta 60)) <> 0 -> exists ys out, on_array b 1 1 case_mics case_source = Ok ys /\ das_time b 1 1 case_mics [(0, 0, 0); (2, 0, 0)] ys = Ok out /\ get (nth 0 out []) 2 = 1 / 4.
Proof.
  intros b B. destruct (C72_focus b 1 1 case_mics [(0, 0, 0); (2, 0, 0)] case_source 0 B Rlt_0_1 Rlt_0_1) as (ys & out & delay & gain & E1 & E2 & (m & q & Hm & Hq & D) & U & G & _ & V); auto using case_reach. discriminate. simpl; lia.
  { intros m q [<-|[<-|[]]] [<-|[<-|[]]]; rewrite euclid_axis; [exists 0%nat|exists 2%nat|exists 1%nat|exists 1%nat]; unfold Rabs; destruct (Rcase_abs _); simpl; lra. }
  exists ys, out. split; auto. split; auto. assert (Dl : delay = 2%nat).
  { apply INR_eq. simpl INR. apply Rle_antisym. rewrite <- D. destruct Hm as [<-|[<-|[]]], Hq as [<-|[<-|[]]]; rewrite euclid_axis; unfold Rabs; destruct (Rcase_abs _); lra.
    specialize (U (0, 0, 0) (2, 0, 0) ltac:(now left) ltac:(right; now left)). rewrite euclid_axis in U. unfold Rabs in U; destruct (Rcase_abs _) in U; lra. }
  rewrite V by (simpl; lia). subst delay. simpl (_ <? _)%nat. cbv iota. change (get (so_signal case_source) (2 - 2)) with 1. rewrite G. change (length case_mics) with 2%nat. cbn [sum]. change (mic case_mics 0) with (0, 0, 0). change (mic case_mics 1) with (1, 0, 0). unfold case_source. cbn [so_place]. rewrite !euclid_axis.
  change (@radd R CRing_R) with Rplus. change (@r0 R CRing_R) with 0. rewrite Rminus_0_r, Rabs_R0, Rminus_0_r, Rabs_R1. simpl. field.
Qed.
