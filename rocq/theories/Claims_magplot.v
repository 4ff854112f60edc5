(** Property C102: the data behind magnitude plots. *)
From Coq Require Import List Arith Lia ZArith Bool Reals Lra Psatz.
From Verif Require Import Alg Spec M_arrays M_signal P_signal M_level Claims_level M_latency M_distances Claims_das M_smoothing M_magplot.
Import ListNotations.
Local Open Scope R_scope.

(** ** Specification *)
Notation gt := (get (HA := CRing_R)).
(** the selected bins: those from the bin nearest to the lower limit to the one nearest to the upper limit *)
Definition sel_start (f : list R) (range : option (R * R)) : nat := match range with None => 0%nat | Some (a, b) => nearest (Rmin a b) f end.
Definition sel_count (f : list R) (range : option (R * R)) : nat :=
  match range with None => length f | Some (a, b) => (nearest (Rmax a b) f - nearest (Rmin a b) f + 1)%nat end.
(** the level of magnitude v when the largest selected one is p: everything below p - 500 dB is shown as p - 500 dB *)
Definition shown (amp : bool) (p v : R) : R := level amp (Rmax v (p * Rpower 10 (- (500) / (if amp then 20 else 10)))).
(** the value subtracted from channel c; lv are the levels and mg the magnitudes of the n selected bins, fr their frequencies *)
Definition avg (n : nat) (g : nat -> R) : R := sum (HA := CRing_R) n g / INR n.
Definition top_of (n : nat) (g : nat -> R) (r : R) : Prop := (exists k, (k < n)%nat /\ r = g k) /\ forall k, (k < n)%nat -> g k <= r.
Definition line_at (n : nat) (fr g : nat -> R) (x r : R) : Prop :=
  exists i, (S i < n)%nat /\ fr i <= x < fr (S i) /\ r = g i + (g (S i) - g i) * ((x - fr i) / (fr (S i) - fr i)).
Definition energy_level (n : nat) (amp : bool) (mg : nat -> R) : R :=
  level false (Rmax (avg n (fun k => if amp then mg k ^ 2 else mg k)) smallest_normal).
Definition is_ref (nrm : mnorm) (amp : bool) (n : nat) (fr : nat -> R) (lv mg : nat -> nat -> R) (c : nat) (r : R) : Prop :=
  match nrm with
  | NoNorm => r = 0
  | MaxN => top_of n (lv c) r
  | MaxFirst => top_of n (lv 0%nat) r
  | OneKhz => line_at n fr (lv c) 1000 r
  | OneKhzFirst => line_at n fr (lv 0%nat) 1000 r
  | EnergyN => r = energy_level n amp (mg c)
  | EnergyFirst => r = energy_level n amp (mg 0%nat)
  end.
(** well-formed arguments: ascending frequencies, at least one channel, as many values as frequencies, and p > 0 is the largest selected magnitude *)
Definition mag (data : list (list R)) (i0 c k : nat) : R := Rabs (gt (nth c data []) (i0 + k)).
Definition args_ok (f : list R) (data : list (list R)) (range : option (R * R)) (p : R) : Prop :=
  f <> [] /\ increasing f /\ data <> [] /\ (forall col, In col data -> length col = length f) /\ 0 < p /\
  let i0 := sel_start f range in let n := sel_count f range in
  (forall c k, (c < length data)%nat -> (k < n)%nat -> mag data i0 c k <= p) /\
  exists c k, (c < length data)%nat /\ (k < n)%nat /\ mag data i0 c k = p.

(** ** Auxiliary facts *)
Lemma band_eq f range : f <> [] -> increasing f -> band f range = (sel_start f range, (sel_start f range + sel_count f range)%nat) /\ (1 <= sel_count f range)%nat /\ (sel_start f range + sel_count f range <= length f)%nat.
Proof.
  intros N I. destruct range as [[a b]|]; cbn [band sel_start sel_count].
  - assert (Rmin a b <= Rmax a b) by (unfold Rmin, Rmax; destruct (Rle_dec a b); lra). pose proof (nearest_mono f _ _ N I H). destruct (nearest_spec (Rmax a b) f N) as (A & _). split; [f_equal|]; lia.
  - destruct f; [easy|]. simpl. split; [auto|lia].
Qed.
Lemma cut_length {T} a n (l : list T) : (a + n <= length l)%nat -> length (cut (a, (a + n)%nat) l) = n.
Proof. intros H. unfold cut. cbn [fst snd]. rewrite firstn_length, skipn_length. lia. Qed.
Lemma cut_nth {T} a n (l : list T) d k : (k < n)%nat -> nth k (cut (a, (a + n)%nat) l) d = nth (a + k) l d.
Proof. intros H. unfold cut. cbn [fst snd]. rewrite nth_firstn by lia. apply nth_skipn. Qed.
(** a table of n values per channel *)
Definition tab {T} (m : list (list T)) (C n : nat) (g : nat -> nat -> T) : Prop :=
  length m = C /\ forall c, (c < C)%nat -> length (nth c m []) = n /\ forall k d, (k < n)%nat -> nth k (nth c m []) d = g c k.
Lemma tab_map {T U} (h : T -> U) m C n g : tab m C n g -> tab (map (map h) m) C n (fun c k => h (g c k)).
Proof.
  intros (L & H). split. now rewrite map_length. intros c Hc. destruct (H c Hc) as (Lc & G). rewrite (nth_map' _ _ _ [] []) by lia. rewrite map_length. split; auto.
  intros k d Hk. assert (exists d0, nth k (nth c m []) d0 = g c k) as (d0 & E). { destruct (nth c m []) as [|t] eqn:Q; [simpl in Lc; lia|]. exists t. now apply G. }
  rewrite (nth_map' _ _ _ d0 _) by lia. now rewrite E.
Qed.
Lemma tab_ext {T} (m : list (list T)) C n g g' : (forall c k, (c < C)%nat -> (k < n)%nat -> g c k = g' c k) -> tab m C n g -> tab m C n g'.
Proof. intros E (L & H). split; auto. intros c Hc. destruct (H c Hc) as (Lc & G). split; auto. intros k d Hk. rewrite <- E; auto. Qed.
Lemma tab_peak (m : list (list R)) C n g p : tab m C n g -> 0 <= p -> (forall c k, (c < C)%nat -> (k < n)%nat -> Rabs (g c k) <= p) -> (exists c k, (c < C)%nat /\ (k < n)%nat /\ Rabs (g c k) = p) -> vpeak (concat m) = p.
Proof.
  intros (L & H) P0 B (c & k & Hc & Hk & E). destruct (H c Hc) as (Lc & G).
  assert (I : In (g c k) (concat m)). { apply in_concat. exists (nth c m []). split. apply nth_In. lia. rewrite <- (G k 0 Hk). apply nth_In. lia. }
  apply Rle_antisym.
  - assert (Q : forall x, (forall v, In v x -> Rabs v <= p) -> vpeak x <= p).
    { induction x as [|a x IH]; intros Hx. exact P0. unfold vpeak in *. cbn. apply Rmax_lub. apply Hx. now left. apply IH. intros. apply Hx. now right. }
    apply Q. intros v Hv. apply in_concat in Hv as (col & H1 & H2). apply (In_nth _ _ []) in H1 as (c' & Hc' & <-). rewrite L in Hc'. destruct (H c' Hc') as (L' & G'). apply (In_nth _ _ 0) in H2 as (k' & Hk' & <-). rewrite L' in Hk'. rewrite G' by auto. now apply B.
  - rewrite <- E. now apply vpeak_ge.
Qed.
Lemma omax_top n (col : list (option R)) g : (1 <= n)%nat -> length col = n -> (forall k, (k < n)%nat -> nth k col None = Some (g k)) -> exists r, fold_right omax None col = Some r /\ top_of n g r.
Proof.
  revert n g. induction col as [|a col IH]; intros n g Hn L H. simpl in L; lia. destruct n as [|n]; [lia|]. simpl in L.
  pose proof (H 0%nat ltac:(lia)) as H0. cbn [nth] in H0. subst a. cbn [fold_right]. destruct n as [|n].
  - destruct col; [|discriminate]. cbn. exists (g 0%nat). split; auto. split. exists 0%nat. split; auto. intros k Hk. assert (k = 0)%nat by lia. subst. lra.
  - destruct (IH (S n) (fun k => g (S k))) as (r & E & (k & Hk & Er) & B). lia. lia. { intros k Hk. apply (H (S k)). lia. }
    rewrite E. cbn [omax]. exists (Rmax (g 0%nat) r). split; auto. split.
    + unfold Rmax. destruct (Rle_dec (g 0%nat) r). exists (S k). split; [lia|auto]. exists 0%nat. split; [lia|auto].
    + intros [|j] Hj. apply Rmax_l. eapply Rle_trans. apply (B j). lia. apply Rmax_r.
Qed.
Lemma gain_ok F col lv n : length F = n -> increasing F -> gt F 0 < 1000 -> 1000 < gt F (n - 1) -> (1 <= n)%nat -> (forall k, (k < n)%nat -> nth k col None = Some (lv k)) ->
  exists r, gain_1khz F col = Ok (Some r) /\ line_at n (gt F) lv 1000 r.
Proof.
  intros L I H0 H1 Hn Hc. unfold gain_1khz. destruct F as [|f0 F'] eqn:EF; [simpl in L; lia|]. rewrite <- EF in *. assert (NE : F <> []) by (rewrite EF; discriminate).
  assert (E0 : f0 = gt F 0) by (rewrite EF; reflexivity). rewrite E0. destruct (Rlt_dec (gt F 0) 1000); [|lra].
  assert (EL : last F 0 = gt F (n - 1)). { unfold get. rewrite <- L. clear -NE. induction F as [|a F IH]; [easy|]. destruct F as [|b F]; auto. change (last (a :: b :: F) 0) with (last (b :: F) 0). rewrite IH by discriminate. cbn [length]. replace (S (S (length F)) - 1)%nat with (S (S (length F) - 1)) by lia. reflexivity. }
  rewrite EL. destruct (Rle_dec 1000 (gt F (n - 1))); [|lra]. cbn [andb]. destruct (nearest_spec 1000 F NE) as (A & B & _). set (i := nearest 1000 F) in *. rewrite L in A, B.
  set (j := if Rlt_dec 1000 (nth i F 0) then (i - 1)%nat else i).
  assert (J : (S j < n)%nat /\ gt F j <= 1000 < gt F (S j)).
  { unfold j. change (nth i F 0) with (gt F i). destruct (Rlt_dec 1000 (gt F i)) as [G|G].
    - assert (i <> 0)%nat by (intros Q; rewrite Q in G; lra). replace (S (i - 1)) with i by lia. split; [lia|]. split; [|auto].
      destruct (Rle_dec (gt F (i - 1)) 1000) as [|W]; auto. exfalso. pose proof (I (i - 1)%nat i ltac:(lia) ltac:(lia)). specialize (B (i - 1)%nat ltac:(lia)). revert B. unfold Rabs. repeat destruct (Rcase_abs _); lra.
    - assert (i <> n - 1)%nat by (intros Q; rewrite Q in G; lra). split; [lia|]. split; [lra|].
      destruct (Rlt_dec 1000 (gt F (S i))) as [|W]; auto. exfalso. pose proof (I i (S i) ltac:(lia) ltac:(lia)). specialize (B (S i) ltac:(lia)). revert B. unfold Rabs. repeat destruct (Rcase_abs _); lra. }
  destruct J as (J1 & J2). rewrite L. destruct (Nat.ltb_spec (S j) n); [|lia]. unfold onth. rewrite !Hc by lia. eexists. split; [reflexivity|]. exists j. split; auto. split; auto.
  change (nth (S j) F 0) with (gt F (S j)). change (nth j F 0) with (gt F j). field. lra.
Qed.
Lemma fold_sum (x : list R) : fold_right Rplus 0 x = sum (HA := CRing_R) (length x) (gt x).
Proof. induction x as [|a x IH]. reflexivity. cbn [fold_right length]. rewrite (sum_S_front (HA := CRing_R)), IH. reflexivity. Qed.
Lemma small_pos : 0 < smallest_normal.
Proof. apply small_le_1. Qed.

(** ** Theorems *)
(** Without smoothing, for every normalization: the frequencies of the range, and for every channel the levels minus the reference.
    The calibration constant is applied without normalization only. With power data and the energy of the first channel there is no result. *)
Theorem C102_values f data (amp : bool) range (nrm : mnorm) (cal : bool) p : args_ok f data range p ->
  let i0 := sel_start f range in let n := sel_count f range in let fr := fun k => gt f (i0 + k) in
  let p0 := match cal, nrm with true, NoNorm => if amp then 20 / 1000000 else 4 / 10000000000 | _, _ => 1 end in
  let lv := fun c k => shown amp (p / p0) (mag data i0 c k / p0) in
  match nrm with OneKhz | OneKhzFirst => fr 0%nat < 1000 < fr (n - 1)%nat | EnergyFirst => amp = true | _ => True end ->
  exists fs db refs, normalized_spectrum f data amp range nrm None cal = Ok (fs, db) /\ length fs = n /\ (forall k, (k < n)%nat -> gt fs k = fr k) /\
    tab db (length data) n (fun c k => Some (lv c k - refs c)) /\ forall c, (c < length data)%nat -> is_ref nrm amp n fr lv (mag data i0) c (refs c).
Proof.
  intros (NF & I & ND & U & P & Mx & Att) i0 n fr p0 lv Pre. destruct (band_eq f range NF I) as (EB & N1 & NB). fold i0 n in EB, N1, NB, Mx, Att. set (C := length data) in *.
  assert (HC : (1 <= C)%nat) by (unfold C; destruct data; [easy|simpl; lia]).
  unfold normalized_spectrum. rewrite EB. cbn [bind]. set (m := map (fun col => map Rabs (cut (i0, (i0 + n)%nat) col)) data). set (F := cut (i0, (i0 + n)%nat) f).
  assert (LF : length F = n) by (apply cut_length; exact NB). assert (GF : forall k, (k < n)%nat -> gt F k = fr k) by (intros; unfold get, F; now rewrite cut_nth).
  assert (IF : increasing F). { intros a b Hab Hb. rewrite LF in Hb. rewrite !GF by lia. apply I; lia. }
  assert (TM : tab m C n (mag data i0)).
  { split. unfold m. now rewrite map_length. intros c Hc. assert (Lu : length (nth c data []) = length f) by (apply U, nth_In; exact Hc). unfold m. rewrite (nth_map' _ _ _ [] []) by exact Hc. rewrite map_length, cut_length by lia. split; auto.
    intros k d Hk. rewrite (nth_map' Rabs _ _ 0 d) by (rewrite cut_length; lia). rewrite cut_nth by auto. reflexivity. }
  assert (SC : scale_factor amp cal nrm = p0) by reflexivity. rewrite SC.
  assert (P0 : 0 < p0) by (unfold p0; destruct cal; [|lra]; destruct nrm; try lra; destruct amp; lra).
  assert (TS := tab_map (fun v => v / p0) _ _ _ _ TM). cbv beta in TS. set (ms := map (map (fun v => v / p0)) m) in *.
  assert (MP : forall c k, 0 <= mag data i0 c k / p0). { intros. apply Rmult_le_pos. apply Rabs_pos. left. now apply Rinv_0_lt_compat. }
  assert (PK : vpeak (concat ms) = p / p0).
  { apply (tab_peak ms C n _ _ TS). left. apply Rdiv_lt_0_compat; auto. intros c k Hc Hk. rewrite Rabs_pos_eq by auto. apply Rmult_le_compat_r. left. now apply Rinv_0_lt_compat. now apply Mx.
    destruct Att as (c & k & Hc & Hk & E). exists c, k. split; auto. split; auto. rewrite Rabs_pos_eq by auto. now rewrite E. }
  set (db := to_db_mat amp 500 ms).
  assert (LP : forall v, 0 < Rmax v (p / p0 * Rpower 10 (- Rabs 500 / db_factor amp))). { intros v. eapply Rlt_le_trans; [|apply Rmax_r]. apply Rmult_lt_0_compat. apply Rdiv_lt_0_compat; auto. apply exp_pos. }
  assert (TD : tab db C n (fun c k => Some (lv c k))).
  { unfold db, to_db_mat. rewrite PK. eapply tab_ext; [|apply tab_map; exact TS]. intros c k Hc Hk. cbv beta. rewrite Rabs_pos_eq by auto. rewrite to_db1_pos by apply LP. unfold lv, shown. rewrite (Rabs_pos_eq 500) by lra. unfold db_factor. reflexivity. }
  pose proof TM as (LM & GM). pose proof TD as (LD & GD).
  assert (Fin : forall refs, length refs = C -> (forall c, (c < C)%nat -> exists r, nth c refs None = Some r /\ is_ref nrm amp n fr lv (mag data i0) c r) -> references F amp nrm m db = Ok refs ->
    exists fs db0 refs0, bind (references F amp nrm m db) (fun refs => Ok (F, map (fun p => map (fun v => osub v (snd p)) (fst p)) (combine db refs))) = Ok (fs, db0) /\ length fs = n /\ (forall k, (k < n)%nat -> gt fs k = fr k) /\
      tab db0 C n (fun c k => Some (lv c k - refs0 c)) /\ forall c, (c < C)%nat -> is_ref nrm amp n fr lv (mag data i0) c (refs0 c)).
  { intros refs Lr Hr E. rewrite E. cbn [bind]. exists F. eexists. exists (fun c => match nth c refs None with Some r => r | None => 0 end). split; [reflexivity|]. split; auto. split; auto. split.
    - split. rewrite map_length, combine_length. lia. intros c Hc. destruct (Hr c Hc) as (r & Er & _). destruct (GD c Hc) as (Lc & G). rewrite (nth_map' _ _ _ ([], None) []) by (rewrite combine_length; lia). rewrite combine_nth by lia. cbn [fst snd]. rewrite map_length. split; auto.
      intros k d Hk. rewrite (nth_map' _ _ _ None _) by lia. rewrite G, Er by auto. reflexivity.
    - intros c Hc. destruct (Hr c Hc) as (r & -> & H). exact H. }
  assert (Rep : forall r, is_ref nrm amp n fr lv (mag data i0) 0%nat r -> (forall c, is_ref nrm amp n fr lv (mag data i0) c r) -> forall c, (c < C)%nat -> exists r', nth c (repeat (Some r) (length m)) None = Some r' /\ is_ref nrm amp n fr lv (mag data i0) c r').
  { intros r _ H c Hc. exists r. split; auto. apply nth_repeat_lt. lia. }
  assert (EN : forall c, (c < C)%nat -> to_db1 false (Rmax (Rabs (mean (if amp then map (fun v => v ^ 2) (nth c m []) else nth c m []))) smallest_normal) = Some (energy_level n amp (mag data i0 c))).
  { intros c Hc. destruct (GM c Hc) as (Lc & G). rewrite to_db1_pos by (eapply Rlt_le_trans; [apply small_pos|apply Rmax_r]). f_equal. unfold energy_level. f_equal. f_equal.
    assert (E : mean (if amp then map (fun v => v ^ 2) (nth c m []) else nth c m []) = avg n (fun k => if amp then mag data i0 c k ^ 2 else mag data i0 c k)).
    { unfold mean, avg. rewrite fold_sum. destruct amp.
      - rewrite map_length, Lc. f_equal. apply (sum_ext (HA := CRing_R)). intros k Hk. unfold get. rewrite (nth_map' (fun v => v ^ 2) _ _ 0 _) by lia. now rewrite G.
      - rewrite Lc. f_equal. apply (sum_ext (HA := CRing_R)). intros k Hk. unfold get. now rewrite G. }
    rewrite E. apply Rabs_pos_eq. unfold avg. apply Rmult_le_pos. 2:{ left. apply Rinv_0_lt_compat, lt_0_INR. lia. }
    clear. induction n; cbn [sum]. simpl; lra. simpl radd. apply Rplus_le_le_0_compat; auto. destruct amp. apply pow2_ge_0. apply Rabs_pos. }
  assert (FirstD : exists c0 t, db = c0 :: t /\ c0 = nth 0 db []). { destruct db as [|c0 t] eqn:Q; [simpl in LD; lia|]. exists c0, t. auto. }
  assert (FirstM : exists c0 t, m = c0 :: t /\ c0 = nth 0 m []). { destruct m as [|c0 t] eqn:Q; [simpl in LM; lia|]. exists c0, t. auto. }
  destruct nrm.
  - apply (Fin (repeat (Some 0) (length m))); auto. now rewrite repeat_length. apply Rep; auto; reflexivity.
  - destruct (GD 0%nat ltac:(lia)) as (_ & _).
    assert (GO : forall c, (c < C)%nat -> exists r, gain_1khz F (nth c db []) = Ok (Some r) /\ line_at n (gt F) (lv c) 1000 r).
    { intros c Hc. destruct (GD c Hc) as (Lc & G). apply gain_ok; auto. rewrite GF by lia. apply Pre. rewrite GF by lia. apply Pre. }
    assert (LF' : forall g x r, line_at n (gt F) g x r -> line_at n fr g x r). { intros g x r (i & Hi & Hx & Er). exists i. rewrite !GF in * by lia. auto. }
    assert (SQ : forall l C' g, length l = C' -> (forall c, (c < C')%nat -> exists r, gain_1khz F (nth c l []) = Ok (Some r) /\ g c r) -> exists refs, seq_result (map (gain_1khz F) l) = Ok refs /\ length refs = C' /\ forall c, (c < C')%nat -> exists r, nth c refs None = Some r /\ g c r).
    { induction l as [|a l IH]; intros C' g <- H. exists []. repeat split; auto. intros c Hc; simpl in Hc; lia.
      destruct (IH (length l) (fun c => g (S c)) eq_refl) as (refs & E & Lr & G). { intros c Hc. apply (H (S c)). simpl; lia. }
      destruct (H 0%nat ltac:(simpl; lia)) as (r & Er & Gr). cbn [nth] in Er. exists (Some r :: refs). cbn [map seq_result]. rewrite Er. cbn [bind]. rewrite E. cbn [bind]. split; auto. split. simpl; lia.
      intros [|c] Hc. exists r. auto. apply G. simpl in Hc. lia. }
    destruct (SQ db C (fun c r => line_at n fr (lv c) 1000 r) LD) as (refs & E & Lr & G). { intros c Hc. destruct (GO c Hc) as (r & Er & Hr). exists r. split; auto. }
    apply (Fin refs); auto.
  - destruct FirstD as (c0 & t & ED & E0). destruct (GD 0%nat ltac:(lia)) as (Lc & G). destruct (gain_ok F c0 (lv 0%nat) n LF IF) as (r & Er & Hr). rewrite GF by lia. apply Pre. rewrite GF by lia. apply Pre. lia. { intros k Hk. rewrite E0. now apply G. }
    assert (Hr' : line_at n fr (lv 0%nat) 1000 r). { destruct Hr as (i & Hi & Hx & Err). exists i. rewrite !GF in * by lia. auto. }
    apply (Fin (repeat (Some r) (length m))). now rewrite repeat_length. apply Rep; auto. unfold references. rewrite ED, Er. reflexivity.
  - apply (Fin (map (fun col => fold_right omax None col) db)). now rewrite map_length. 2: reflexivity.
    intros c Hc. rewrite (nth_map' _ _ _ [] None) by lia. destruct (GD c Hc) as (Lc & G). destruct (omax_top n (nth c db []) (lv c) N1 Lc) as (r & E & T). { intros. now apply G. } exists r. auto.
  - destruct FirstD as (c0 & t & ED & E0). destruct (GD 0%nat ltac:(lia)) as (Lc & G). destruct (omax_top n c0 (lv 0%nat) N1) as (r & E & T). now rewrite E0. { intros. rewrite E0. now apply G. }
    apply (Fin (repeat (Some r) (length m))). now rewrite repeat_length. apply Rep; auto. unfold references. rewrite ED, E. reflexivity.
  - apply (Fin (map (fun col => to_db1 false (Rmax (Rabs (mean (if amp then map (fun v => v ^ 2) col else col))) smallest_normal)) m)). now rewrite map_length. 2: reflexivity.
    intros c Hc. rewrite (nth_map' _ _ _ [] None) by lia. rewrite EN by auto. exists (energy_level n amp (mag data i0 c)). split; reflexivity.
  - destruct FirstM as (c0 & t & EM & E0). apply (Fin (repeat (Some (energy_level n amp (mag data i0 0%nat))) (length m))). now rewrite repeat_length. apply Rep; auto; reflexivity.
    unfold references. rewrite EM at 1. rewrite E0. pose proof (EN 0%nat ltac:(lia)) as Q. rewrite Pre in Q |- *. now rewrite Q.
Qed.
Print Assumptions C102_values.

(** *** Consequences *)
Lemma tab_unique {T} (m m' : list (list T)) C n g g' : tab m C n g -> tab m' C n g' -> (forall c k, (c < C)%nat -> (k < n)%nat -> g c k = g' c k) -> m = m'.
Proof.
  intros (L & H) (L' & H') E. apply (list_eq_nth []). lia. intros c Hc. rewrite L in Hc. destruct (H c Hc) as (Lc & G). destruct (H' c Hc) as (Lc' & G').
  destruct (nth c m []) as [|d col] eqn:Q. { simpl in Lc. subst n. destruct (nth c m' []); [auto|discriminate]. }
  rewrite <- Q in *. apply (list_eq_nth d). lia. intros k Hk. rewrite G, G' by lia. apply E; lia.
Qed.
Lemma fr_inc f range : f <> [] -> increasing f -> forall i j, (i < j < sel_count f range)%nat -> gt f (sel_start f range + i) < gt f (sel_start f range + j).
Proof. intros N I i j Hij. destruct (band_eq f range N I) as (_ & _ & B). apply I; lia. Qed.
Lemma line_at_shift n fr g g' x r r' s : (forall i j, (i < j < n)%nat -> fr i < fr j) -> (forall k, (k < n)%nat -> g' k = g k + s) -> line_at n fr g x r -> line_at n fr g' x r' -> r' = r + s.
Proof.
  intros I E (i & Hi & Hx & ->) (j & Hj & Hy & ->). assert (i = j).
  { destruct (lt_eq_lt_dec i j) as [[H|H]|H]; auto; exfalso.
    - destruct (Nat.eq_dec (S i) j) as [Q|Q]. rewrite Q in Hx; lra. pose proof (I (S i) j ltac:(lia)). lra.
    - destruct (Nat.eq_dec (S j) i) as [Q|Q]. rewrite Q in Hy; lra. pose proof (I (S j) i ltac:(lia)). lra. }
  subst j. rewrite !E by lia. ring.
Qed.
Lemma top_shift n g g' r r' s : (forall k, (k < n)%nat -> g' k = g k + s) -> top_of n g r -> top_of n g' r' -> r' = r + s.
Proof.
  intros E ((k & Hk & ->) & B) ((j & Hj & ->) & B'). pose proof (B j Hj). pose proof (B' k Hk). rewrite (E k Hk) in H0. rewrite (E j Hj) in *. lra.
Qed.
Lemma is_ref_shift nrm amp amp' n fr lv lv' mg mg' C c r r' s : (c < C)%nat -> (forall i j, (i < j < n)%nat -> fr i < fr j) -> (forall c k, (c < C)%nat -> (k < n)%nat -> lv' c k = lv c k + s) ->
  match nrm with EnergyN | EnergyFirst => forall c, (c < C)%nat -> (c = 0%nat \/ nrm = EnergyN) -> energy_level n amp' (mg' c) = energy_level n amp (mg c) + s | _ => True end ->
  is_ref nrm amp n fr lv mg c r -> is_ref nrm amp' n fr lv' mg' c r' -> r' = r + match nrm with NoNorm => 0 | _ => s end.
Proof.
  intros Hc I E En H H'. destruct nrm; cbn [is_ref] in H, H'.
  - lra.
  - eapply line_at_shift; eauto.
  - eapply line_at_shift; [exact I| |exact H|exact H']. intros; apply E; auto; lia.
  - eapply top_shift; [|exact H|exact H']; auto.
  - eapply top_shift; [|exact H|exact H']. intros; apply E; auto; lia.
  - subst. apply En; auto.
  - subst. apply En; auto. lia.
Qed.

(** the largest value of every channel (or of the first one) is exactly 0 dB *)
Theorem C102_max f data amp range cal p nrm : args_ok f data range p -> nrm = MaxN \/ nrm = MaxFirst ->
  exists fs db, normalized_spectrum f data amp range nrm None cal = Ok (fs, db) /\
    forall c, (c < length data)%nat -> nrm = MaxN \/ c = 0%nat -> (exists k, (k < sel_count f range)%nat /\ nth k (nth c db []) None = Some 0) /\
      forall k, (k < sel_count f range)%nat -> exists v, nth k (nth c db []) None = Some v /\ v <= 0.
Proof.
  intros A N. destruct (C102_values f data amp range nrm cal p A) as (fs & db & refs & E & _ & _ & (_ & T) & Rf). { destruct N; subst; exact I. }
  exists fs, db. split; auto. intros c Hc Hn. specialize (Rf c Hc). destruct (T c Hc) as (_ & G).
  assert (Q : top_of (sel_count f range) (fun k => shown amp (p / 1) (mag data (sel_start f range) c k / 1)) (refs c)).
  { destruct N; subst nrm; destruct cal; cbn [is_ref] in Rf; auto; (destruct Hn; [discriminate|subst c; auto]). }
  assert (Sc : match cal, nrm with true, NoNorm => if amp then 20 / 1000000 else 4 / 10000000000 | _, _ => 1 end = 1) by (destruct N; subst nrm; destruct cal; auto). rewrite Sc in G.
  destruct Q as ((k & Hk & Er) & B). split.
  - exists k. split; auto. rewrite G by auto. f_equal. rewrite Er. ring.
  - intros j Hj. eexists. split. now apply G. specialize (B j Hj). cbv beta in B. lra.
Qed.
Print Assumptions C102_max.

(** the straight line between the bins on both sides of 1 kHz crosses 0 dB at 1 kHz *)
Theorem C102_one_khz f data amp range cal p nrm : args_ok f data range p -> nrm = OneKhz \/ nrm = OneKhzFirst ->
  gt f (sel_start f range) < 1000 < gt f (sel_start f range + (sel_count f range - 1)) ->
  exists fs db, normalized_spectrum f data amp range nrm None cal = Ok (fs, db) /\
    forall c, (c < length data)%nat -> nrm = OneKhz \/ c = 0%nat -> exists i a b, nth i (nth c db []) None = Some a /\ nth (S i) (nth c db []) None = Some b /\ gt fs i <= 1000 < gt fs (S i) /\
      a + (b - a) * ((1000 - gt fs i) / (gt fs (S i) - gt fs i)) = 0.
Proof.
  intros A N Pre. destruct (C102_values f data amp range nrm cal p A) as (fs & db & refs & E & _ & GF & (_ & T) & Rf). { rewrite Nat.add_0_r. destruct N; subst; exact Pre. }
  exists fs, db. split; auto. intros c Hc Hn. specialize (Rf c Hc). destruct (T c Hc) as (_ & G).
  assert (Sc : match cal, nrm with true, NoNorm => if amp then 20 / 1000000 else 4 / 10000000000 | _, _ => 1 end = 1) by (destruct N; subst nrm; destruct cal; auto). rewrite Sc in *.
  assert (Q : line_at (sel_count f range) (fun k => gt f (sel_start f range + k)) (fun k => shown amp (p / 1) (mag data (sel_start f range) c k / 1)) 1000 (refs c)).
  { destruct N; subst nrm; cbn [is_ref] in Rf; auto; (destruct Hn; [discriminate|subst c; auto]). }
  destruct Q as (i & Hi & Hx & Er). exists i. eexists. eexists. split. apply G; lia. split. apply G; lia. rewrite !GF by lia. split; auto. rewrite Er. field. lra.
Qed.
Print Assumptions C102_one_khz.

(** two calls whose levels differ by s give results that differ by s without normalization and agree otherwise *)
Lemma transfer f data data' amp amp' range nrm cal cal' p p' s :
  args_ok f data range p -> args_ok f data' range p' -> length data' = length data ->
  let i0 := sel_start f range in let n := sel_count f range in
  match nrm with OneKhz | OneKhzFirst => gt f i0 < 1000 < gt f (i0 + (n - 1)) | EnergyFirst => amp = true /\ amp' = true | _ => True end ->
  let sc := fun (amp cal : bool) => match cal, nrm with true, NoNorm => if amp then 20 / 1000000 else 4 / 10000000000 | _, _ => 1 end in
  (forall c k, (c < length data)%nat -> (k < n)%nat -> shown amp' (p' / sc amp' cal') (mag data' i0 c k / sc amp' cal') = shown amp (p / sc amp cal) (mag data i0 c k / sc amp cal) + s) ->
  match nrm with EnergyN | EnergyFirst => forall c, (c < length data)%nat -> (c = 0%nat \/ nrm = EnergyN) -> energy_level n amp' (mag data' i0 c) = energy_level n amp (mag data i0 c) + s | _ => True end ->
  exists fs db, normalized_spectrum f data amp range nrm None cal = Ok (fs, db) /\
    normalized_spectrum f data' amp' range nrm None cal' = Ok (fs, map (map (option_map (fun v => v + match nrm with NoNorm => s | _ => 0 end))) db).
Proof.
  intros A A' LD i0 n Pre sc Hl He.
  destruct (C102_values f data amp range nrm cal p A) as (fs & db & refs & E & Lf & GF & T & Rf). { fold i0 n. rewrite Nat.add_0_r. destruct nrm; tauto. }
  destruct (C102_values f data' amp' range nrm cal' p' A') as (fs' & db' & refs' & E' & Lf' & GF' & T' & Rf'). { fold i0 n. rewrite Nat.add_0_r. destruct nrm; tauto. }
  exists fs, db. split; auto. rewrite E'. f_equal. f_equal.
  - apply (list_eq_nth 0). lia. intros k Hk. rewrite Lf' in Hk. change (gt fs' k = gt fs k). now rewrite (GF k Hk), (GF' k Hk).
  - rewrite LD in T', Rf'. eapply tab_unique; [exact T'|apply tab_map; exact T|]. intros c k Hc Hk. cbv beta. cbn [option_map]. f_equal.
    assert (Q : refs' c = refs c + match nrm with NoNorm => 0 | _ => s end).
    { pose proof A as (NF & I & _). eapply is_ref_shift; [exact Hc| | | |exact (Rf c Hc)|exact (Rf' c Hc)]. { intros a b Hab. apply fr_inc; auto. } exact Hl. exact He. }
    pose proof (Hl c k Hc Hk) as Q'. fold i0. fold (sc amp' cal'). fold (sc amp cal). rewrite Q, Q'. destruct nrm; ring.
Qed.

Lemma level_sq x : 0 < x -> level false (x ^ 2) = level true x.
Proof. intros H. replace (x ^ 2) with (x * x) by ring. rewrite level_mul by auto. unfold level. lra. Qed.
Lemma shown_scale amp p v g : 0 < p -> 0 <= v -> 0 < g -> shown amp (g * p) (g * v) = shown amp p v + level amp g.
Proof.
  intros P V G. unfold shown. rewrite Rmult_assoc. rewrite RmaxRmult by lra. rewrite level_mul; auto. ring. eapply Rlt_le_trans; [|apply Rmax_r]. apply Rmult_lt_0_compat; auto. apply exp_pos.
Qed.
Lemma avg_scal n h g : avg n (fun k => g * h k) = g * avg n h.
Proof. unfold avg, Rdiv. rewrite <- Rmult_assoc. f_equal. exact (sum_scal_l (HA := CRing_R) _ _ _). Qed.
Lemma avg_ext n h g : (forall k, (k < n)%nat -> h k = g k) -> avg n h = avg n g.
Proof. intros H. unfold avg. f_equal. now apply (sum_ext (HA := CRing_R)). Qed.
(** the mean power of a channel is large enough to be represented *)
Definition loud (nrm : mnorm) (amp : bool) (n C : nat) (mg : nat -> nat -> R) : Prop :=
  match nrm with EnergyN | EnergyFirst => forall c, (c < C)%nat -> (c = 0%nat \/ nrm = EnergyN) -> smallest_normal <= avg n (fun k => if amp then mg c k ^ 2 else mg c k) | _ => True end.

(** A gain applied to all channels shifts the curves when there is no normalization and changes nothing otherwise. *)
Theorem C102_gain f data amp range nrm cal p g : args_ok f data range p -> g <> 0 ->
  let i0 := sel_start f range in let n := sel_count f range in let data' := map (map (Rmult g)) data in
  match nrm with OneKhz | OneKhzFirst => gt f i0 < 1000 < gt f (i0 + (n - 1)) | EnergyFirst => amp = true | _ => True end ->
  loud nrm amp n (length data) (mag data i0) -> loud nrm amp n (length data) (mag data' i0) ->
  exists fs db, normalized_spectrum f data amp range nrm None cal = Ok (fs, db) /\
    normalized_spectrum f data' amp range nrm None cal = Ok (fs, map (map (option_map (fun v => v + match nrm with NoNorm => level amp (Rabs g) | _ => 0 end))) db).
Proof.
  intros A G i0 n data' Pre L1 L2. pose proof A as (NF & I & ND & U & P & Mx & Att). assert (AG := Rabs_pos_lt g G). fold i0 n in Mx, Att.
  destruct (band_eq f range NF I) as (_ & N1 & NB). fold i0 n in N1, NB.
  assert (MG : forall c k, (c < length data)%nat -> (k < n)%nat -> mag data' i0 c k = Rabs g * mag data i0 c k).
  { intros c k Hc Hk. unfold mag, data'. rewrite (nth_map' _ _ _ [] []) by exact Hc. unfold get. rewrite (nth_map' _ _ _ 0 _) by (rewrite U; [lia|now apply nth_In]). apply Rabs_mult. }
  assert (LD : length data' = length data) by apply map_length.
  assert (A' : args_ok f data' range (Rabs g * p)).
  { split; auto. split; auto. split. { destruct data; [easy|discriminate]. } split. { intros col Hc. apply in_map_iff in Hc as (c0 & <- & H0). rewrite map_length. now apply U. }
    split. now apply Rmult_lt_0_compat. cbv zeta. fold i0 n. rewrite LD. split. intros. rewrite MG by auto. apply Rmult_le_compat_l; [lra|]. now apply Mx.
    destruct Att as (c & k & Hc & Hk & E). exists c, k. split; auto. split; auto. rewrite MG, E by auto. reflexivity. }
  apply (transfer f data data' amp amp range nrm cal cal p (Rabs g * p) (level amp (Rabs g))); auto.
  - fold i0 n. destruct nrm; auto.
  - intros c k Hc Hk. fold i0. rewrite MG by auto. set (q := match cal, nrm with true, NoNorm => _ | _, _ => _ end). assert (0 < q) by (unfold q; destruct cal; [|lra]; destruct nrm; try lra; destruct amp; lra).
    replace (Rabs g * p / q) with (Rabs g * (p / q)) by (field; lra). replace (Rabs g * mag data i0 c k / q) with (Rabs g * (mag data i0 c k / q)) by (field; lra).
    apply shown_scale; auto. apply Rdiv_lt_0_compat; auto. apply Rmult_le_pos. apply Rabs_pos. left. now apply Rinv_0_lt_compat.
  - assert (EE : forall c, (c < length data)%nat -> smallest_normal <= avg n (fun k => if amp then mag data i0 c k ^ 2 else mag data i0 c k) -> smallest_normal <= avg n (fun k => if amp then mag data' i0 c k ^ 2 else mag data' i0 c k) ->
      energy_level n amp (mag data' i0 c) = energy_level n amp (mag data i0 c) + level amp (Rabs g)).
    { intros c Hc B1 B2. pose proof small_pos. unfold energy_level. rewrite !Rmax_left by lra. destruct amp.
      - rewrite (avg_ext n _ (fun k => Rabs g ^ 2 * mag data i0 c k ^ 2)). 2:{ intros k Hk. rewrite MG by auto. ring. }
        rewrite avg_scal, level_mul, level_sq; [apply Rplus_comm|auto| |lra]. apply pow_lt; auto.
      - rewrite (avg_ext n _ (fun k => Rabs g * mag data i0 c k)). 2:{ intros k Hk. now rewrite MG by auto. }
        rewrite avg_scal, level_mul; [apply Rplus_comm|auto|exact (Rlt_le_trans _ _ _ small_pos B1)]. }
    destruct nrm; auto; intros c Hc Hn; apply EE; auto; solve [apply L1; auto | apply L2; auto].
Qed.
Print Assumptions C102_gain.

(** A spectrum given as amplitudes and the same one given as powers look the same. *)
Theorem C102_power_amplitude f data range nrm cal p : args_ok f data range p -> nrm <> EnergyFirst ->
  let i0 := sel_start f range in let n := sel_count f range in
  match nrm with OneKhz | OneKhzFirst => gt f i0 < 1000 < gt f (i0 + (n - 1)) | _ => True end ->
  exists fs db, normalized_spectrum f data true range nrm None cal = Ok (fs, db) /\
    normalized_spectrum f (map (map (fun v => v ^ 2)) data) false range nrm None cal = Ok (fs, db).
Proof.
  intros A NE i0 n Pre. pose proof A as (NF & I & ND & U & P & Mx & Att). fold i0 n in Mx, Att. set (data' := map (map (fun v => v ^ 2)) data).
  destruct (band_eq f range NF I) as (_ & N1 & NB). fold i0 n in N1, NB.
  assert (MG : forall c k, (c < length data)%nat -> (k < n)%nat -> mag data' i0 c k = mag data i0 c k ^ 2).
  { intros c k Hc Hk. unfold mag, data'. rewrite (nth_map' _ _ _ [] []) by exact Hc. unfold get. rewrite (nth_map' (fun v => v ^ 2) _ _ 0 _) by (rewrite U; [lia|now apply nth_In]). symmetry. apply RPow_abs. }
  assert (LD : length data' = length data) by apply map_length. assert (P2 : 0 < p ^ 2) by (apply pow_lt; auto).
  assert (A' : args_ok f data' range (p ^ 2)).
  { split; auto. split; auto. split. { destruct data; [easy|discriminate]. } split. { intros col Hc. apply in_map_iff in Hc as (c0 & <- & H0). rewrite map_length. now apply U. }
    split; auto. cbv zeta. fold i0 n. rewrite LD. split. intros c k Hc Hk. rewrite MG by auto. apply pow_incr. split. apply Rabs_pos. now apply Mx.
    destruct Att as (c & k & Hc & Hk & E). exists c, k. split; auto. split; auto. rewrite MG, E by auto. reflexivity. }
  destruct (transfer f data data' true false range nrm cal cal p (p ^ 2) 0 A A' LD) as (fs & db & E & E').
  - fold i0 n. destruct nrm; auto.
  - intros c k Hc Hk. fold i0. rewrite MG by auto. rewrite Rplus_0_r. set (m := mag data i0 c k). assert (M0 : 0 <= m) by apply Rabs_pos.
    assert (S2 : forall p m, 0 < p -> 0 <= m -> shown false (p ^ 2) (m ^ 2) = shown true p m).
    { clear. intros p m P M. unfold shown. set (r := Rpower 10 (- (500) / 20)). replace (Rpower 10 (- (500) / 10)) with (r ^ 2). 2:{ unfold r. simpl pow. rewrite Rmult_1_r, <- Rpower_plus. f_equal. lra. }
      assert (0 < r) by apply exp_pos. replace (p ^ 2 * r ^ 2) with ((p * r) ^ 2) by ring. assert (0 < p * r) by nra.
      replace (Rmax (m ^ 2) ((p * r) ^ 2)) with (Rmax m (p * r) ^ 2). apply level_sq. eapply Rlt_le_trans; [|apply Rmax_r]; auto.
      unfold Rmax. destruct (Rle_dec m (p * r)), (Rle_dec (m ^ 2) ((p * r) ^ 2)); auto; nra. }
    destruct cal; [destruct nrm|]; try (replace (p ^ 2 / 1) with ((p / 1) ^ 2) by field; replace (m ^ 2 / 1) with ((m / 1) ^ 2) by field; apply S2; lra).
    replace (p ^ 2 / (4 / 10000000000)) with ((p / (20 / 1000000)) ^ 2) by field. replace (m ^ 2 / (4 / 10000000000)) with ((m / (20 / 1000000)) ^ 2) by field. apply S2; lra.
  - assert (EE : forall c, (c < length data)%nat -> energy_level n false (mag data' i0 c) = energy_level n true (mag data i0 c) + 0).
    { intros c Hc. rewrite Rplus_0_r. unfold energy_level. do 2 f_equal. apply avg_ext. intros. now apply MG. }
    destruct nrm; auto; intros c Hc _; now apply EE.
  - exists fs, db. split; auto. etransitivity; [exact E'|]. do 2 f_equal. rewrite <- (map_id db) at 2. apply map_ext. intros col. rewrite <- (map_id col) at 2. apply map_ext. intros [v|]; auto. cbn. f_equal. destruct nrm; ring.
Qed.
Print Assumptions C102_power_amplitude.

(** Energy normalization: the mean power of every channel (or of the first one) is 1. *)
Theorem C102_energy f data amp range nrm cal p : args_ok f data range p -> nrm = EnergyN \/ nrm = EnergyFirst /\ amp = true ->
  let i0 := sel_start f range in let n := sel_count f range in
  loud nrm amp n (length data) (mag data i0) ->
  exists fs db, normalized_spectrum f data amp range nrm None cal = Ok (fs, db) /\
    forall c, (c < length data)%nat -> c = 0%nat \/ nrm = EnergyN -> (forall k, (k < n)%nat -> p * Rpower 10 (- (500) / (if amp then 20 else 10)) <= mag data i0 c k) ->
      avg n (fun k => match nth k (nth c db []) None with Some v => Rpower 10 (v / 10) | None => 0 end) = 1.
Proof.
  intros A N i0 n L. destruct (C102_values f data amp range nrm cal p A) as (fs & db & refs & E & _ & GF & (_ & T) & Rf). { destruct N as [->|(-> & ->)]; auto. }
  exists fs, db. split; auto. intros c Hc Hn Nc. specialize (Rf c Hc). destruct (T c Hc) as (_ & G). fold i0 in G, Rf. fold n in G, Rf. pose proof A as (_ & _ & _ & _ & P & _).
  assert (Sc : match cal, nrm with true, NoNorm => if amp then 20 / 1000000 else 4 / 10000000000 | _, _ => 1 end = 1) by (destruct N as [->|(-> & _)]; destruct cal; auto). rewrite Sc in *.
  set (h := fun k => if amp then mag data i0 c k ^ 2 else mag data i0 c k).
  assert (Lh : smallest_normal <= avg n h) by (destruct N as [->|(-> & _)]; apply L; auto). pose proof small_pos as SP.
  assert (Er : refs c = level false (avg n h)).
  { destruct N as [->|(-> & _)]; cbn [is_ref] in Rf; rewrite Rf; unfold energy_level. now rewrite Rmax_left by (fold h; lra).
    destruct Hn as [->|]; [|discriminate]. now rewrite Rmax_left by (fold h; lra). }
  assert (RP : forall m, 0 < m -> Rpower 10 (level false m / 10) = m). { intros m Hm. exact (from_level false m Hm). }
  rewrite (avg_ext n _ (fun k => / avg n h * h k)). rewrite avg_scal. field. lra.
  intros k Hk. rewrite G by auto. rewrite Er. specialize (Nc k Hk). assert (MP : 0 < mag data i0 c k). { eapply Rlt_le_trans; [|exact Nc]. apply Rmult_lt_0_compat; auto. apply exp_pos. }
  unfold Rdiv. rewrite Rmult_minus_distr_r. unfold Rminus. rewrite Rpower_plus, Rpower_Ropp. fold (Rdiv (level false (avg n h)) 10). rewrite RP by lra. rewrite Rmult_comm. f_equal.
  assert (Es : shown amp (p / 1) (mag data i0 c k / 1) = level false (h k)).
  { unfold shown, h. replace (p / 1) with p by field. replace (mag data i0 c k / 1) with (mag data i0 c k) by field. rewrite Rmax_left by exact Nc. destruct amp; auto. now rewrite level_sq. }
  fold (Rdiv 1 1) in *. unfold Rdiv in Es. rewrite Es. apply RP. unfold h. destruct amp; auto. now apply pow_lt.
Qed.
Print Assumptions C102_energy.

(** Calibrated data: levels relative to 20 uPa without normalization, no effect with one. *)
Theorem C102_calibrated f data amp range nrm p : args_ok f data range p ->
  (nrm <> NoNorm -> forall fractions, normalized_spectrum f data amp range nrm fractions true = normalized_spectrum f data amp range nrm fractions false) /\
  (exists fs db, normalized_spectrum f data amp range NoNorm None false = Ok (fs, db) /\
     normalized_spectrum f data amp range NoNorm None true = Ok (fs, map (map (option_map (fun v => v + level true (1 / (20 / 1000000))))) db)).
Proof.
  intros A. split. { intros N fr. unfold normalized_spectrum, scale_factor. destruct nrm; auto. easy. }
  apply (transfer f data data amp amp range NoNorm false true p p (level true (1 / (20 / 1000000)))); auto. pose proof A as (_ & _ & _ & _ & P & _).
  intros c k Hc Hk. set (m := mag data _ c k). assert (0 <= m) by apply Rabs_pos. destruct amp.
  - replace (p / (20 / 1000000)) with (1 / (20 / 1000000) * (p / 1)) by field. replace (m / (20 / 1000000)) with (1 / (20 / 1000000) * (m / 1)) by field. apply shown_scale; lra.
  - rewrite <- level_sq by lra. replace (p / (4 / 10000000000)) with ((1 / (20 / 1000000)) ^ 2 * (p / 1)) by field. replace (m / (4 / 10000000000)) with ((1 / (20 / 1000000)) ^ 2 * (m / 1)) by field. apply shown_scale; lra.
Qed.
Print Assumptions C102_calibrated.

(** Normalizing at 1 kHz: refused when 1 kHz is outside of the selected frequencies ... *)
Lemma cut_first_last f range : f <> [] -> increasing f -> let F := cut (band f range) f in let i0 := sel_start f range in let n := sel_count f range in
  F <> [] /\ length F = n /\ increasing F /\ gt F 0 = gt f i0 /\ last F 0 = gt f (i0 + (n - 1)) /\ (1 <= n)%nat.
Proof.
  intros N I F i0 n. destruct (band_eq f range N I) as (EB & N1 & NB). fold i0 n in EB, N1, NB. unfold F. rewrite EB. set (G := cut _ f).
  assert (LG : length G = n) by (now apply cut_length). assert (GG : forall k, (k < n)%nat -> gt G k = gt f (i0 + k)) by (intros; unfold get, G; now rewrite cut_nth).
  assert (NE : G <> []) by (intros Q; rewrite Q in LG; simpl in LG; lia). split; auto. split; auto. split. { intros a b Hab Hb. rewrite !GG by lia. apply I; lia. }
  split. rewrite GG by lia. f_equal. lia. split; auto. rewrite <- GG by lia. rewrite <- LG. clear -NE. induction G as [|a G IH]; [easy|]. destruct G as [|b G]; auto. change (last (a :: b :: G) 0) with (last (b :: G) 0). rewrite IH by discriminate. cbn [length].
  replace (S (S (length G)) - 1)%nat with (S (S (length G) - 1)) by lia. reflexivity.
Qed.
Lemma refs_err F amp nrm m db e : db <> [] -> nrm = OneKhz \/ nrm = OneKhzFirst -> (forall col, gain_1khz F col = Err e) -> references F amp nrm m db = Err e.
Proof. intros ND N G. destruct db as [|c t]; [easy|]. destruct N; subst nrm; cbn [references map seq_result]; rewrite G; reflexivity. Qed.
Theorem C102_one_khz_outside f data amp range nrm cal : f <> [] -> increasing f -> data <> [] -> nrm = OneKhz \/ nrm = OneKhzFirst ->
  let i0 := sel_start f range in let n := sel_count f range in
  1000 <= gt f i0 \/ gt f (i0 + (n - 1)) < 1000 -> normalized_spectrum f data amp range nrm None cal = Err AssertionError.
Proof.
  intros N I ND Hn i0 n H. destruct (cut_first_last f range N I) as (NE & LF & IF & G0 & GL & N1). fold i0 n in G0, GL, LF, N1. set (F := cut (band f range) f) in *.
  unfold normalized_spectrum. cbn [bind]. fold F. rewrite (refs_err F amp nrm _ _ AssertionError); auto. { unfold to_db_mat. destruct data; [easy|discriminate]. }
  intros col. unfold gain_1khz. destruct F as [|f0 F'] eqn:EF; [easy|]. change (gt (f0 :: F') 0) with f0 in G0. rewrite GL, G0. destruct (Rlt_dec _ _), (Rle_dec _ _); auto; lra.
Qed.
Print Assumptions C102_one_khz_outside.
(** ... but when 1 kHz is exactly the last selected frequency, which the check admits, the computation fails. *)
Theorem C102_one_khz_edge_refuted f data amp range nrm cal : f <> [] -> increasing f -> data <> [] -> nrm = OneKhz \/ nrm = OneKhzFirst ->
  let i0 := sel_start f range in let n := sel_count f range in
  gt f i0 < 1000 -> gt f (i0 + (n - 1)) = 1000 -> normalized_spectrum f data amp range nrm None cal = Err IndexError.
Proof.
  intros N I ND Hn i0 n H0 H1. destruct (cut_first_last f range N I) as (NE & LF & IF & G0 & GL & N1). fold i0 n in G0, GL, LF, N1. set (F := cut (band f range) f) in *.
  unfold normalized_spectrum. cbn [bind]. fold F. rewrite (refs_err F amp nrm _ _ IndexError); auto. { unfold to_db_mat. destruct data; [easy|discriminate]. }
  destruct (nearest_spec 1000 F NE) as (A & B & _). set (i := nearest 1000 F) in *. assert (Ei : i = (n - 1)%nat).
  { destruct (Nat.eq_dec i (n - 1)) as [|Q]; auto. exfalso. pose proof (IF i (n - 1)%nat ltac:(lia) ltac:(lia)) as Lt.
    assert (Q1 : gt F (n - 1) = 1000). { rewrite <- H1, <- GL, <- LF. clear -NE. induction F as [|a G IH]; [easy|]. destruct G as [|b G]; auto. change (last (a :: b :: G) 0) with (last (b :: G) 0). rewrite <- IH by discriminate. cbn [length].
      replace (S (S (length G)) - 1)%nat with (S (S (length G) - 1)) by lia. reflexivity. }
    specialize (B (n - 1)%nat ltac:(lia)). rewrite Q1 in *. revert B. unfold Rabs. repeat destruct (Rcase_abs _); lra. }
  assert (Q1 : nth i F 0 = 1000). { rewrite Ei, <- H1, <- GL, <- LF. clear -NE. induction F as [|a G IH]; [easy|]. destruct G as [|b G]; auto. change (last (a :: b :: G) 0) with (last (b :: G) 0). rewrite <- IH by discriminate. cbn [length].
      replace (S (S (length G)) - 1)%nat with (S (S (length G) - 1)) by lia. reflexivity. }
  intros col. unfold gain_1khz. destruct F as [|f0 F'] eqn:EF; [easy|]. change (gt (f0 :: F') 0) with f0 in G0. rewrite GL, G0. destruct (Rlt_dec _ _); [|lra]. destruct (Rle_dec _ _); [|lra]. cbn [andb].
  cbv zeta. rewrite <- G0. fold i. rewrite Q1. destruct (Rlt_dec 1000 1000); [lra|]. destruct (Nat.ltb_spec (S i) (length (f0 :: F'))); auto. lia.
Qed.
Print Assumptions C102_one_khz_edge_refuted.
(** Power data: normalizing with the energy of the first channel always fails, and the requested smoothing is ignored. *)
Theorem C102_power_energy_first_refuted f data range fractions cal : data <> [] -> normalized_spectrum f data false range EnergyFirst fractions cal = Err ValueError.
Proof. intros ND. unfold normalized_spectrum. destruct data as [|c t]; [easy|]. destruct fractions; reflexivity. Qed.
Print Assumptions C102_power_energy_first_refuted.
Theorem C102_power_smoothing_refuted f data range nrm q cal : normalized_spectrum f data false range nrm (Some q) cal = normalized_spectrum f data false range nrm None cal.
Proof. reflexivity. Qed.
Print Assumptions C102_power_smoothing_refuted.

Example C102_example : args_ok [500; 1500; 2500] [[1; -4; 1]; [2; 2; 3]] None 4 /\
  gt [500; 1500; 2500] (sel_start [500; 1500; 2500] None) < 1000 < gt [500; 1500; 2500] (sel_start [500; 1500; 2500] None + (sel_count [500; 1500; 2500] None - 1)) /\
  loud EnergyN true 3 2 (mag [[1; -4; 1]; [2; 2; 3]] 0) /\
  (forall c k, (c < 2)%nat -> (k < 3)%nat -> 4 * Rpower 10 (- (500) / 20) <= mag [[1; -4; 1]; [2; 2; 3]] 0 c k).
Proof.
  assert (M : forall c k, (c < 2)%nat -> (k < 3)%nat -> 1 <= mag [[1; -4; 1]; [2; 2; 3]] 0 c k <= 4).
  { intros c k Hc Hk. destruct c as [|[|c]]; [| |lia]; destruct k as [|[|[|k]]]; try lia; unfold mag, get; cbn; unfold Rabs; destruct (Rcase_abs _); lra. }
  split; [|split; [|split]].
  - split; [discriminate|]. split. { intros i j Hij Hj. simpl in Hj. destruct j as [|[|[|j]]]; try lia; destruct i as [|[|i]]; try lia; cbn; lra. }
    split; [discriminate|]. split. { intros col [<-|[<-|[]]]; reflexivity. } split; [lra|]. cbn [sel_start sel_count length]. split. intros; now apply M.
    exists 0%nat, 1%nat. repeat split; auto. unfold mag, get. cbn. unfold Rabs. destruct (Rcase_abs _); lra.
  - cbn. lra.
  - intros c Hc _. pose proof small_le_1 as S1. unfold avg. cbn [sum]. simpl radd. pose proof (M c 0%nat Hc ltac:(lia)). pose proof (M c 1%nat Hc ltac:(lia)). pose proof (M c 2%nat Hc ltac:(lia)).
    apply Rle_trans with 1; [lra|]. apply Rmult_le_reg_r with (INR 3). simpl; lra. unfold Rdiv. rewrite Rmult_assoc, Rinv_l by (simpl; lra). simpl INR. nra.
  - intros c k Hc Hk. apply Rle_trans with 1; [|now apply M]. replace (- (500) / 20) with (- (1) + - (24)) by lra. rewrite Rpower_plus, Rpower_Ropp, Rpower_1 by lra.
    assert (Rpower 10 (- (24)) <= 1). { rewrite <- (Rpower_O 10) by lra. apply Rle_Rpower; lra. } lra.
Qed.
(** 1 kHz at the end of the range *)
Example C102_edge_example : normalized_spectrum [500; 1000] [[1; 2]] true None OneKhz None false = Err IndexError.
Proof.
  apply (C102_one_khz_edge_refuted [500; 1000] [[1; 2]] true None OneKhz false); try discriminate; auto; cbn; try lra.
  intros i j Hij Hj. simpl in Hj. destruct j as [|[|j]]; try lia; destruct i as [|i]; try lia; cbn; lra.
Qed.
