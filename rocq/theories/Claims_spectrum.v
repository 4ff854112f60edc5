(** C31, C32, C44, C45, C46: the Spectrum class. *)
From Coq Require Import List Arith Lia ZArith Bool Reals Lra Psatz.
From Verif Require Import Alg Spec M_arrays M_signal M_spectrum P_spectrum.
Import ListNotations.
Local Open Scope R_scope.

(** ** C31 *)
(** Trimming keeps the bins a .. b-1 of every channel, in order; a bin is among them exactly when [kept] holds: in inclusive mode
    from the last bin not above the lower limit to the first bin not below the upper one. *)
Theorem C31_trim_keeps_range :
  forall s lo hi incl s', sp_wf s -> trim s lo hi incl = (s', Ok tt) ->
  sp_wf s' /\ exists a b, (a < b)%nat /\ (b <= length (sp_f s))%nat /\
    (forall i, (i < length (sp_f s))%nat -> (a <= i < b)%nat <-> kept incl (sp_f s) lo hi i) /\
    length (sp_f s') = (b - a)%nat /\ length (sp_d s') = length (sp_d s) /\
    (forall i, (i < b - a)%nat -> nth i (sp_f s') 0 = nth (a + i) (sp_f s) 0 /\
       forall c, (c < length (sp_d s))%nat -> nth i (nth c (sp_d s') []) c0 = nth (a + i) (nth c (sp_d s) []) c0).
Proof.
  intros s lo hi incl s' W E. rewrite trim_eq in E by auto. destruct W as (A & N & D & LD & U & M).
  pose proof (slice_spec (sp_f s) lo hi incl A) as HS. destruct (freqs_to_slice (sp_f s) lo hi incl) as [[a b]|e]; [|discriminate].
  destruct HS as (Hab & Hb & HK). destruct (Nat.ltb_spec (b - a) (length (sp_d s))); [discriminate|]. injection E as <-.
  assert (LF : length (slice a b (sp_f s)) = (b - a)%nat) by (rewrite slice_length; lia). split.
  - split; [|split; [|split; [|split; [|split]]]]; cbn [with_d with_f sp_f sp_d sp_mag].
    + now apply slice_asc.
    + intros v Hv. apply N. eapply slice_In; eauto.
    + destruct (sp_d s); [congruence|discriminate].
    + rewrite LF, map_length. lia.
    + intros col Hc. apply in_map_iff in Hc as (c' & <- & Hc). rewrite LF, slice_length, (U _ Hc). lia.
    + intros Em col z Hc Hz. apply in_map_iff in Hc as (c' & <- & Hc). eapply (M Em c' z Hc). eapply slice_In; eauto.
  - exists a, b. split; auto. split; auto. split; auto. cbn [with_d with_f sp_f sp_d]. split; auto. split. apply map_length.
    intros i Hi. split. now apply slice_nth. intros c Hc.
    rewrite (nth_indep _ [] (slice a b [])) by now rewrite map_length. rewrite map_nth. now apply slice_nth.
Qed.
Print Assumptions C31_trim_keeps_range.
(** With limits on bins the range is exactly the closed (inclusive) or open (exclusive) interval. *)
Theorem C31_limits_on_bins :
  forall f lo hi p q i, asc f -> (p < length f)%nat -> (q < length f)%nat -> nth p f 0 = lo -> nth q f 0 = hi -> (i < length f)%nat ->
  (kept true f (Some lo) (Some hi) i <-> lo <= nth i f 0 <= hi) /\ (kept false f (Some lo) (Some hi) i <-> lo < nth i f 0 < hi).
Proof.
  intros f lo hi p q i A Hp Hq <- <- Hi. unfold kept, lower_kept, upper_kept. split; split.
  - intros [K1 K2]. specialize (K1 _ eq_refl). specialize (K2 _ eq_refl). split.
    + destruct K1 as [K1|[L K1]]; auto. apply asc_lt_idx in K1; auto. apply asc_le; auto; lia.
    + destruct K2 as [->|K2]. apply asc_le; auto; lia. apply asc_lt_idx in K2; auto; [|lia]. apply asc_le; auto; lia.
  - intros [K1 K2]. split; intros v [= <-]; auto. destruct i; auto. right. replace (S i - 1)%nat with i by lia. pose proof (A i (S i) ltac:(lia) Hi). lra.
  - intros [K1 K2]. specialize (K1 _ eq_refl). specialize (K2 _ eq_refl). split; auto. destruct K1 as [K0 K1]. pose proof (A (i - 1)%nat i ltac:(lia) Hi). lra.
  - intros [K1 K2]. split; intros v [= <-]; auto. apply asc_lt_idx in K1; auto. split; [lia|]. apply asc_le; auto; lia.
Qed.
Print Assumptions C31_limits_on_bins.
(** Every failure: a lower limit above all bins, an empty selection (both leave the spectrum alone), or fewer bins than channels. *)
Theorem C31_trim_failures :
  forall s lo hi incl s' e, sp_wf s -> trim s lo hi incl = (s', Err e) ->
  (s' = s /\ e = IndexError /\ incl = true /\ exists v, lo = Some v /\ forall i, (i < length (sp_f s))%nat -> nth i (sp_f s) 0 < v) \/
  (s' = s /\ e = AssertionError /\ forall i, (i < length (sp_f s))%nat -> ~ kept incl (sp_f s) lo hi i) \/
  (e = AssertionError /\ sp_d s' = sp_d s /\ (length (sp_f s') < length (sp_d s))%nat /\ (length (sp_f s') < length (sp_f s))%nat).
Proof.
  intros s lo hi incl s' e W E. rewrite trim_eq in E by auto. destruct W as (A & N & D & LD & U & M).
  pose proof (slice_spec (sp_f s) lo hi incl A) as HS. destruct (freqs_to_slice (sp_f s) lo hi incl) as [[a b]|e'].
  - destruct HS as (Hab & Hb & _). destruct (Nat.ltb_spec (b - a) (length (sp_d s))); [|discriminate]. injection E as <- <-. right; right.
    cbn [with_f sp_f sp_d]. rewrite slice_length. split; auto. split; auto. lia.
  - injection E as <- <-. destruct e'; try contradiction; auto.
Qed.
Print Assumptions C31_trim_failures.
Lemma asc4 : asc [0; 1; 2; 3].
Proof. apply asc_iff. cbn. repeat (match goal with |- context [Rlt_dec ?a ?b] => destruct (Rlt_dec a b); [|lra] end). reflexivity. Qed.
Definition ex_col (k : R) : list cplx := [(k, 0); (k + 1, 0); (2, 0); (5, 0)].
Definition ex_sp : spectrum := mkSp [0; 1; 2; 3] true [ex_col 1; ex_col 3] None DPower ZeroPad.
Lemma ex_sp_wf : sp_wf ex_sp.
Proof.
  split. apply asc4. split. cbn. intros v H. repeat (destruct H as [<-|H]; [lra|]); contradiction. split; [discriminate|]. split; [simpl; lia|]. split.
  - intros col [<-|[<-|[]]]; reflexivity.
  - intros _ col z [<-|[<-|[]]] Hz; cbn in Hz; repeat (destruct Hz as [<-|Hz]; [cbn; lra|]); contradiction.
Qed.
Lemma ex_trim : freqs_to_slice [0; 1; 2; 3] (Some (1 / 2)) (Some 2) true = Ok (0%nat, 3%nat).
Proof.
  unfold freqs_to_slice. cbn [searchsorted]. repeat (match goal with |- context [Rlt_dec ?a ?b] => destruct (Rlt_dec a b); try lra end).
  cbn [nth_error]. destruct (Req_EM_T 1 (1 / 2)); [lra|]. reflexivity.
Qed.
Example C31_example : sp_wf ex_sp /\ exists s', trim ex_sp (Some (1 / 2)) (Some 2) true = (s', Ok tt).
Proof. split. apply ex_sp_wf. rewrite trim_eq by apply ex_sp_wf. cbn [sp_f ex_sp]. rewrite ex_trim. cbn. eexists; reflexivity. Qed.
(** Exclusive mode loses the first bin inside the range when the lower limit is not a bin. *)
Theorem C31_exclusive_refuted :
  ~ (forall s lo hi s' i, sp_wf s -> trim s (Some lo) (Some hi) false = (s', Ok tt) -> (i < length (sp_f s))%nat -> lo < nth i (sp_f s) 0 < hi -> In (nth i (sp_f s) 0) (sp_f s')).
Proof.
  intros H. specialize (H ex_sp (1 / 2) (7 / 2)).
  assert (E : freqs_to_slice [0; 1; 2; 3] (Some (1 / 2)) (Some (7 / 2)) false = Ok (2%nat, 4%nat)).
  { unfold freqs_to_slice. cbn [searchsorted]. repeat (match goal with |- context [Rlt_dec ?a ?b] => destruct (Rlt_dec a b); try lra end). reflexivity. }
  rewrite trim_eq in H by apply ex_sp_wf. change (sp_f ex_sp) with [0; 1; 2; 3] in H. rewrite E in H. cbn in H.
  specialize (H _ 1%nat ex_sp_wf eq_refl). cbn in H. destruct H as [H|[H|[]]]; try lia; lra.
Qed.
Print Assumptions C31_exclusive_refuted.
(** A failed trim can leave frequencies and data of different lengths behind. *)
Theorem C31_failed_trim_refuted : ~ (forall s lo hi incl s' e, sp_wf s -> trim s lo hi incl = (s', Err e) -> s' = s).
Proof.
  intros H. specialize (H ex_sp None (Some 0) true).
  assert (E : freqs_to_slice [0; 1; 2; 3] None (Some 0) true = Ok (0%nat, 1%nat)).
  { unfold freqs_to_slice. cbn [searchsorted]. repeat (match goal with |- context [Rlt_dec ?a ?b] => destruct (Rlt_dec a b); try lra end). reflexivity. }
  rewrite trim_eq in H by apply ex_sp_wf. change (sp_f ex_sp) with [0; 1; 2; 3] in H. rewrite E in H. cbn in H.
  specialize (H _ _ ex_sp_wf eq_refl). apply (f_equal (fun s => length (sp_f s))) in H. discriminate.
Qed.
Print Assumptions C31_failed_trim_refuted.

(** ** C32 *)
Lemma get_interp_ok s xs o : (sp_mag s = true -> o <> OComplex) -> sp_f s <> [] -> sp_edge s = ZeroPad \/ sp_edge s = OnePad \/ length (sp_d s) = 1%nat ->
  (sp_edge s = EdgeError -> forall x, In x xs -> in_range (sp_f s) x) ->
  get_interp s xs o = Ok (map (fun col => map (fun x => convert_out (sp_dom s) o (interp_col s col x)) xs) (sp_d s)).
Proof.
  intros Hm Hf He Hr. unfold get_interp. replace (match o with OComplex => sp_mag s | _ => false end) with false.
  2:{ destruct o; auto. destruct (sp_mag s); auto. exfalso. now apply Hm. }
  destruct (sp_f s) as [|f0 t] eqn:Ef; [congruence|]. rewrite <- Ef.
  replace (match sp_edge s with EdgeError => _ | _ => false end) with false.
  2:{ destruct (sp_edge s) eqn:Ee; auto. symmetry. apply not_true_iff_false. intros C. apply existsb_exists in C as (x & Hx & C).
      specialize (Hr eq_refl x Hx). rewrite <- Ef in Hr. destruct Hr as [R1 R2]. rewrite last_nth in C. rewrite Ef in R1 at 1. cbn [nth] in R1.
      destruct (Rlt_dec x f0); [lra|]. destruct (Rlt_dec (nth (length (sp_f s) - 1) (sp_f s) 0) x); [lra|discriminate]. }
  replace (match sp_edge s with ZeroPad | OnePad => false | _ => (1 <? length (sp_d s))%nat end) with false; auto.
  destruct He as [-> | [-> | ->]]; auto. destruct (sp_edge s); auto.
Qed.
(** The setting in which an interpolation succeeds. *)
Definition interp_ready (s : spectrum) (xs : list R) : Prop :=
  sp_wf s /\ (sp_edge s = ZeroPad \/ sp_edge s = OnePad \/ length (sp_d s) = 1%nat) /\ (sp_edge s = EdgeError -> forall x, In x xs -> in_range (sp_f s) x).
Lemma wf_f s : sp_wf s -> sp_f s <> [].
Proof. intros (_ & _ & D & L & _). destruct (sp_f s); [|discriminate]. destruct (sp_d s); [congruence|simpl in L; lia]. Qed.
Lemma interp_out s xs o c k : interp_ready s xs -> (sp_mag s = true -> o <> OComplex) -> (c < length (sp_d s))%nat -> (k < length xs)%nat ->
  exists out, get_interp s xs o = Ok out /\ length out = length (sp_d s) /\ length (nth c out []) = length xs /\
    nth k (nth c out []) c0 = convert_out (sp_dom s) o (interp_col s (nth c (sp_d s) []) (nth k xs 0)).
Proof.
  intros (W & He & Hr) Hm Hc Hk. rewrite get_interp_ok; auto using wf_f. eexists. split; [reflexivity|]. rewrite map_length. split; auto.
  rewrite (nth_indep _ [] (map (fun x => convert_out (sp_dom s) o (interp_col s [] x)) xs)) by now rewrite map_length.
  rewrite (map_nth (fun col => map (fun x => convert_out (sp_dom s) o (interp_col s col x)) xs)). rewrite map_length. split; auto.
  rewrite (nth_indep _ c0 (convert_out (sp_dom s) o (interp_col s (nth c (sp_d s) []) 0))) by now rewrite map_length.
  now rewrite (map_nth (fun x => convert_out (sp_dom s) o (interp_col s (nth c (sp_d s) []) x))).
Qed.
Lemma interp_col_in s c x : sp_wf s -> (c < length (sp_d s))%nat -> in_range (sp_f s) x ->
  polygon (sp_f s) (map (idata (sp_dom s)) (nth c (sp_d s) [])) x (fst (interp_col s (nth c (sp_d s) []) x)) /\
  (sp_dom s = DComplex -> polygon (sp_f s) (map snd (nth c (sp_d s) [])) x (snd (interp_col s (nth c (sp_d s) []) x))) /\
  (sp_dom s <> DComplex -> snd (interp_col s (nth c (sp_d s) []) x) = 0).
Proof.
  intros W Hc Hx. pose proof (wf_f s W) as NE. destruct W as (A & N & D & LD & U & M). pose proof (U _ (nth_In _ [] Hc)) as L.
  unfold interp_col. destruct (edge_values _ _) as [l r]. cbn [fst snd]. split; [|split].
  - apply np_interp_in; auto. now rewrite map_length.
  - intros ->. apply np_interp_in; auto. now rewrite map_length.
  - intros H. destruct (sp_dom s); auto. congruence.
Qed.
(** Inside the range: the chosen quantity (power, magnitude, or real and imaginary part) is joined by straight lines, then converted. *)
Theorem C32_interpolation_inside :
  forall s xs c k, interp_ready s xs -> (c < length (sp_d s))%nat -> (k < length xs)%nat -> in_range (sp_f s) (nth k xs 0) ->
  let f := sp_f s in let col := nth c (sp_d s) [] in let x := nth k xs 0 in
  exists pow mag, get_interp s xs OPower = Ok pow /\ get_interp s xs OMagnitude = Ok mag /\
  let p := nth k (nth c pow []) c0 in let m := nth k (nth c mag []) c0 in
  snd p = 0 /\ snd m = 0 /\
  match sp_dom s with
  | DPower => polygon f (map cabs_sq col) x (fst p) /\ fst m = sqrt (fst p)
  | DMagnitude => polygon f (map cabsv col) x (fst m) /\ fst p = fst m * fst m
  | DComplex => exists re im, polygon f (map fst col) x re /\ polygon f (map snd col) x im /\ fst p = re * re + im * im /\ fst m = sqrt (fst p) /\
      (sp_mag s = false -> exists out, get_interp s xs OComplex = Ok out /\ nth k (nth c out []) c0 = (re, im))
  end.
Proof.
  intros s xs c k R Hc Hk Hx f col x. destruct (interp_out s xs OPower c k R) as (pw & E1 & _ & _ & V1); auto. discriminate.
  destruct (interp_out s xs OMagnitude c k R) as (mg & E2 & _ & _ & V2); auto. discriminate.
  exists pw, mg. split; auto. split; auto. cbv zeta. rewrite V1, V2. destruct R as (W & He & Hr).
  destruct (interp_col_in s c (nth k xs 0) W Hc Hx) as (P1 & P2 & P3). fold col x in P1, P2, P3 |- *. set (z := interp_col s col x) in *.
  destruct (sp_dom s) eqn:Ed; cbn [convert_out fst snd].
  - specialize (P3 ltac:(discriminate)). auto.
  - specialize (P3 ltac:(discriminate)). auto.
  - specialize (P2 eq_refl). split; auto. split; auto. exists (fst z), (snd z). split; auto. split; auto. split; auto. split; auto.
    intros Hm. destruct (interp_out s xs OComplex c k) as (out & E3 & _ & _ & V3); auto. split; auto. congruence.
    exists out. split; auto. rewrite V3. cbn [convert_out]. fold col x. fold z. now destruct z.
Qed.
Print Assumptions C32_interpolation_inside.
(** On the grid the stored values come back, whatever the domain and edge handling. *)
Theorem C32_values_on_grid :
  forall s j c, interp_ready s (sp_f s) -> (c < length (sp_d s))%nat -> (j < length (sp_f s))%nat ->
  let z := nth j (nth c (sp_d s) []) c0 in
  exists pow mag, get_interp s (sp_f s) OPower = Ok pow /\ get_interp s (sp_f s) OMagnitude = Ok mag /\
  nth j (nth c pow []) c0 = (cabs_sq z, 0) /\ nth j (nth c mag []) c0 = (cabsv z, 0) /\
  (sp_mag s = false -> sp_dom s = DComplex -> exists out, get_interp s (sp_f s) OComplex = Ok out /\ nth j (nth c out []) c0 = z).
Proof.
  intros s j c R Hc Hj z. pose proof R as R'. destruct R' as (W & _ & _). pose proof W as (A & N & D & LD & U & M).
  assert (Hx : in_range (sp_f s) (nth j (sp_f s) 0)) by (split; apply asc_le; auto; lia).
  destruct (C32_interpolation_inside s (sp_f s) c j R Hc Hj Hx) as (pw & mg & E1 & E2 & S1 & S2 & H). exists pw, mg. split; auto. split; auto. cbv zeta in *.
  pose proof (U _ (nth_In _ [] Hc)) as L. set (col := nth c (sp_d s) []) in *.
  assert (G : forall g v, polygon (sp_f s) (map g col) (nth j (sp_f s) 0) v -> v = g z).
  { intros g v P. eapply polygon_unique; eauto. replace (g z) with (nth j (map g col) 0). now apply polygon_grid.
    rewrite (nth_indep _ 0 (g c0)) by (rewrite map_length; lia). apply map_nth. }
  assert (Q : 0 <= cabs_sq z) by (unfold cabs_sq; nra).
  destruct (nth j (nth c pw []) c0) as [p1 p2], (nth j (nth c mg []) c0) as [m1 m2]. cbn [fst snd] in *. subst p2 m2.
  destruct (sp_dom s).
  - destruct H as [H1 H2]. apply G in H1. subst. split; auto. split; auto. discriminate.
  - destruct H as [H1 H2]. apply G in H1. subst. unfold cabsv. rewrite sqrt_sqrt by auto. split; auto. split; auto. discriminate.
  - destruct H as (re & im & P1 & P2 & H1 & H2 & H3). apply G in P1, P2. subst. split; auto. split; auto. intros Hm _. destruct (H3 Hm) as (out & E & V). exists out. split; auto.
    rewrite V. now destruct z.
Qed.
Print Assumptions C32_values_on_grid.
Lemma sqrt_between a b v : Rmin a b <= v <= Rmax a b -> Rmin (sqrt a) (sqrt b) <= sqrt v <= Rmax (sqrt a) (sqrt b).
Proof.
  intros [H1 H2]. assert (M : forall x y, x <= y -> sqrt x <= sqrt y) by (intros; now apply sqrt_le_1_alt). destruct (Rle_dec a b) as [L|L].
  - rewrite Rmin_left in H1 by auto. rewrite Rmax_right in H2 by auto. rewrite Rmin_left, Rmax_right by auto. auto.
  - rewrite Rmin_right in H1 by lra. rewrite Rmax_left in H2 by lra. assert (sqrt b <= sqrt a) by (apply M; lra). rewrite Rmin_right, Rmax_left by auto. auto.
Qed.
(** No overshoot: power and magnitude interpolation stay between the two neighbouring bins. *)
Theorem C32_between_neighbours :
  forall s xs c k, interp_ready s xs -> sp_dom s <> DComplex -> (c < length (sp_d s))%nat -> (k < length xs)%nat -> in_range (sp_f s) (nth k xs 0) ->
  exists mag i j, get_interp s xs OMagnitude = Ok mag /\ (i < length (sp_f s))%nat /\ (j < length (sp_f s))%nat /\ (j <= S i)%nat /\
    nth i (sp_f s) 0 <= nth k xs 0 <= nth j (sp_f s) 0 /\
    let m := fst (nth k (nth c mag []) c0) in let a := cabsv (nth i (nth c (sp_d s) []) c0) in let b := cabsv (nth j (nth c (sp_d s) []) c0) in
    Rmin a b <= m <= Rmax a b.
Proof.
  intros s xs c k R Hd Hc Hk Hx. destruct (C32_interpolation_inside s xs c k R Hc Hk Hx) as (pw & mg & E1 & E2 & S1 & S2 & H). cbv zeta in *.
  destruct R as ((A & N & D & LD & U & M) & _). pose proof (U _ (nth_In _ [] Hc)) as L. set (col := nth c (sp_d s) []) in *.
  assert (G : forall g i, (i < length (sp_f s))%nat -> nth i (map g col) 0 = g (nth i col c0)).
  { intros g i Hi. rewrite (nth_indep _ 0 (g c0)) by (rewrite map_length; lia). apply map_nth. }
  destruct (sp_dom s); [| |congruence].
  - destruct H as [H1 H2]. destruct (polygon_between _ _ _ _ A H1) as (i & j & Hi & Hj & B1 & B2 & B3). rewrite !G in B3 by auto.
    exists mg, i, j. split; auto. split; auto. split; auto. split; auto. split; auto. rewrite H2. now apply sqrt_between.
  - destruct H as [H1 H2]. destruct (polygon_between _ _ _ _ A H1) as (i & j & Hi & Hj & B1 & B2 & B3). rewrite !G in B3 by auto.
    exists mg, i, j. repeat split; auto; lra.
Qed.
Print Assumptions C32_between_neighbours.
(** Outside the range. *)
Theorem C32_edges :
  forall s x c, sp_wf s -> sp_dom s <> DComplex -> (c < length (sp_d s))%nat -> (x < nth 0 (sp_f s) 0 \/ nth (length (sp_f s) - 1) (sp_f s) 0 < x) ->
  let j := if Rlt_dec x (nth 0 (sp_f s) 0) then 0%nat else (length (sp_f s) - 1)%nat in
  match sp_edge s with
  | ZeroPad => exists mag, get_interp s [x] OMagnitude = Ok mag /\ nth 0 (nth c mag []) c0 = (0, 0)
  | OnePad => exists mag, get_interp s [x] OMagnitude = Ok mag /\ nth 0 (nth c mag []) c0 = (1, 0)
  | Extend => length (sp_d s) = 1%nat -> exists mag, get_interp s [x] OMagnitude = Ok mag /\ nth 0 (nth c mag []) c0 = (cabsv (nth j (nth c (sp_d s) []) c0), 0)
  | EdgeError => get_interp s [x] OMagnitude = Err AssertionError
  end.
Proof.
  intros s x c W Hd Hc Hx j. pose proof (wf_f s W) as NE. pose proof W as (A & N & D & LD & U & M). pose proof (U _ (nth_In _ [] Hc)) as L.
  set (col := nth c (sp_d s) []) in *.
  assert (NV : forall y l r, np_interp (sp_f s) y l r x = if Rlt_dec x (nth 0 (sp_f s) 0) then l else r).
  { intros. unfold np_interp. destruct (Rlt_dec x (nth 0 (sp_f s) 0)); auto. rewrite last_nth. destruct (Rlt_dec _ x); auto. destruct Hx; contradiction. }
  assert (Go : sp_edge s = ZeroPad \/ sp_edge s = OnePad \/ (sp_edge s = Extend /\ length (sp_d s) = 1%nat) ->
    exists mag, get_interp s [x] OMagnitude = Ok mag /\ nth 0 (nth c mag []) c0 = convert_out (sp_dom s) OMagnitude (interp_col s col x)).
  { intros He. destruct (interp_out s [x] OMagnitude c 0) as (mag & E & _ & _ & V); auto.
    - split; auto. split. tauto. intros C. rewrite C in He. destruct He as [He|[He|[He _]]]; discriminate.
    - discriminate.
    - exists mag. split; auto. }
  assert (IC : interp_col s col x = (let '(l, r) := edge_values (sp_edge s) (map (idata (sp_dom s)) col) in (if Rlt_dec x (nth 0 (sp_f s) 0) then l else r, 0))).
  { unfold interp_col. destruct (edge_values _ _) as [l r]. rewrite NV. destruct (sp_dom s); auto. congruence. }
  destruct (sp_edge s) eqn:Ee.
  - destruct Go as (mag & E & V); auto. exists mag. split; auto. rewrite V, IC. cbn [edge_values]. destruct (Rlt_dec x _); destruct (sp_dom s); cbn; auto; try congruence; now rewrite sqrt_0.
  - destruct Go as (mag & E & V); auto. exists mag. split; auto. rewrite V, IC. cbn [edge_values]. destruct (Rlt_dec x _); destruct (sp_dom s); cbn; auto; try congruence; now rewrite sqrt_1.
  - intros H1. destruct Go as (mag & E & V); auto. exists mag. split; auto. rewrite V, IC. cbn [edge_values].
    assert (G : forall g i, (i < length (sp_f s))%nat -> nth i (map g col) 0 = g (nth i col c0)).
    { intros g i Hi. rewrite (nth_indep _ 0 (g c0)) by (rewrite map_length; lia). apply map_nth. }
    assert (NZ : (0 < length (sp_f s))%nat) by (destruct (sp_f s); [congruence|simpl; lia]).
    rewrite last_nth, map_length, L, !G by lia.
    replace (if Rlt_dec x (nth 0 (sp_f s) 0) then idata (sp_dom s) (nth 0 col c0) else idata (sp_dom s) (nth (length (sp_f s) - 1) col c0)) with (idata (sp_dom s) (nth j col c0)) by (unfold j; destruct (Rlt_dec x _); auto).
    destruct (sp_dom s); cbn; auto. congruence.
  - unfold get_interp. destruct (sp_f s) as [|f0 t] eqn:Ef; [congruence|]. rewrite Ee, <- Ef. cbn [existsb]. rewrite last_nth.
    replace (_ || false) with true; auto. symmetry. rewrite orb_false_r. rewrite <- Ef in Hx. rewrite Ef in Hx at 1. cbn [nth] in Hx. destruct (Rlt_dec x f0); auto. destruct (Rlt_dec _ x); auto. tauto.
Qed.
Print Assumptions C32_edges.
(** Extend and Error never work for more than one channel. *)
Theorem C32_multichannel_edges_refuted :
  forall s xs o, sp_wf s -> (sp_edge s = Extend \/ sp_edge s = EdgeError) -> (1 < length (sp_d s))%nat -> (forall x, In x xs -> in_range (sp_f s) x) ->
  exists e, get_interp s xs o = Err e.
Proof.
  intros s xs o W He Hl Hx. unfold get_interp. destruct (match o with OComplex => sp_mag s | _ => false end); [eauto|].
  destruct (sp_f s); [eauto|]. destruct (match sp_edge s with EdgeError => _ | _ => false end); [eauto|].
  replace (match sp_edge s with ZeroPad | OnePad => false | _ => (1 <? length (sp_d s))%nat end) with true; [eauto|]. apply Nat.ltb_lt in Hl. destruct He as [-> | ->]; auto.
Qed.
Print Assumptions C32_multichannel_edges_refuted.
(** The complex output of a complex spectrum is the power or the magnitude unless the Complex domain was chosen, and the default is Power;
    with Extend the imaginary part outside the range repeats the real one. *)
Definition ex_cs (d : idomain) (e : iedge) : spectrum := mkSp [0; 1] false [[(0, 2); (3, 0)]] None d e.
Lemma ex_cs_wf d e : sp_wf (ex_cs d e).
Proof.
  split. { apply asc_iff. cbn. destruct (Rlt_dec 0 1); [reflexivity|lra]. } split. intros v [<-|[<-|[]]]; lra. split; [discriminate|]. split; [simpl; lia|]. split.
  intros col [<-|[]]; reflexivity. discriminate.
Qed.
Theorem C32_complex_output_refuted :
  (exists s, new_spectrum [0; 1] false [[(0, 2); (3, 0)]] = Ok s /\ sp_dom s = DPower) /\
  ~ (forall s out j c, interp_ready s (sp_f s) -> sp_mag s = false -> (c < length (sp_d s))%nat -> (j < length (sp_f s))%nat ->
       get_interp s (sp_f s) OComplex = Ok out -> nth j (nth c out []) c0 = nth j (nth c (sp_d s) []) c0) /\
  ~ (forall s x out, sp_wf s -> sp_dom s = DComplex -> sp_edge s = Extend -> x < nth 0 (sp_f s) 0 -> get_interp s [x] OComplex = Ok out ->
       nth 0 (nth 0 out []) c0 = nth 0 (nth 0 (sp_d s) []) c0).
Proof.
  split; [|split].
  - unfold new_spectrum. rewrite set_freqs_ok. 2:{ apply (ex_cs_wf DPower ZeroPad). } 2:{ apply (ex_cs_wf DPower ZeroPad). }
    rewrite set_sdata_ok. eexists. split; reflexivity. discriminate. intros col [<-|[]]; reflexivity. simpl; lia. discriminate.
  - intros H. assert (R : interp_ready (ex_cs DPower ZeroPad) [0; 1]) by (split; [apply ex_cs_wf|]; split; [auto|intros C; discriminate C]).
    destruct (interp_out (ex_cs DPower ZeroPad) [0; 1] OComplex 0 0 R) as (out & E & _ & _ & V); try (simpl; lia).
    specialize (H (ex_cs DPower ZeroPad) out 0%nat 0%nat R eq_refl ltac:(simpl; lia) ltac:(simpl; lia) E). rewrite V in H. apply (f_equal snd) in H. cbn in H. lra.
  - intros H. assert (R : interp_ready (ex_cs DComplex Extend) [-1]) by (split; [apply ex_cs_wf|]; split; [auto|intros C; discriminate C]).
    destruct (interp_out (ex_cs DComplex Extend) [-1] OComplex 0 0 R) as (out & E & _ & _ & V); try (simpl; lia).
    specialize (H (ex_cs DComplex Extend) (-1) out (ex_cs_wf _ _) eq_refl eq_refl ltac:(simpl; lra) E). rewrite V in H.
    cbn [convert_out sp_dom ex_cs sp_d nth] in H. unfold interp_col in H. cbn [sp_edge edge_values sp_dom sp_f ex_cs] in H. apply (f_equal snd) in H. cbn [snd] in H.
    unfold np_interp in H. cbn [nth] in H. destruct (Rlt_dec (-1) 0); [|lra]. cbn in H. lra.
Qed.
Print Assumptions C32_complex_output_refuted.
Example C32_example : interp_ready ex_sp [0; 1; 2; 3] /\ in_range (sp_f ex_sp) (3 / 2).
Proof. split. split. apply ex_sp_wf. split; [auto|discriminate]. split; cbn; lra. Qed.
(** get_exact_value_at_frequency is the same polygon; it refuses frequencies outside. *)
Theorem C32_exact_value :
  forall f y x, asc f -> f <> [] -> length y = length f ->
  (in_range f x -> exists v, exact_value f y x = Ok v /\ polygon f y x v) /\ (~ in_range f x -> exact_value f y x = Err AssertionError).
Proof.
  intros f y x A NE L. unfold exact_value. destruct f as [|f0 t] eqn:Ef; [congruence|]. rewrite <- Ef in *. assert (F0 : nth 0 f 0 = f0) by now subst f.
  rewrite last_nth. rewrite (last_nth y), L. unfold in_range. rewrite F0. split.
  - intros [H1 H2]. destruct (Rle_dec f0 x); [|lra]. destruct (Rle_dec x (nth (length f - 1) f 0)); [|lra]. rewrite Nat.eqb_refl. cbn [negb].
    assert (NZ : (0 < length f)%nat) by (subst f; simpl; lia).
    destruct (Req_EM_T (nth (length f - 1) f 0) x) as [E|E].
    + eexists. split; [reflexivity|]. rewrite <- E. apply polygon_grid. lia.
    + eexists. split; [reflexivity|]. set (ss := searchsorted f x). assert (SS : forall i, (i < length f)%nat -> (i < ss)%nat <-> nth i f 0 < x) by (intros; now apply ss_spec).
      assert (Hs : (ss < length f)%nat). { destruct (lt_dec ss (length f)); auto. assert (nth (length f - 1) f 0 < x) by (apply SS; lia). lra. }
      assert (Hg : x <= nth ss f 0). { destruct (Rlt_dec (nth ss f 0) x) as [C|]; [|lra]. apply SS in C; lia. }
      set (i := if Rlt_dec x (nth ss f 0) then _ else _).
      assert (HI : (i + 1 < length f)%nat /\ nth i f 0 <= x < nth (i + 1) f 0).
      { unfold i. destruct (Rlt_dec x (nth ss f 0)) as [C|C].
        - assert (0 < ss)%nat. { destruct ss; [|lia]. rewrite F0 in C. lra. }
          replace (ss - 1 + 1)%nat with ss by lia. split; auto. split; auto. left. apply SS; lia.
        - assert (Ex : nth ss f 0 = x) by lra. assert (ss <> length f - 1)%nat by (intros C'; rewrite <- C' in E; lra). split; [lia|]. split; [lra|]. rewrite <- Ex at 1. apply A; lia. }
      destruct HI as [HI1 HI2]. exists i. split; [lia|]. right. replace (S i) with (i + 1)%nat by lia. split; auto. split; auto. field. lra.
  - intros H. destruct (Rle_dec f0 x); auto. destruct (Rle_dec x (nth (length f - 1) f 0)); auto. exfalso; apply H; lra.
Qed.
Print Assumptions C32_exact_value.
