(** Property C101: the difference of two spectra. *)
From Coq Require Import List Arith Lia ZArith Bool Reals Lra Psatz.
From Verif Require Import Alg Spec M_arrays P_arrays P_arrays2 M_signal M_level M_spectrum P_spectrum Claims_spectrum Claims_spectrum2 M_specdiff.
Import ListNotations.
Local Open Scope R_scope.

(** ** Specification *)
Definition bin (s : spectrum) (c k : nat) : cplx := nth k (nth c (sp_d s) []) c0.
(** v is the magnitude of channel c at frequency x: the powers of the bins are joined by straight lines; 0 outside the range of the bins *)
Definition mag_at (s : spectrum) (c : nat) (x v : R) : Prop :=
  (in_range (sp_f s) x -> exists p, polygon (sp_f s) (map cabs_sq (nth c (sp_d s) [])) x p /\ v = sqrt p) /\ (~ in_range (sp_f s) x -> v = 0).
(** every channel of r is the channel of s, bin by bin, divided by den *)
Definition divided (s r : spectrum) (den : nat -> nat -> R) : Prop :=
  sp_f r = sp_f s /\ sp_mag r = sp_mag s /\ length (sp_d r) = length (sp_d s) /\
  forall c, (c < length (sp_d s))%nat -> length (nth c (sp_d r) []) = length (sp_f s) /\
    forall k, (k < length (sp_f s))%nat -> bin r c k = (fst (bin s c k) / den c k, snd (bin s c k) / den c k).

(** ** Auxiliary facts *)
Lemma isz_true v : isz v = true <-> v = 0.
Proof. unfold isz. destruct (Req_EM_T v 0); split; auto; try discriminate; contradiction. Qed.
Definition tabulates (den : list (list R)) (C n : nat) (d : nat -> nat -> R) : Prop :=
  length den = C /\ forall c, (c < C)%nat -> length (nth c den []) = n /\ forall k, (k < n)%nat -> nth k (nth c den []) 0 = d c k.
Lemma zero_iff den C n d : tabulates den C n d -> existsb (existsb isz) den = true <-> exists c k, (c < C)%nat /\ (k < n)%nat /\ d c k = 0.
Proof.
  intros (L & H). split.
  - intros E. apply existsb_exists in E as (col & Hc & E). apply existsb_exists in E as (v & Hv & E). apply isz_true in E. subst v.
    apply (In_nth _ _ []) in Hc as (c & Hc & <-). rewrite L in Hc. destruct (H c Hc) as (Lc & G). apply (In_nth _ _ 0) in Hv as (k & Hk & E). rewrite Lc in Hk. exists c, k. rewrite <- G by auto. auto.
  - intros (c & k & Hc & Hk & E). destruct (H c Hc) as (Lc & G). apply existsb_exists. exists (nth c den []). split. apply nth_In. lia.
    apply existsb_exists. exists 0. split; [|now apply isz_true]. rewrite <- E, <- G by auto. apply nth_In. lia.
Qed.
Lemma quotient_length d den : length den = length d -> length (quotient d den) = length d.
Proof. intros H. unfold quotient. rewrite map_length, combine_length. lia. Qed.
Lemma quotient_nth d den c : length den = length d -> (c < length d)%nat -> nth c (quotient d den) [] = map (fun q => cscale (/ snd q) (fst q)) (combine (nth c d []) (nth c den [])).
Proof.
  intros H Hc. unfold quotient. rewrite (nth_map' _ _ _ ([], []) []) by (rewrite combine_length; lia). now rewrite combine_nth.
Qed.
Lemma divide_ok s den d : sp_wf s -> tabulates den (length (sp_d s)) (length (sp_f s)) d ->
  ((forall c k, (c < length (sp_d s))%nat -> (k < length (sp_f s))%nat -> d c k <> 0) -> exists r, divide_by s den = Ok (Some r) /\ divided s r d) /\
  ((exists c k, (c < length (sp_d s))%nat /\ (k < length (sp_f s))%nat /\ d c k = 0) -> divide_by s den = Ok None \/ sp_mag s = true /\ divide_by s den = Err AssertionError).
Proof.
  intros W T. pose proof (zero_iff _ _ _ _ T) as Z. destruct T as (L & H). pose proof W as (A & N & D & LD & U & M). split.
  - intros G. unfold divide_by. destruct (existsb (existsb isz) den) eqn:E.
    { exfalso. destruct Z as (Z & _). destruct (Z eq_refl) as (c & k & Hc & Hk & E0). now apply (G c k). }
    eexists. split; [reflexivity|]. split; [reflexivity|]. split; [reflexivity|]. cbn [sp_d with_d]. split. now apply quotient_length.
    intros c Hc. destruct (H c Hc) as (Lc & Gc). pose proof (U _ (nth_In _ [] Hc)) as LC. rewrite quotient_nth by auto. split. rewrite map_length, combine_length. lia.
    intros k Hk. unfold bin at 1. cbn [sp_d with_d]. rewrite quotient_nth by auto. rewrite (nth_map' _ _ _ (c0, 0) c0) by (rewrite combine_length; lia). rewrite combine_nth by lia. cbn [fst snd]. rewrite Gc by auto. reflexivity.
  - intros G. apply Z in G. unfold divide_by. rewrite G. destruct (sp_mag s); cbn [andb]; [|now left]. match goal with |- context [if ?b then _ else _] => destruct b end; [right; auto|now left].
Qed.
Lemma fold_max_ge t a : a <= fold_left Rmax t a /\ forall v, In v t -> v <= fold_left Rmax t a.
Proof.
  revert a. induction t as [|b t IH]; intros a. split; [apply Rle_refl|intros v []]. cbn [fold_left]. destruct (IH (Rmax a b)) as (H & G).
  pose proof (Rmax_l a b). pose proof (Rmax_r a b). split. lra. intros v [<-|Hv]; auto. lra.
Qed.
Lemma fold_max_in t a : In (fold_left Rmax t a) (a :: t).
Proof.
  revert a. induction t as [|b t IH]; intros a. now left. cbn [fold_left]. destruct (IH (Rmax a b)) as [H|H]; [|right; now right].
  rewrite <- H. unfold Rmax. destruct (Rle_dec a b); [right; left|left]; auto.
Qed.
Lemma vmax_spec col : col <> [] -> In (vmax col) col /\ forall v, In v col -> v <= vmax col.
Proof. intros H. destruct col as [|a t]; [easy|]. split. apply fold_max_in. destruct (fold_max_ge t a) as (A & B). intros v [<-|Hv]; auto. Qed.
Lemma not_range f x : ~ in_range f x -> forall y, np_interp f y 0 0 x = 0.
Proof.
  intros H y. unfold np_interp. destruct (Rlt_dec x (nth 0 f 0)); auto. rewrite last_nth. destruct (Rlt_dec (nth (length f - 1) f 0) x); auto.
  exfalso. apply H. split; lra.
Qed.
(** what the interpolation of the second spectrum delivers *)
Lemma interp_mags s xs : sp_wf s -> xs <> [] -> exists m, get_interp (mkSp (sp_f s) (sp_mag s) (sp_d s) (sp_coh s) DPower ZeroPad) xs OMagnitude = Ok m /\
  tabulates (map (map fst) m) (length (sp_d s)) (length xs) (fun c k => sqrt (np_interp (sp_f s) (map cabs_sq (nth c (sp_d s) [])) 0 0 (nth k xs 0))) /\
  forall c k, (c < length (sp_d s))%nat -> (k < length xs)%nat -> mag_at s c (nth k xs 0) (sqrt (np_interp (sp_f s) (map cabs_sq (nth c (sp_d s) [])) 0 0 (nth k xs 0))).
Proof.
  intros W NE. set (b := mkSp _ _ _ _ _ _). pose proof (wf_f s W) as NF. rewrite get_interp_ok; [|discriminate|exact NF|now left|discriminate].
  eexists. split; [reflexivity|]. split.
  - split. now rewrite !map_length. intros c Hc. rewrite (nth_map' (map fst) _ _ [] []) by (rewrite map_length; exact Hc). rewrite (nth_map' _ _ _ [] []) by exact Hc.
    rewrite !map_length. split; auto. intros k Hk. rewrite (nth_map' fst _ _ c0 0) by (now rewrite map_length). rewrite (nth_map' _ _ _ 0 c0) by auto. reflexivity.
  - intros c k Hc Hk. pose proof W as (A & N & D & LD & U & M). pose proof (U _ (nth_In _ [] Hc)) as L. split; intros H.
    + eexists. split; [|reflexivity]. apply np_interp_in; auto. now rewrite map_length.
    + rewrite not_range by auto. apply sqrt_0.
Qed.

(** ** Theorems *)
(** complex = False without normalization: bin by bin, the first spectrum is divided by the magnitude of the second at the same frequency, limited from
    below to its largest value over the requested frequencies minus the dynamic range. If some divisor is zero there is no finite result. *)
Theorem C101_difference s1 s2 dyn : sp_wf s1 -> sp_wf s2 -> length (sp_d s1) = length (sp_d s2) ->
  let C := length (sp_d s1) in let n := length (sp_f s1) in
  exists m top, (forall c, (c < C)%nat -> (forall k, (k < n)%nat -> mag_at s2 c (nth k (sp_f s1) 0) (m c k) /\ m c k <= top c) /\ exists k, (k < n)%nat /\ top c = m c k) /\
  let den := fun c k => match dyn with None => m c k | Some dr => Rmax (m c k) (top c * Rpower 10 (- Rabs dr / 20)) end in
  ((forall c k, (c < C)%nat -> (k < n)%nat -> den c k <> 0) -> exists r, spectral_difference s1 s2 false dyn = Ok (Some r) /\ divided s1 r den) /\
  ((exists c k, (c < C)%nat /\ (k < n)%nat /\ den c k = 0) -> spectral_difference s1 s2 false dyn = Ok None \/ sp_mag s1 = true /\ spectral_difference s1 s2 false dyn = Err AssertionError).
Proof.
  intros W1 W2 EC C n. unfold spectral_difference. rewrite EC, Nat.eqb_refl. cbn [negb bind set_interp]. pose proof (wf_f s1 W1) as NE.
  destruct (interp_mags s2 (sp_f s1) W2 NE) as (m & E & T & V). cbn [set_interp]. rewrite E. cbn [bind].
  set (mm := fun c k => sqrt (np_interp (sp_f s2) (map cabs_sq (nth c (sp_d s2) [])) 0 0 (nth k (sp_f s1) 0))) in *.
  set (top := fun c => vmax (nth c (map (map fst) m) [])). pose proof T as (LT & GT). rewrite <- EC in *. fold C n in T, V, GT, LT |- *.
  assert (Hn : (0 < n)%nat) by (unfold n; destruct (sp_f s1); [easy|simpl; lia]).
  assert (TOP : forall c, (c < C)%nat -> (forall k, (k < n)%nat -> mm c k <= top c) /\ exists k, (k < n)%nat /\ top c = mm c k).
  { intros c Hc. destruct (GT c Hc) as (Lc & G). destruct (vmax_spec (nth c (map (map fst) m) [])) as (I & B). { intros Q. rewrite Q in Lc. simpl in Lc. lia. } split.
    - intros k Hk. rewrite <- G by auto. apply B. apply nth_In. lia.
    - apply (In_nth _ _ 0) in I as (k & Hk & Ek). rewrite Lc in Hk. exists k. split; auto. unfold top. rewrite <- Ek. now apply G. }
  exists mm, top. split. { intros c Hc. destruct (TOP c Hc) as (A & B). split; [intros k Hk; split; [exact (V c k Hc Hk)|auto]|exact B]. }
  set (den := fun c k => match dyn with None => mm c k | Some dr => Rmax (mm c k) (top c * Rpower 10 (- Rabs dr / 20)) end).
  assert (TD : tabulates (map (limit dyn) (map (map fst) m)) C n den).
  { split. now rewrite map_length. intros c Hc. destruct (GT c Hc) as (Lc & G). rewrite (nth_map' (limit dyn) _ _ [] []) by lia. unfold limit, den. destruct dyn as [dr|]; [|auto].
    rewrite map_length. split; auto. intros k Hk. rewrite (nth_map' _ _ _ 0 0) by lia. rewrite G by auto. reflexivity. }
  exact (divide_ok s1 _ den W1 TD).
Qed.
Print Assumptions C101_difference.
Lemma ex_mag_wf col : length col = 2%nat -> (forall z, In z col -> 0 <= fst z /\ snd z = 0) -> sp_wf (mkSp [0; 1] true [col] None DPower ZeroPad).
Proof.
  intros L H. repeat split.
  - intros i j Hij Hj. simpl in Hj. destruct i as [|[|]], j as [|[|]]; try lia. simpl. lra.
  - intros v [<-|[<-|[]]]; lra.
  - discriminate.
  - simpl; lia.
  - intros c [<-|[]]; auto.
  - apply (H z). destruct H1 as [<-|[]]. auto.
  - apply (H z). destruct H1 as [<-|[]]. auto.
Qed.
Example C101_difference_inst : exists r, spectral_difference (mkSp [0; 1] true [[(6, 0); (2, 0)]] None DPower ZeroPad) (mkSp [0; 1] true [[(3, 0); (4, 0)]] None DPower ZeroPad) false None = Ok (Some r) /\
  bin r 0 0 = (2, 0) /\ bin r 0 1 = (1/2, 0).
Proof.
  set (s1 := mkSp _ _ [[(6, 0); _]] _ _ _). set (s2 := mkSp _ _ [[(3, 0); _]] _ _ _).
  assert (W1 : sp_wf s1) by (apply ex_mag_wf; auto; intros z [<-|[<-|[]]]; simpl; lra). assert (W2 : sp_wf s2) by (apply ex_mag_wf; auto; intros z [<-|[<-|[]]]; simpl; lra).
  destruct (C101_difference s1 s2 None W1 W2 eq_refl) as (m & top & H & Q & _). cbv zeta in Q.
  assert (V : m 0%nat 0%nat = 3 /\ m 0%nat 1%nat = 4).
  { destruct (H 0%nat ltac:(simpl; lia)) as (G & _). pose proof W2 as (A & _).
    assert (P : forall k, (k < 2)%nat -> m 0%nat k = sqrt (nth k [9; 16] 0)).
    { intros k Hk. destruct (G k Hk) as ((I & _) & _). assert (R : in_range (sp_f s2) (nth k (sp_f s1) 0)) by (split; destruct k as [|[|]]; simpl; try lra; lia).
      destruct (I R) as (p & Pg & ->). f_equal. eapply polygon_unique; eauto. exists k. split; auto. left. split; auto. destruct k as [|[|]]; [| |lia]; unfold cabs_sq; simpl; lra. }
    rewrite !P by lia. simpl. split. replace 9 with (3 * 3) by lra. apply sqrt_square; lra. replace 16 with (4 * 4) by lra. apply sqrt_square; lra. }
  destruct V as (V0 & V1). destruct Q as (r & E & _ & _ & _ & D). { intros c k Hc Hk. simpl in Hc, Hk. assert (c = 0)%nat by lia. subst c. destruct k as [|[|]]; [lra|lra|lia]. }
  exists r. split; auto. destruct (D 0%nat ltac:(simpl; lia)) as (_ & B). rewrite !B by (simpl; lia). rewrite V0, V1. unfold bin. simpl. split; f_equal; lra.
Qed.
Theorem C101_channels s1 s2 norm dyn : length (sp_d s1) <> length (sp_d s2) -> spectral_difference s1 s2 norm dyn = Err AssertionError.
Proof. intros H. unfold spectral_difference. apply Nat.eqb_neq in H. now rewrite H. Qed.
Print Assumptions C101_channels.

(** With the same frequencies the divisor is the magnitude of the bin, so the magnitude of the result is the ratio of the magnitudes. *)
Lemma mag_grid s c k m : sp_wf s -> (c < length (sp_d s))%nat -> (k < length (sp_f s))%nat -> mag_at s c (nth k (sp_f s) 0) m -> m = cabsv (bin s c k).
Proof.
  intros W Hc Hk (I & _). pose proof W as (A & N & D & LD & U & M). pose proof (U _ (nth_In _ [] Hc)) as L.
  destruct I as (p & P & ->). { split; apply asc_le; auto; lia. } unfold cabsv. f_equal. eapply polygon_unique; eauto. exists k. split; auto. left. split; auto.
  rewrite (nth_map' _ _ _ c0 0) by lia. reflexivity.
Qed.
Theorem C101_same_grid s1 s2 : sp_wf s1 -> sp_wf s2 -> length (sp_d s1) = length (sp_d s2) -> sp_f s1 = sp_f s2 ->
  (forall c k, (c < length (sp_d s1))%nat -> (k < length (sp_f s1))%nat -> bin s2 c k <> c0) ->
  exists r, spectral_difference s1 s2 false None = Ok (Some r) /\ divided s1 r (fun c k => cabsv (bin s2 c k)) /\
    forall c k, (c < length (sp_d s1))%nat -> (k < length (sp_f s1))%nat -> cabsv (bin r c k) * cabsv (bin s2 c k) = cabsv (bin s1 c k).
Proof.
  intros W1 W2 EC EF NZ. destruct (C101_difference s1 s2 None W1 W2 EC) as (m & top & H & Q & _). cbv zeta in Q.
  assert (V : forall c k, (c < length (sp_d s1))%nat -> (k < length (sp_f s1))%nat -> m c k = cabsv (bin s2 c k)).
  { intros c k Hc Hk. destruct (H c Hc) as (G & _). destruct (G k Hk) as (I & _). rewrite EF in I, Hk. apply mag_grid; auto. now rewrite <- EC. }
  assert (P : forall c k, (c < length (sp_d s1))%nat -> (k < length (sp_f s1))%nat -> 0 < cabsv (bin s2 c k)).
  { intros c k Hc Hk. specialize (NZ c k Hc Hk). unfold cabsv, cabs_sq. apply sqrt_lt_R0. destruct (bin s2 c k) as [a b]. cbn [fst snd]. destruct (Req_dec a 0); [|nra]. destruct (Req_dec b 0); [|nra]. subst. now elim NZ. }
  destruct Q as (r & E & F & M & L & D). { intros c k Hc Hk. rewrite V by auto. specialize (P c k Hc Hk). lra. }
  exists r. split; auto. split.
  - repeat split; auto. now apply D. intros k Hk. destruct (D c H0) as (_ & B). rewrite B by auto. now rewrite V.
  - intros c k Hc Hk. destruct (D c Hc) as (_ & B). rewrite B, V by auto. specialize (P c k Hc Hk). set (v := cabsv (bin s2 c k)) in *. destruct (bin s1 c k) as [a b].
    assert (0 <= v) as v0 by lra. rewrite <- (sqrt_square v) at 3 by auto. unfold cabsv, cabs_sq. cbn [fst snd]. rewrite <- sqrt_mult_alt by (unfold Rdiv; nra). f_equal. field. lra.
Qed.
Print Assumptions C101_same_grid.
(** A magnitude spectrum without zeros differs from itself by 1 everywhere. *)
Theorem C101_self s : sp_wf s -> sp_mag s = true -> (forall c k, (c < length (sp_d s))%nat -> (k < length (sp_f s))%nat -> bin s c k <> c0) ->
  exists r, spectral_difference s s false None = Ok (Some r) /\ forall c k, (c < length (sp_d s))%nat -> (k < length (sp_f s))%nat -> bin r c k = (1, 0).
Proof.
  intros W Hm NZ. destruct (C101_same_grid s s W W eq_refl eq_refl NZ) as (r & E & (_ & _ & _ & D) & _). exists r. split; auto. intros c k Hc Hk. destruct (D c Hc) as (_ & B). rewrite B by auto.
  pose proof W as (_ & _ & _ & _ & U & M). destruct (M Hm (nth c (sp_d s) []) (bin s c k)) as (A1 & A2). now apply nth_In. apply nth_In. now rewrite (U _ (nth_In _ [] Hc)).
  specialize (NZ c k Hc Hk). unfold cabsv, cabs_sq. destruct (bin s c k) as [a b]. cbn [fst snd] in *. subst b. assert (a <> 0) by (intros ->; now elim NZ). replace (a * a + 0 * 0) with (a * a) by ring. rewrite sqrt_square by auto. f_equal; field; auto.
Qed.
Print Assumptions C101_self.
Example C101_self_inst : exists r, spectral_difference (mkSp [0; 1] true [[(6, 0); (2, 0)]] None DPower ZeroPad) (mkSp [0; 1] true [[(6, 0); (2, 0)]] None DPower ZeroPad) false None = Ok (Some r) /\ bin r 0 1 = (1, 0).
Proof.
  destruct (C101_self (mkSp [0; 1] true [[(6, 0); (2, 0)]] None DPower ZeroPad)) as (r & E & B).
  - apply ex_mag_wf; auto; intros z [<-|[<-|[]]]; simpl; lra.
  - reflexivity.
  - intros c k Hc Hk. simpl in Hc, Hk. assert (c = 0)%nat by lia. subst. destruct k as [|[|]]; [| |lia]; unfold bin, c0; simpl; intros Q; injection Q; lra.
  - exists r. split; [exact E|apply B; simpl; lia].
Qed.
(** complex = False still keeps the phase of a complex first spectrum: i differs from itself by i. *)
Theorem C101_real_output_refuted : exists s r, sp_wf s /\ spectral_difference s s false None = Ok (Some r) /\ sp_mag r = false /\ bin r 0 0 = (0, 1).
Proof.
  set (s := mkSp [1] false [[(0, 1)]] None DPower ZeroPad).
  assert (W : sp_wf s). { repeat split; try discriminate; try (simpl; lia). intros i j Hij Hj. simpl in Hj. lia. intros v [<-|[]]; lra. intros col [<-|[]]; auto. }
  destruct (C101_same_grid s s W W eq_refl eq_refl) as (r & E & (_ & M & _ & D) & _).
  - intros c k Hc Hk. simpl in Hc, Hk. assert (c = 0)%nat by lia. assert (k = 0)%nat by lia. subst. unfold bin, c0. simpl. intros Q. injection Q. lra.
  - exists s, r. split; auto. split; auto. split; auto. destruct (D 0%nat ltac:(simpl; lia)) as (_ & B). rewrite B by (simpl; lia). unfold bin, cabsv, cabs_sq. simpl. replace (0 * 0 + 1 * 1) with 1 by ring. rewrite sqrt_1. f_equal; lra.
Qed.
Print Assumptions C101_real_output_refuted.

(** A dynamic range makes the difference finite as soon as every channel of the second spectrum is somewhere non-zero on the requested frequencies, and bounds the
    boost: no bin is raised by more than what the limit allows. The sign of the range does not matter. *)
Theorem C101_dynamic_range s1 s2 dr : sp_wf s1 -> sp_wf s2 -> length (sp_d s1) = length (sp_d s2) ->
  (forall c, (c < length (sp_d s1))%nat -> exists k m, (k < length (sp_f s1))%nat /\ mag_at s2 c (nth k (sp_f s1) 0) m /\ 0 < m) ->
  spectral_difference s1 s2 false (Some (- dr)) = spectral_difference s1 s2 false (Some dr) /\
  exists r, spectral_difference s1 s2 false (Some dr) = Ok (Some r) /\
    forall c k j m, (c < length (sp_d s1))%nat -> (k < length (sp_f s1))%nat -> (j < length (sp_f s1))%nat -> mag_at s2 c (nth j (sp_f s1) 0) m ->
      cabsv (bin r c k) * (m * Rpower 10 (- Rabs dr / 20)) <= cabsv (bin s1 c k).
Proof.
  intros W1 W2 EC Hm. split. { unfold spectral_difference, limit. now rewrite Rabs_Ropp. }
  destruct (C101_difference s1 s2 (Some dr) W1 W2 EC) as (m & top & H & Q & _). cbv zeta in Q.
  set (g := Rpower 10 (- Rabs dr / 20)) in *. assert (G : 0 < g) by (apply exp_pos).
  assert (UQ : forall c x v w, (c < length (sp_d s1))%nat -> mag_at s2 c x v -> mag_at s2 c x w -> v = w).
  { intros c x v w Hc (I1 & O1) (I2 & O2). destruct (Rle_dec (nth 0 (sp_f s2) 0) x) as [R1|R1]; [destruct (Rle_dec x (nth (length (sp_f s2) - 1) (sp_f s2) 0)) as [R2|R2]|].
    - destruct I1 as (p & P & ->); [split; auto|]. destruct I2 as (q & P' & ->); [split; auto|]. f_equal. eapply polygon_unique; eauto. apply W2.
    - rewrite O1, O2; auto; intros (? & ?); lra.
    - rewrite O1, O2; auto; intros (? & ?); lra. }
  assert (TP : forall c, (c < length (sp_d s1))%nat -> 0 < top c).
  { intros c Hc. destruct (Hm c Hc) as (k & v & Hk & Hv & Pv). destruct (H c Hc) as (B & _). destruct (B k Hk) as (V & Le). rewrite (UQ c _ _ _ Hc Hv V) in Pv. lra. }
  assert (DP : forall c k, (c < length (sp_d s1))%nat -> 0 < Rmax (m c k) (top c * g)). { intros c k Hc. eapply Rlt_le_trans; [|apply Rmax_r]. apply Rmult_lt_0_compat; auto. }
  destruct Q as (r & E & F & M & L & D). { intros c k Hc Hk. specialize (DP c k Hc). lra. }
  exists r. split; auto. intros c k j v Hc Hk Hj Hv. destruct (H c Hc) as (B & _). destruct (B j Hj) as (V & Le). rewrite <- (UQ c _ _ _ Hc Hv V) in Le.
  destruct (D c Hc) as (_ & Bd). rewrite Bd by auto. specialize (DP c k Hc). pose proof (Rmax_r (m c k) (top c * g)) as Mx. set (d := Rmax (m c k) (top c * g)) in *.
  assert (Ab : cabsv (fst (bin s1 c k) / d, snd (bin s1 c k) / d) * d = cabsv (bin s1 c k)).
  { destruct (bin s1 c k) as [a b]. assert (0 <= d) as d0 by lra. rewrite <- (sqrt_square d) at 3 by auto. unfold cabsv, cabs_sq. cbn [fst snd]. rewrite <- sqrt_mult_alt by (unfold Rdiv; nra). f_equal. field. lra. }
  rewrite <- Ab. apply Rmult_le_compat_l. unfold cabsv. apply sqrt_pos. apply Rle_trans with (top c * g); auto. apply Rmult_le_compat_r; lra.
Qed.
Print Assumptions C101_dynamic_range.

(** ** Energy normalization *)
Lemma trap_scale f P k p n : trap_sum f (fun i => k * P i) p n = k * trap_sum f P p n.
Proof. induction n; cbn [trap_sum]. ring. rewrite IHn. field. Qed.
Lemma nan_iff s den C n d : tabulates den C n d -> length (sp_d s) = C -> (forall col, In col (sp_d s) -> length col = n) ->
  existsb (fun p : list cplx * list R => existsb (fun q : cplx * R => isz (fst (fst q)) && isz (snd q)) (combine (fst p) (snd p))) (combine (sp_d s) den) = true <->
  exists c k, (c < C)%nat /\ (k < n)%nat /\ fst (bin s c k) = 0 /\ d c k = 0.
Proof.
  intros (L & H) LC U. assert (LK : forall c, (c < C)%nat -> length (nth c (sp_d s) []) = n) by (intros c Hc; apply U, nth_In; lia). split.
  - intros E. apply existsb_exists in E as (p & Hp & E). apply existsb_exists in E as (q & Hq & E). apply andb_true_iff in E as (E1 & E2). apply isz_true in E1, E2.
    apply (In_nth _ _ ([], [])) in Hp as (c & Hc & <-). rewrite combine_length in Hc. assert (EQ := combine_nth (sp_d s) den c [] [] ltac:(congruence)). unfold cplx in *. rewrite EQ in Hq. cbn [fst snd] in Hq. destruct (H c ltac:(lia)) as (Lc & G). specialize (LK c ltac:(lia)).
    apply (In_nth _ _ (c0, 0)) in Hq as (k & Hk & <-). rewrite combine_length in Hk. assert (EQ2 := combine_nth (nth c (sp_d s) []) (nth c den []) k c0 0 ltac:(unfold cplx in *; congruence)). unfold cplx in *. rewrite EQ2 in E1, E2. cbn [fst snd] in E1, E2. exists c, k. rewrite <- G by lia. repeat split; auto; lia.
  - intros (c & k & Hc & Hk & E1 & E2). destruct (H c Hc) as (Lc & G). specialize (LK c Hc). apply existsb_exists. exists (nth c (combine (sp_d s) den) ([], [])). split. apply nth_In. rewrite combine_length. lia.
    apply existsb_exists. rewrite combine_nth by lia. cbn [fst snd]. exists (nth k (combine (nth c (sp_d s) []) (nth c den [])) (c0, 0)). split. apply nth_In. rewrite combine_length. lia.
    rewrite combine_nth by lia. cbn [fst snd]. apply andb_true_iff. split; apply isz_true; auto. rewrite G; auto.
Qed.
(** s with channel c multiplied by the c-th factor *)
Definition gained (g : list R) (s : spectrum) : spectrum := with_d s (sp_mag s) (scale_cols g (sp_d s)).
Lemma gained_bins g s c : sp_wf s -> length g = length (sp_d s) -> (c < length (sp_d s))%nat ->
  length (sp_d (gained g s)) = length (sp_d s) /\ nth c (sp_d (gained g s)) [] = map (cscale (nth c g 0)) (nth c (sp_d s) []).
Proof.
  intros W L Hc. unfold gained, scale_cols. cbn [sp_d with_d]. split. rewrite map_length, combine_length. lia.
  rewrite (nth_map' _ _ _ ([], 0) []) by (rewrite combine_length; lia). now rewrite combine_nth.
Qed.
Lemma gained_bin g s c k : sp_wf s -> length g = length (sp_d s) -> (c < length (sp_d s))%nat -> (k < length (sp_f s))%nat -> bin (gained g s) c k = cscale (nth c g 0) (bin s c k).
Proof.
  intros W L Hc Hk. pose proof W as (_ & _ & _ & _ & U & _). pose proof (U _ (nth_In _ [] Hc)). unfold bin. destruct (gained_bins g s c W L Hc) as (_ & ->). now rewrite (nth_map' _ _ _ c0 c0) by lia.
Qed.
Lemma gained_wf g s : sp_wf s -> length g = length (sp_d s) -> (forall v, In v g -> 0 < v) -> sp_wf (gained g s).
Proof.
  intros W L P. pose proof W as (A & N & D & LD & U & M). assert (L' : length (sp_d (gained g s)) = length (sp_d s)) by (unfold gained, scale_cols; cbn [sp_d with_d]; rewrite map_length, combine_length; lia).
  repeat split; auto.
  - intros Q. rewrite Q in L'. destruct (sp_d s); [easy|discriminate].
  - rewrite L'. exact LD.
  - intros col Hc. apply (In_nth _ _ []) in Hc as (c & Hc & <-). rewrite L' in Hc. destruct (gained_bins g s c W L Hc) as (_ & ->). rewrite map_length. now apply U, nth_In.
  - apply (In_nth _ _ []) in H0 as (c & Hc & <-). rewrite L' in Hc. destruct (gained_bins g s c W L Hc) as (_ & E). rewrite E in H1. apply in_map_iff in H1 as (w & <- & Hw). destruct (M H (nth c (sp_d s) []) w) as (M1 & M2); auto. now apply nth_In. cbn. assert (0 < nth c g 0) by (apply P, nth_In; lia). nra.
  - apply (In_nth _ _ []) in H0 as (c & Hc & <-). rewrite L' in Hc. destruct (gained_bins g s c W L Hc) as (_ & E). rewrite E in H1. apply in_map_iff in H1 as (w & <- & Hw). destruct (M H (nth c (sp_d s) []) w) as (M1 & M2); auto. now apply nth_In. cbn. rewrite M2. ring.
Qed.
(** The energy of channel c *)
Definition en (s : spectrum) (c : nat) : R := band_energy s c 0 (length (sp_f s) - 1).
Lemma norm_eq s : sp_wf s -> exists es, energy_normalize s = divide_by s (map (fun e => repeat (sqrt e) (length (sp_f s))) es) /\
  tabulates (map (fun e => repeat (sqrt e) (length (sp_f s))) es) (length (sp_d s)) (length (sp_f s)) (fun c _ => sqrt (en s c)).
Proof.
  intros W. destruct (C44_total_energy s W) as (es & E & L & G). exists es. unfold energy_normalize. rewrite E. cbn [bind]. split; auto. split. now rewrite map_length.
  intros c Hc. rewrite (nth_map' _ _ _ 0 []) by lia. rewrite repeat_length. split; auto. intros k Hk. rewrite nth_repeat_lt by auto. now rewrite G.
Qed.
(** With normalization, a finite input has unit energy in every channel ... *)
Theorem C101_unit_energy s : sp_wf s -> (forall c, (c < length (sp_d s))%nat -> 0 < en s c) ->
  exists r, energy_normalize s = Ok (Some r) /\ divided s r (fun c _ => sqrt (en s c)) /\ get_energy r None None = Ok (repeat 1 (length (sp_d s))).
Proof.
  intros W P. destruct (norm_eq s W) as (es & E & T). rewrite E. destruct (divide_ok s _ _ W T) as (Q & _). destruct Q as (r & Er & D). { intros c k Hc Hk. pose proof (sqrt_lt_R0 _ (P c Hc)). lra. }
  exists r. split; auto. split; auto. destruct D as (F & M & L & B). pose proof W as (A & N & D & LD & U & Mg).
  assert (Wr : sp_wf r).
  { split. now rewrite F. split. now rewrite F. split. intros Q. rewrite Q in L. destruct (sp_d s); [easy|discriminate]. split. rewrite F, L. exact LD. split.
    - intros col Hc. apply (In_nth _ _ []) in Hc as (c & Hc & <-). rewrite L in Hc. rewrite F. now apply B.
    - intros Hm col z Hc Hz. apply (In_nth _ _ []) in Hc as (c & Hc & <-). rewrite L in Hc. destruct (B c Hc) as (Lc & G). apply (In_nth _ _ c0) in Hz as (k & Hk & <-). rewrite Lc in Hk. fold (bin r c k). rewrite G by auto. cbn [fst snd].
      rewrite M in Hm. destruct (Mg Hm (nth c (sp_d s) []) (bin s c k)) as (M1 & M2). now apply nth_In. apply nth_In. now rewrite (U _ (nth_In _ [] Hc)).
      pose proof (sqrt_lt_R0 _ (P c Hc)). split. apply Rmult_le_pos; auto. left. now apply Rinv_0_lt_compat. rewrite M2. field. lra. }
  destruct (C44_total_energy r Wr) as (er & Ee & Le & Ge). rewrite Ee. f_equal. apply (list_eq_nth 0). rewrite repeat_length. lia. intros c Hc. rewrite nth_repeat_lt by lia. rewrite Ge by lia. rewrite Le, L in Hc.
  unfold band_energy. rewrite F. pose proof (sqrt_lt_R0 _ (P c Hc)) as Sq.
  rewrite (trap_sum_ext _ _ (fun i => nth i (sp_f s) 0) (fun i => / en s c * cabs_sq (nth i (nth c (sp_d s) []) c0)) 0).
  - rewrite trap_scale. change (/ en s c * en s c = 1). apply Rinv_l. specialize (P c Hc). lra.
  - intros i Hi. cbn [Nat.add]. split; auto. fold (bin r c i). fold (bin s c i). destruct (B c Hc) as (_ & G). assert (0 < length (sp_f s))%nat. { destruct (sp_f s) eqn:Q; [exfalso; now apply (wf_f s W)|simpl; lia]. } rewrite G by lia.
    unfold cabs_sq. cbn [fst snd]. rewrite <- (sqrt_sqrt (en s c)) at 5. field. lra. specialize (P c Hc). lra.
Qed.
Print Assumptions C101_unit_energy.
(** ... so that gains of the channels of either input do not change the difference, whatever the outcome. *)
Theorem C101_gain_invariance s1 s2 g1 g2 dyn : sp_wf s1 -> sp_wf s2 -> length g1 = length (sp_d s1) -> length g2 = length (sp_d s2) ->
  (forall v, In v g1 -> 0 < v) -> (forall v, In v g2 -> 0 < v) ->
  spectral_difference (gained g1 s1) (gained g2 s2) true dyn = spectral_difference s1 s2 true dyn.
Proof.
  intros W1 W2 L1 L2 P1 P2.
  assert (K : forall g s, sp_wf s -> length g = length (sp_d s) -> (forall v, In v g -> 0 < v) -> energy_normalize (gained g s) = energy_normalize s).
  { clear. intros g s W L P. pose proof (gained_wf g s W L P) as Wg. destruct (norm_eq s W) as (es & E & T). destruct (norm_eq _ Wg) as (eg & Eg & Tg). rewrite E, Eg. clear E Eg.
    assert (LG : length (sp_d (gained g s)) = length (sp_d s)) by (unfold gained, scale_cols; cbn [sp_d with_d]; rewrite map_length, combine_length; lia).
    change (sp_f (gained g s)) with (sp_f s) in *. rewrite LG in Tg.
    assert (PG : forall c, (c < length (sp_d s))%nat -> 0 < nth c g 0) by (intros; apply P, nth_In; lia).
    assert (NZ : (0 < length (sp_f s))%nat). { destruct (sp_f s) eqn:Q; [exfalso; now apply (wf_f s W)|simpl; lia]. }
    assert (EN : forall c, (c < length (sp_d s))%nat -> sqrt (en (gained g s) c) = nth c g 0 * sqrt (en s c)).
    { intros c Hc. specialize (PG c Hc). rewrite <- (sqrt_square (nth c g 0)) at 1 by lra. rewrite <- sqrt_mult_alt by nra. f_equal. unfold en, band_energy. change (sp_f (gained g s)) with (sp_f s).
      rewrite <- trap_scale. apply trap_sum_ext. intros i Hi. cbn [Nat.add]. split; auto. fold (bin (gained g s) c i). fold (bin s c i). rewrite gained_bin by (auto; lia). unfold cabs_sq, cscale. cbn [fst snd]. ring. }
    set (den := map _ es) in *. set (deng := map _ eg) in *. unfold divide_by. change (sp_mag (gained g s)) with (sp_mag s).
    pose proof W as (A & N & D & LD & U & M). pose proof Wg as (_ & _ & _ & _ & Ug & _).
    assert (ZE : existsb (existsb isz) deng = existsb (existsb isz) den).
    { apply eq_iff_eq_true. rewrite (zero_iff _ _ _ _ T), (zero_iff _ _ _ _ Tg). split; intros (c & k & Hc & Hk & Z); exists c, k; repeat split; auto; specialize (PG c Hc); rewrite EN in * by auto; nra. }
    rewrite ZE. destruct (existsb (existsb isz) den) eqn:Z.
    - match goal with |- (if _ && ?x then _ else _) = (if _ && ?y then _ else _) => assert (NE : x = y) end.
      { apply eq_iff_eq_true. rewrite (nan_iff s den _ _ _ T eq_refl U), (nan_iff (gained g s) deng _ _ _ Tg LG Ug).
        split; intros (c & k & Hc & Hk & Z1 & Z2); exists c, k; repeat split; auto; specialize (PG c Hc); rewrite ?EN, ?gained_bin in * by auto; unfold cscale in *; cbn [fst] in *; nra. }
      now rewrite NE.
    - f_equal. f_equal. unfold gained. change (with_d (with_d s (sp_mag s) (scale_cols g (sp_d s))) (sp_mag s) (quotient (sp_d (gained g s)) deng) = with_d s (sp_mag s) (quotient (sp_d s) den)). unfold with_d at 1 2. cbn [sp_f sp_coh sp_dom sp_edge sp_mag]. unfold with_d. f_equal.
      assert (T' := T). assert (Tg' := Tg). destruct T as (Ld & Gd). destruct Tg as (Lg & Gg).
      assert (NZD : forall c, (c < length (sp_d s))%nat -> sqrt (en s c) <> 0). { intros c Hc Q. enough (existsb (existsb isz) den = true) by congruence. apply (zero_iff _ _ _ _ T'). exists c, 0%nat. auto. }
      apply (list_eq_nth []). rewrite !quotient_length by lia. auto. rewrite quotient_length by lia. rewrite LG. intros c Hc. rewrite !quotient_nth by lia.
      destruct (Gd c Hc) as (Lc & Hd). destruct (Gg c Hc) as (Lcg & Hg). pose proof (U _ (nth_In _ [] Hc)) as Lu. destruct (gained_bins g s c W L Hc) as (_ & Eb). assert (Lug : length (nth c (sp_d (gained g s)) []) = length (sp_f s)) by (rewrite Eb, map_length; auto).
      apply (list_eq_nth c0). rewrite !map_length, !combine_length. lia. rewrite map_length, combine_length. intros k Hk. rewrite !(nth_map' _ _ _ (c0, 0) c0) by (rewrite combine_length; lia). rewrite !combine_nth by lia. cbn [fst snd].
      rewrite Hd, Hg by lia. fold (bin (gained g s) c k). fold (bin s c k). rewrite gained_bin by (auto; lia). rewrite EN by auto. specialize (PG c Hc). specialize (NZD c Hc). unfold cscale. cbn [fst snd]. f_equal; field; split; lra. }
  unfold spectral_difference. rewrite !K by auto.
  assert (LG : forall g s, length g = length (sp_d s) -> length (sp_d (gained g s)) = length (sp_d s)) by (intros; unfold gained, scale_cols; cbn [sp_d with_d]; rewrite map_length, combine_length; lia).
  now rewrite !LG by auto.
Qed.
Print Assumptions C101_gain_invariance.
Example C101_gain_inst : spectral_difference (gained [7] (mkSp [0; 1] true [[(6, 0); (2, 0)]] None DPower ZeroPad)) (gained [1/3] (mkSp [0; 1] true [[(3, 0); (4, 0)]] None DPower ZeroPad)) true (Some 100)
  = spectral_difference (mkSp [0; 1] true [[(6, 0); (2, 0)]] None DPower ZeroPad) (mkSp [0; 1] true [[(3, 0); (4, 0)]] None DPower ZeroPad) true (Some 100) /\
  en (mkSp [0; 1] true [[(6, 0); (2, 0)]] None DPower ZeroPad) 0 = 20.
Proof.
  split. 2:{ unfold en, band_energy, cabs_sq. simpl. lra. }
  apply C101_gain_invariance; auto; try (intros v [<-|[]]; lra); apply ex_mag_wf; auto; intros z [<-|[<-|[]]]; simpl; lra.
Qed.

(** ** Complex differences *)
(** Without a dynamic range the complex difference is the quotient. *)
Theorem C101_complex s1 s2 : sp_wf s1 -> sp_wf s2 -> sp_mag s1 = false -> sp_mag s2 = false -> length (sp_d s1) = length (sp_d s2) -> sp_f s1 = sp_f s2 ->
  (forall c k, (c < length (sp_d s1))%nat -> (k < length (sp_f s1))%nat -> bin s2 c k <> c0) ->
  exists r, spectral_difference_complex s1 s2 None = Ok (Some r) /\ sp_mag r = false /\ sp_f r = sp_f s1 /\
    forall c k, (c < length (sp_d s1))%nat -> (k < length (sp_f s1))%nat ->
      fst (bin r c k) * fst (bin s2 c k) - snd (bin r c k) * snd (bin s2 c k) = fst (bin s1 c k) /\
      fst (bin r c k) * snd (bin s2 c k) + snd (bin r c k) * fst (bin s2 c k) = snd (bin s1 c k).
Proof.
  intros W1 W2 M1 M2 EC EF NZ. unfold spectral_difference_complex. rewrite EC, Nat.eqb_refl, M1, M2. cbn [negb orb climit]. rewrite map_id.
  pose proof W1 as (_ & _ & _ & _ & U1 & _). pose proof W2 as (_ & _ & _ & _ & U2 & _).
  replace (existsb (existsb (fun z : cplx => isz (fst z) && isz (snd z))) (sp_d s2)) with false.
  2:{ symmetry. apply not_true_is_false. intros E. apply existsb_exists in E as (col & Hc & E). apply existsb_exists in E as (z & Hz & E). apply andb_true_iff in E as (E1 & E2). apply isz_true in E1, E2.
      apply (In_nth _ _ []) in Hc as (c & Hc & <-). apply (In_nth _ _ c0) in Hz as (k & Hk & <-). rewrite (U2 _ (nth_In _ [] Hc)), <- EF in Hk. apply (NZ c k); auto. lia. fold (bin s2 c k) in E1, E2. destruct (bin s2 c k). cbn in *. now subst. }
  eexists. split; [reflexivity|]. split; auto. split; auto. intros c k Hc Hk. unfold bin at 1 3 6 8. cbn [sp_d with_d].
  assert (Hc2 : (c < length (sp_d s2))%nat) by lia. assert (Hc1 : (c < length (sp_d s1))%nat) by lia. pose proof (U1 _ (nth_In _ [] Hc1)) as Lu1. pose proof (U2 _ (nth_In _ [] Hc2)) as Lu2. rewrite <- EF in Lu2.
  rewrite (nth_map' _ _ _ ([], []) []) by (rewrite combine_length; lia). rewrite combine_nth by auto. cbn [fst snd]. rewrite (nth_map' _ _ _ (c0, c0) c0) by (rewrite combine_length; lia). rewrite combine_nth by lia. cbn [fst snd].
  fold (bin s1 c k). fold (bin s2 c k). specialize (NZ c k Hc1 Hk). destruct (bin s1 c k) as [a b], (bin s2 c k) as [u v]. unfold cdiv, cabs_sq. cbn [fst snd].
  assert (u * u + v * v <> 0). { intros Q. apply NZ. unfold c0. f_equal; nra. } split; field; auto.
Qed.
Print Assumptions C101_complex.
(** With a dynamic range the limit compares real parts: a bin of the second spectrum with a negative real part is replaced as soon as some bin of its channel has a
    positive one. The complex difference of 1, -1 and itself, with the default 100 dB, is 1, -100000. *)
Theorem C101_complex_range_refuted : exists s r, sp_wf s /\ sp_mag s = false /\ spectral_difference_complex s s (Some 100) = Ok (Some r) /\
  bin s 0 0 = (1, 0) /\ bin s 0 1 = (-1, 0) /\ bin r 0 0 = (1, 0) /\ bin r 0 1 = (-100000, 0).
Proof.
  set (s := mkSp [0; 1] false [[(1, 0); (-1, 0)]] None DPower ZeroPad).
  assert (W : sp_wf s).
  { repeat split; try discriminate; try (simpl; lia). intros i j Hij Hj. simpl in Hj. destruct i as [|[|]], j as [|[|]]; try lia. simpl. lra. intros v [<-|[<-|[]]]; lra. intros col [<-|[]]; auto. }
  assert (F : from_db true (- Rabs 100) = / 100000).
  { unfold from_db, db_factor. rewrite Rabs_pos_eq by lra. replace (- (100) / 20) with (- INR 5) by (simpl; lra). rewrite Rpower_Ropp, Rpower_pow by lra. f_equal. simpl. lra. }
  assert (T : cvmax [(1, 0); (-1, 0)] = (1, 0)). { unfold cvmax, cmax. cbn. destruct (Rlt_dec 1 (-1)); [lra|]. destruct (Rlt_dec (-1) 1); [auto|lra]. }
  assert (D : climit (Some 100) [(1, 0); (-1, 0)] = [(1, 0); (/ 100000, 0)]).
  { unfold climit. rewrite F, T. cbn [map]. unfold cscale. cbn [fst snd]. rewrite Rmult_0_l, Rmult_1_l. unfold cmax at 1. cbn [fst snd]. destruct (Rlt_dec 1 (/ 100000)); [lra|]. destruct (Rlt_dec (/ 100000) 1); [|lra]. unfold cmax. cbn [fst snd]. destruct (Rlt_dec (-1) (/ 100000)); [auto|lra]. }
  eexists s, _. split; auto. split; auto. split.
  { unfold spectral_difference_complex. cbn [s sp_d sp_mag length Nat.eqb negb orb map]. rewrite D. cbn [existsb fst snd]. unfold isz. destruct (Req_EM_T 1 0); [lra|]. destruct (Req_EM_T (/ 100000) 0); [lra|]. cbn [andb orb]. reflexivity. }
  split; auto. split; auto. unfold bin. cbn. unfold cdiv, cabs_sq. cbn [fst snd]. split; f_equal; field.
Qed.
Print Assumptions C101_complex_range_refuted.
(** One magnitude spectrum is enough for the complex difference to be refused. *)
Theorem C101_complex_magnitude s1 s2 dyn : sp_mag s1 = true \/ sp_mag s2 = true -> spectral_difference_complex s1 s2 dyn = Err AssertionError.
Proof. intros H. unfold spectral_difference_complex. destruct (negb _); auto. destruct (sp_mag s1), (sp_mag s2); auto; destruct H; discriminate. Qed.
Print Assumptions C101_complex_magnitude.
Example C101_complex_magnitude_inst : let s := mkSp [1] true [[(2, 0)]] None DPower ZeroPad in let s' := mkSp [1] false [[(0, 1)]] None DPower ZeroPad in
  length (sp_d s) = length (sp_d s') /\ spectral_difference_complex s s' None = Err AssertionError /\ spectral_difference_complex s' s None = Err AssertionError.
Proof. intros s s'. split; [reflexivity|]. split; apply C101_complex_magnitude; cbn; auto. Qed.
(** A second spectrum with a zero bin is fine with a dynamic range, and its zero bin is refused without one when the first has a zero there too. *)
Example C101_dynamic_range_inst : let s1 := mkSp [0; 1] true [[(6, 0); (0, 0)]] None DPower ZeroPad in let s2 := mkSp [0; 1] true [[(3, 0); (0, 0)]] None DPower ZeroPad in
  (exists r, spectral_difference s1 s2 false (Some 20) = Ok (Some r)) /\ (forall r, spectral_difference s1 s2 false None <> Ok (Some r)).
Proof.
  intros s1 s2. assert (W1 : sp_wf s1) by (apply ex_mag_wf; auto; intros z [<-|[<-|[]]]; simpl; lra). assert (W2 : sp_wf s2) by (apply ex_mag_wf; auto; intros z [<-|[<-|[]]]; simpl; lra).
  assert (G : forall k m, (k < 2)%nat -> mag_at s2 0 (nth k (sp_f s1) 0) m -> m = cabsv (bin s2 0 k)) by (intros k m Hk Hm; apply mag_grid; auto; simpl; lia).
  destruct (C101_difference s1 s2 None W1 W2 eq_refl) as (m & top & H & _ & Q). destruct (H 0%nat ltac:(simpl; lia)) as (V & _). split.
  - destruct (C101_dynamic_range s1 s2 20 W1 W2 eq_refl) as (_ & r & E & _); [|now exists r]. intros c Hc. assert (c = 0)%nat by (simpl in Hc; lia). subst c.
    exists 0%nat, (m 0%nat 0%nat). split. simpl; lia. destruct (V 0%nat ltac:(simpl; lia)) as (V0 & _). split; auto. rewrite (G 0%nat _ ltac:(lia) V0). unfold cabsv, cabs_sq, bin. simpl. apply sqrt_lt_R0. lra.
  - intros r E. destruct Q as [Q|(_ & Q)]; [|congruence|congruence]. exists 0%nat, 1%nat. split. simpl; lia. split. simpl; lia. destruct (V 1%nat ltac:(simpl; lia)) as (V1 & _). rewrite (G 1%nat _ ltac:(lia) V1). unfold cabsv, cabs_sq, bin. simpl. replace (0 * 0 + 0 * 0) with 0 by ring. apply sqrt_0.
Qed.
Example C101_complex_inst : let s1 := mkSp [1] false [[(0, 2)]] None DPower ZeroPad in let s2 := mkSp [1] false [[(1, 1)]] None DPower ZeroPad in
  exists r, spectral_difference_complex s1 s2 None = Ok (Some r) /\ bin r 0 0 = (1, 1).
Proof.
  intros s1 s2. assert (W : forall z, sp_wf (mkSp [1] false [[z]] None DPower ZeroPad)). { intros z. repeat split; try discriminate; try (simpl; lia). intros i j Hij Hj. simpl in Hj. lia. intros v [<-|[]]; lra. intros col [<-|[]]; auto. }
  destruct (C101_complex s1 s2 (W _) (W _) eq_refl eq_refl eq_refl eq_refl) as (r & E & _ & _ & H).
  - intros c k Hc Hk. simpl in Hc, Hk. assert (c = 0)%nat by lia. assert (k = 0)%nat by lia. subst. unfold bin, c0. simpl. intros Q. injection Q. lra.
  - exists r. split; auto. specialize (H 0%nat 0%nat ltac:(simpl; lia) ltac:(simpl; lia)). unfold bin at 2 4 5 7 9 10 in H. cbn in H. destruct (bin r 0 0) as [a b]. cbn in H. f_equal; lra.
Qed.
