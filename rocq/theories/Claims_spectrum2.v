(** C44, C45, C46: band energy, channels and normalization of the Spectrum class. *)
From Coq Require Import List Arith Lia ZArith Bool Reals Lra Psatz.
From Verif Require Import Alg Spec M_arrays P_arrays P_arrays2 M_signal M_spectrum P_spectrum Claims_spectrum.
Import ListNotations.
Local Open Scope R_scope.

(** ** C44 *)
(** The trapezoid rule from bin p to bin p + n. *)
Fixpoint trap_sum (f P : nat -> R) (p n : nat) : R :=
  match n with O => 0 | S n => trap_sum f P p n + (f (p + S n)%nat - f (p + n)%nat) * ((P (p + n)%nat + P (p + S n)%nat) / 2) end.
Lemma trap_sum_front f P p n : trap_sum f P p (S n) = (f (p + 1)%nat - f p) * ((P p + P (p + 1)%nat) / 2) + trap_sum f P (S p) n.
Proof.
  induction n.
  - cbn [trap_sum]. rewrite Nat.add_0_r. lra.
  - cbn [trap_sum] in *. rewrite IHn. replace (S p + S n)%nat with (p + S (S n))%nat by lia. replace (S p + n)%nat with (p + S n)%nat by lia. lra.
Qed.
Lemma trap_sum_ext f P f' P' p n : (forall i, (i <= n)%nat -> f (p + i)%nat = f' (p + i)%nat /\ P (p + i)%nat = P' (p + i)%nat) -> trap_sum f P p n = trap_sum f' P' p n.
Proof. intros H. induction n; auto. cbn [trap_sum]. rewrite IHn by (intros; apply H; lia). destruct (H n ltac:(lia)) as [-> ->], (H (S n) ltac:(lia)) as [-> ->]. auto. Qed.
Lemma trap_sum_shift f P p n : trap_sum f P p n = trap_sum (fun i => f (p + i)%nat) (fun i => P (p + i)%nat) 0 n.
Proof. induction n; auto. cbn [trap_sum]. now rewrite IHn. Qed.
Lemma trap_eq f P n : length f = S n -> length P = S n -> trapezoid f P = trap_sum (fun i => nth i f 0) (fun i => nth i P 0) 0 n.
Proof.
  revert f P. induction n; intros f P Lf LP.
  - destruct f as [|a [|]]; try discriminate. destruct P as [|u [|]]; try discriminate. reflexivity.
  - destruct f as [|a [|b f]]; try discriminate. destruct P as [|u [|v P]]; try discriminate.
    change (trapezoid (a :: b :: f) (u :: v :: P)) with ((b - a) * (u + v) / 2 + trapezoid (b :: f) (v :: P)).
    rewrite IHn by (simpl in *; lia). rewrite trap_sum_front. rewrite (trap_sum_shift _ _ 1 n).
    rewrite (trap_sum_ext _ _ (fun i => nth (1 + i) (a :: b :: f) 0) (fun i => nth (1 + i) (u :: v :: P) 0) 0 n) by (intros; split; reflexivity).
    cbn [nth Nat.add]. lra.
Qed.
Lemma bins_slice f p q : asc f -> (p <= q)%nat -> (q < length f)%nat -> freqs_to_slice f (Some (nth p f 0)) (Some (nth q f 0)) true = Ok (p, S q).
Proof.
  intros A Hpq Hq. pose proof (slice_spec f (Some (nth p f 0)) (Some (nth q f 0)) true A) as HS.
  assert (K : forall i, (i < length f)%nat -> kept true f (Some (nth p f 0)) (Some (nth q f 0)) i <-> (p <= i <= q)%nat).
  { intros i Hi. destruct (C31_limits_on_bins f (nth p f 0) (nth q f 0) p q i A ltac:(lia) Hq eq_refl eq_refl Hi) as [-> _]. split.
    - intros [H1 H2]. split.
      + destruct (le_dec p i); auto. pose proof (A i p ltac:(lia) ltac:(lia)). lra.
      + destruct (le_dec i q); auto. pose proof (A q i ltac:(lia) ltac:(lia)). lra.
    - intros [H1 H2]. split; apply asc_le; auto. }
  destruct (freqs_to_slice _ _ _ _) as [[a b]|e].
  - destruct HS as (Hab & Hb & HK). assert (HH : forall i, (i < length f)%nat -> (a <= i < b)%nat <-> (p <= i <= q)%nat) by (intros i Hi; now rewrite HK, K).
    pose proof (HH p ltac:(lia)). pose proof (HH q ltac:(lia)). pose proof (HH a ltac:(lia)). pose proof (HH (b - 1)%nat ltac:(lia)). f_equal. f_equal; lia.
  - exfalso. destruct e; try contradiction.
    + destruct HS as (_ & v & [= <-] & HS). specialize (HS p ltac:(lia)). lra.
    + apply (HS p); [lia|]. apply K; lia.
Qed.
(** The energy of a band: bin powers integrated with the trapezoid rule. *)
Definition band_energy (s : spectrum) (c p q : nat) : R :=
  trap_sum (fun i => nth i (sp_f s) 0) (fun i => cabs_sq (nth i (nth c (sp_d s) []) c0)) p (q - p).
Lemma trap_slice s c p q : sp_wf s -> (c < length (sp_d s))%nat -> (p <= q)%nat -> (q < length (sp_f s))%nat ->
  trapezoid (slice p (S q) (sp_f s)) (slice p (S q) (map cabs_sq (nth c (sp_d s) []))) = band_energy s c p q.
Proof.
  intros (A & N & D & LD & U & M) Hc Hpq Hq. pose proof (U _ (nth_In _ [] Hc)) as L.
  rewrite (trap_eq _ _ (q - p)) by (rewrite slice_length; rewrite ?map_length; lia). unfold band_energy. rewrite (trap_sum_shift _ _ p).
  apply trap_sum_ext. intros i Hi. rewrite !slice_nth by lia. split; auto. cbn [Nat.add].
  rewrite (nth_indep _ 0 (cabs_sq c0)) by (rewrite map_length; lia). apply map_nth.
Qed.
Theorem C44_energy_between_bins :
  forall s p q, sp_wf s -> (p <= q)%nat -> (q < length (sp_f s))%nat ->
  exists e, get_energy s (Some (nth p (sp_f s) 0)) (Some (nth q (sp_f s) 0)) = Ok e /\ length e = length (sp_d s) /\
    forall c, (c < length (sp_d s))%nat -> nth c e 0 = band_energy s c p q.
Proof.
  intros s p q W Hpq Hq. unfold get_energy. rewrite bins_slice; auto; [|apply W]. eexists. split; [reflexivity|]. split. apply map_length.
  intros c Hc. rewrite (nth_indep _ 0 (trapezoid (slice p (S q) (sp_f s)) (slice p (S q) (map cabs_sq [])))) by now rewrite map_length.
  rewrite (map_nth (fun col => trapezoid (slice p (S q) (sp_f s)) (slice p (S q) (map cabs_sq col)))). now apply trap_slice.
Qed.
Print Assumptions C44_energy_between_bins.
Theorem C44_total_energy :
  forall s, sp_wf s -> exists e, get_energy s None None = Ok e /\ length e = length (sp_d s) /\
    forall c, (c < length (sp_d s))%nat -> nth c e 0 = band_energy s c 0 (length (sp_f s) - 1).
Proof.
  intros s W. unfold get_energy, freqs_to_slice. cbn [fst snd]. pose proof (wf_f s W) as NE.
  assert (NZ : (0 < length (sp_f s))%nat) by (destruct (sp_f s); [congruence|simpl; lia]). replace (0 <? length (sp_f s))%nat with true by (symmetry; apply Nat.ltb_lt; lia).
  eexists. split; [reflexivity|]. split. apply map_length. intros c Hc. set (n := (length (sp_f s) - 1)%nat). replace (length (sp_f s)) with (S n) by lia.
  rewrite (nth_indep _ 0 (trapezoid (slice 0 (S n) (sp_f s)) (slice 0 (S n) (map cabs_sq [])))) by now rewrite map_length.
  rewrite (map_nth (fun col => trapezoid (slice 0 (S n) (sp_f s)) (slice 0 (S n) (map cabs_sq col)))). apply trap_slice; auto; lia.
Qed.
Print Assumptions C44_total_energy.
(** Energies of adjacent bands add up, are never negative, and grow with the band. *)
Theorem C44_energy_laws :
  forall s c p q r, sp_wf s -> (c < length (sp_d s))%nat -> (p <= q)%nat -> (q <= r)%nat -> (r < length (sp_f s))%nat ->
  band_energy s c p r = band_energy s c p q + band_energy s c q r /\ 0 <= band_energy s c p q <= band_energy s c p r.
Proof.
  intros s c p q r W Hc Hpq Hqr Hr. pose proof W as (A & _).
  assert (Add : forall f P m n, trap_sum f P p (m + n) = trap_sum f P p m + trap_sum f P (p + m) n).
  { intros f P m n. induction n. rewrite Nat.add_0_r. cbn. lra. rewrite Nat.add_succ_r. cbn [trap_sum]. rewrite IHn. rewrite !Nat.add_succ_r, !Nat.add_assoc. lra. }
  assert (Pos : forall a b, (a <= b)%nat -> (b < length (sp_f s))%nat -> 0 <= band_energy s c a b).
  { intros a b Hab Hb. unfold band_energy. enough (G : forall n, (a + n < length (sp_f s))%nat -> 0 <= trap_sum (fun i => nth i (sp_f s) 0) (fun i => cabs_sq (nth i (nth c (sp_d s) []) c0)) a n) by (apply G; lia).
    induction n; intros Hn. cbn; lra. cbn [trap_sum]. specialize (IHn ltac:(lia)).
    assert (Q : forall z, 0 <= cabs_sq z) by (intros; unfold cabs_sq; nra). pose proof (A (a + n)%nat (a + S n)%nat ltac:(lia) Hn).
    pose proof (Q (nth (a + n) (nth c (sp_d s) []) c0)). pose proof (Q (nth (a + S n) (nth c (sp_d s) []) c0)).
    apply Rplus_le_le_0_compat; auto. apply Rmult_le_pos; lra. }
  assert (E : band_energy s c p r = band_energy s c p q + band_energy s c q r).
  { unfold band_energy. replace (r - p)%nat with ((q - p) + (r - q))%nat by lia. rewrite Add. replace (p + (q - p))%nat with q by lia. reflexivity. }
  split; auto. pose proof (Pos p q ltac:(lia) ltac:(lia)). pose proof (Pos q r ltac:(lia) ltac:(lia)). lra.
Qed.
Print Assumptions C44_energy_laws.
Example C44_example : sp_wf ex_sp /\ band_energy ex_sp 0 0 1 = 5 / 2.
Proof. split. apply ex_sp_wf. unfold band_energy, cabs_sq. cbn. lra. Qed.
(** A limit between two bins is counted on both sides. *)
Theorem C44_split_off_grid_refuted :
  ~ (forall s m e1 e2 e c, sp_wf s -> get_energy s None (Some m) = Ok e1 -> get_energy s (Some m) None = Ok e2 -> get_energy s None None = Ok e -> (c < length (sp_d s))%nat ->
     nth c e 0 = nth c e1 0 + nth c e2 0).
Proof.
  intros H. specialize (H ex_sp (1 / 2)).
  assert (E1 : freqs_to_slice [0; 1; 2; 3] None (Some (1 / 2)) true = Ok (0%nat, 2%nat)).
  { unfold freqs_to_slice. cbn [searchsorted]. repeat (match goal with |- context [Rlt_dec ?a ?b] => destruct (Rlt_dec a b); try lra end). reflexivity. }
  assert (E2 : freqs_to_slice [0; 1; 2; 3] (Some (1 / 2)) None true = Ok (0%nat, 4%nat)).
  { unfold freqs_to_slice. cbn [searchsorted]. repeat (match goal with |- context [Rlt_dec ?a ?b] => destruct (Rlt_dec a b); try lra end). cbn [nth_error]. destruct (Req_EM_T 1 (1 / 2)); [lra|]. reflexivity. }
  unfold get_energy in H. change (sp_f ex_sp) with [0; 1; 2; 3] in H. rewrite E1, E2 in H. specialize (H _ _ _ 0%nat ex_sp_wf eq_refl eq_refl eq_refl ltac:(simpl; lia)). unfold cabs_sq in H. cbn in H. lra.
Qed.
Print Assumptions C44_split_off_grid_refuted.

(** ** C45 *)
Lemma new_ok f mag (d : list (list cplx)) : asc f -> (forall v, In v f -> 0 <= v) -> d <> [] -> (length d <= length f)%nat -> (forall col, In col d -> length col = length f) ->
  (mag = true -> forall col z, In col d -> In z col -> 0 <= fst z) -> new_spectrum f mag d = Ok (mkSp f mag d None DPower ZeroPad).
Proof. intros A N D LD U M. unfold new_spectrum. rewrite set_freqs_ok by auto. rewrite set_sdata_ok; auto. Qed.
Lemma copy_eq s mag d : sp_wf s -> d <> [] -> (length d <= length (sp_f s))%nat -> (forall col, In col d -> length col = length (sp_f s)) ->
  (mag = true -> forall col z, In col d -> In z col -> 0 <= fst z) -> (sp_dom s = DComplex -> mag = false) ->
  copy_with_data s mag d = match sp_coh s with None => Ok (mkSp (sp_f s) mag d None (sp_dom s) (sp_edge s))
    | Some c => if (rows c =? length (sp_f s))%nat && (length c =? length d)%nat then Ok (mkSp (sp_f s) mag d (Some c) (sp_dom s) (sp_edge s)) else Err AssertionError end.
Proof.
  intros (A & N & _) D LD U M Hm. unfold copy_with_data. rewrite new_ok by auto.
  assert (E : set_interp (mkSp (sp_f s) mag d None DPower ZeroPad) (sp_dom s) (sp_edge s) = (mkSp (sp_f s) mag d None (sp_dom s) (sp_edge s), Ok tt)).
  { unfold set_interp. cbn [sp_mag sp_f sp_d sp_coh]. destruct (sp_dom s); auto. now rewrite Hm. }
  rewrite E. destruct (sp_coh s) as [c|]; auto. unfold set_coherence. cbn [sp_d]. pose proof (rows_uniform d (length (sp_f s)) D U) as RU. unfold cplx in *. rewrite RU. destruct (_ && _); auto.
Qed.
(** Reachable spectra: the Complex domain goes with complex data; the coherence has the shape of the data. *)
Definition sp_inv (s : spectrum) : Prop :=
  sp_wf s /\ (sp_dom s = DComplex -> sp_mag s = false) /\ (forall c, sp_coh s = Some c -> length c = length (sp_d s) /\ rows c = length (sp_f s)).
Lemma select_wf s ks : sp_wf s -> ks <> [] -> (forall k, In k ks -> (k < length (sp_d s))%nat) -> (length ks <= length (sp_f s))%nat ->
  select ks [] (sp_d s) <> [] /\ (length (select ks [] (sp_d s)) <= length (sp_f s))%nat /\ (forall col, In col (select ks [] (sp_d s)) -> length col = length (sp_f s)) /\
  (sp_mag s = true -> forall col z, In col (select ks [] (sp_d s)) -> In z col -> 0 <= fst z).
Proof.
  intros (A & N & D & LD & U & M) Hk Hin Hl. unfold select. split. destruct ks; [congruence|discriminate]. rewrite map_length. split; auto.
  assert (G : forall col, In col (map (fun k => nth k (sp_d s) []) ks) -> In col (sp_d s)) by (intros col H; apply in_map_iff in H as (k & <- & H); apply nth_In; auto).
  split. intros col H. apply U; auto. intros Em col z Hc Hz. apply (M Em col z); auto.
Qed.
(** Without coherence the chosen channels come back unchanged; with coherence and another number of channels the call always fails. *)
Theorem C45_get_channels :
  forall s chs ks, sp_inv s -> chs <> [] -> Forall2 (fun z k => py_index (length (sp_d s)) z = Some k) chs ks -> (length chs <= length (sp_f s))%nat ->
  (sp_coh s = None -> exists s', sp_get_channels s chs = Ok s' /\ sp_f s' = sp_f s /\ sp_mag s' = sp_mag s /\ sp_dom s' = sp_dom s /\ sp_edge s' = sp_edge s /\
     length (sp_d s') = length chs /\ forall i, (i < length chs)%nat -> nth i (sp_d s') [] = nth (nth i ks 0%nat) (sp_d s) []) /\
  (sp_coh s <> None -> length chs <> length (sp_d s) -> sp_get_channels s chs = Err AssertionError).
Proof.
  intros s chs ks (W & HD & HC) NE HF HL. unfold sp_get_channels. destruct chs as [|z0 zs]; [congruence|]. set (chs := z0 :: zs) in *.
  assert (ER : resolve_all (length (sp_d s)) chs = Some ks) by (clear - HF; induction HF as [|z q l l' E HF IH]; auto; simpl; now rewrite E, IH). rewrite ER.
  assert (LK : length ks = length chs) by (clear - HF; induction HF; simpl; auto).
  assert (HK : forall k, In k ks -> (k < length (sp_d s))%nat) by (intros k Hk; clear - HF Hk; induction HF as [|z q l l' E HF IH]; [easy|]; destruct Hk as [<-|Hk]; auto; now apply py_index_lt in E).
  assert (NK : ks <> []) by (intros ->; discriminate LK).
  destruct (select_wf s ks W NK HK ltac:(lia)) as (S1 & S2 & S3 & S4). rewrite copy_eq; auto. assert (LS : length (select ks [] (sp_d s)) = length chs) by (unfold select; now rewrite map_length). split.
  - intros ->. eexists. split; [reflexivity|]. cbn [sp_f sp_mag sp_dom sp_edge sp_d]. do 4 (split; auto). split; auto. intros i Hi. unfold select.
    rewrite (nth_indep _ [] (nth 0%nat (sp_d s) [])) by (rewrite map_length, LK; exact Hi). now rewrite (map_nth (fun k => nth k (sp_d s) [])).
  - intros Hc Hne. destruct (sp_coh s) as [c|] eqn:Ec; [|congruence]. destruct (HC c eq_refl) as [L1 L2]. unfold cplx in *. rewrite LS.
    destruct (Nat.eqb_spec (length c) (length chs)) as [E|E]; [exfalso; congruence|]. now rewrite andb_false_r.
Qed.
Print Assumptions C45_get_channels.
(** Power sum of the channels. *)
Theorem C45_power_sum :
  forall s, sp_inv s -> sp_coh s = None -> sp_dom s <> DComplex ->
  exists s', sp_sum_channels s = Ok s' /\ sp_f s' = sp_f s /\ sp_mag s' = true /\ length (sp_d s') = 1%nat /\ length (nth 0 (sp_d s') []) = length (sp_f s) /\
    forall i, (i < length (sp_f s))%nat -> let z := nth i (nth 0 (sp_d s') []) c0 in
      0 <= fst z /\ snd z = 0 /\ fst z * fst z = fold_right Rplus 0 (map (fun col => cabs_sq (nth i col c0)) (sp_d s)).
Proof.
  intros s (W & _ & _) Hc Hd. pose proof W as (A & N & D & LD & U & M). pose proof (wf_f s W) as NE.
  assert (RU : rows (sp_d s) = length (sp_f s)) by now apply rows_uniform.
  assert (LP : length (power_sum (sp_d s)) = length (sp_f s)) by (unfold power_sum; now rewrite mk_length).
  assert (NZ : (0 < length (sp_f s))%nat) by (destruct (sp_f s); [congruence|simpl; lia]).
  assert (Q : forall i, 0 <= fold_right Rplus 0 (map (fun col => cabs_sq (nth i col c0)) (sp_d s))).
  { intros i. generalize (sp_d s). induction l; simpl. lra. unfold cabs_sq at 1. nra. }
  unfold sp_sum_channels. rewrite copy_eq; auto.
  - rewrite Hc. eexists. split; [reflexivity|]. cbn. split; auto. split; auto. split; auto. split; auto. intros i Hi. unfold power_sum. rewrite nth_mk by now rewrite RU. cbn [fst snd].
    split. apply sqrt_pos. split; auto. now apply sqrt_sqrt.
  - discriminate.
  - intros col [<-|[]]; auto.
  - intros _ col z [<-|[]] Hz. unfold power_sum in Hz. apply In_nth with (d := c0) in Hz as (i & Hi & <-). rewrite mk_length in Hi. rewrite nth_mk by auto. apply sqrt_pos.
  - congruence.
Qed.
Print Assumptions C45_power_sum.
Definition ex_coh : spectrum := mkSp [0; 1; 2; 3] true [ex_col 1; ex_col 3] (Some [[1; 1; 1; 1]; [0; 0; 0; 0]]) DPower ZeroPad.
Lemma ex_coh_inv : sp_inv ex_coh.
Proof. split. apply ex_sp_wf. split. discriminate. intros c [= <-]. auto. Qed.
Example C45_example : sp_inv ex_sp /\ Forall2 (fun z k => py_index (length (sp_d ex_sp)) z = Some k) [-1; 0]%Z [1; 0]%nat.
Proof. split. split. apply ex_sp_wf. split; discriminate. repeat constructor. Qed.
(** swap_channels reorders the channels by a permutation of their numbers and refuses everything else. *)
Theorem C45_swap_channels :
  forall s order, sp_inv s -> let k := length (sp_d s) in
  let perm := length order = k /\ NoDup order /\ (forall z, In z order -> (0 <= z < Z.of_nat k)%Z) in
  (perm -> exists s', sp_swap_channels s order = (s', Ok tt) /\ sp_f s' = sp_f s /\ sp_mag s' = sp_mag s /\ length (sp_d s') = k /\
     forall c, (c < k)%nat -> nth c (sp_d s') [] = nth (Z.to_nat (nth c order 0%Z)) (sp_d s) []) /\
  (~ perm -> sp_swap_channels s order = (s, Err AssertionError)).
Proof.
  intros s order (W & _ & _) k perm. pose proof W as (A & N & D & LD & U & M). unfold sp_swap_channels. fold k. split.
  - intros (HL & HN & HR). rewrite HL, Nat.eqb_refl. cbn [negb].
    assert (E1 : forallb (fun z => ((z <? Z.of_nat k) && (0 <=? z))%Z) order = true).
    { apply forallb_forall. intros z Hz. apply HR in Hz. apply andb_true_iff. split; [apply Z.ltb_lt|apply Z.leb_le]; lia. }
    rewrite E1. cbn [negb]. assert (E2 : znodup order = true) by now apply znodup_spec. rewrite E2. cbn [negb].
    assert (IN : forall col, In col (select (map Z.to_nat order) [] (sp_d s)) -> In col (sp_d s)).
    { intros col Hc. unfold select in Hc. apply in_map_iff in Hc as (q & <- & Hq). apply in_map_iff in Hq as (z & <- & Hz). apply HR in Hz. apply nth_In. fold k. lia. }
    assert (LS : length (select (map Z.to_nat order) [] (sp_d s)) = k) by (unfold select; now rewrite !map_length).
    rewrite set_sdata_ok.
    + eexists. split; [reflexivity|]. cbn. split; auto. split; auto. split; auto. intros c Hc. unfold select.
      rewrite (nth_indep _ [] (nth (Z.to_nat 0) (sp_d s) [])) by (rewrite !map_length; lia).
      rewrite map_map. rewrite (map_nth (fun z => nth (Z.to_nat z) (sp_d s) [])). reflexivity.
    + intros C. rewrite C in LS. simpl in LS. apply D. now apply length_zero_iff_nil.
    + intros col Hc. apply U. now apply IN.
    + rewrite LS. exact LD.
    + intros HM col z Hc Hz. apply (M HM col z); auto.
  - intros H. destruct (Nat.eqb_spec k (length order)) as [E|E]; cbn [negb]; auto.
    destruct (forallb _ order) eqn:E1; cbn [negb]; auto. destruct (znodup order) eqn:E2; cbn [negb]; auto. exfalso. apply H. split; auto. split; [now apply znodup_spec|].
    intros z Hz. rewrite forallb_forall in E1. apply E1 in Hz. apply andb_true_iff in Hz. rewrite Z.ltb_lt, Z.leb_le in Hz. lia.
Qed.
Print Assumptions C45_swap_channels.
(** Coherence does not follow its channel, and trimming leaves it with the old number of bins. *)
Theorem C45_coherence_refuted :
  ~ (forall s s' coh coh' c, sp_inv s -> sp_coh s = Some coh -> sp_swap_channels s [1; 0]%Z = (s', Ok tt) -> sp_coh s' = Some coh' -> (c < 2)%nat -> nth c coh' [] = nth (1 - c) coh []) /\
  ~ (forall s lo hi incl s', sp_inv s -> trim s lo hi incl = (s', Ok tt) -> sp_inv s') /\
  ~ (forall s s' coh coh' c, sp_inv s -> sp_coh s = Some coh -> sp_get_channels s [1; 0]%Z = Ok s' -> sp_coh s' = Some coh' -> (c < 2)%nat -> nth c coh' [] = nth (1 - c) coh []).
Proof.
  split; [|split]; intros H.
  - assert (E : exists s', sp_swap_channels ex_coh [1; 0]%Z = (s', Ok tt) /\ sp_coh s' = sp_coh ex_coh).
    { unfold sp_swap_channels. cbn [length sp_d ex_coh Nat.eqb negb forallb znodup]. cbn. rewrite set_sdata_ok. eexists. split; reflexivity. discriminate.
      intros col [<-|[<-|[]]]; reflexivity. simpl; lia.
      intros _ col z [<-|[<-|[]]] Hz; cbn in Hz; repeat (destruct Hz as [<-|Hz]; [cbn; lra|]); contradiction. }
    destruct E as (s' & E & Ec). specialize (H ex_coh s' _ _ 0%nat ex_coh_inv eq_refl E Ec ltac:(lia)). cbn in H. injection H as H. lra.
  - specialize (H ex_coh (Some (1 / 2)) (Some 2) true). rewrite trim_eq in H by apply ex_sp_wf. change (sp_f ex_coh) with [0; 1; 2; 3] in H. rewrite ex_trim in H. cbn in H.
    specialize (H _ ex_coh_inv eq_refl). destruct H as (_ & _ & H). specialize (H _ eq_refl). cbn in H. lia.
  - assert (E : sp_get_channels ex_coh [1; 0]%Z = Ok (mkSp [0; 1; 2; 3] true [ex_col 3; ex_col 1] (sp_coh ex_coh) DPower ZeroPad)).
    { unfold sp_get_channels. change (resolve_all (length (sp_d ex_coh)) [1; 0]%Z) with (Some [1; 0]%nat). cbn [select map nth sp_d ex_coh sp_mag]. rewrite copy_eq. reflexivity.
      apply ex_coh_inv. discriminate. simpl; lia. intros col [<-|[<-|[]]]; reflexivity.
      intros _ col z [<-|[<-|[]]] Hz; cbn in Hz; repeat (destruct Hz as [<-|Hz]; [cbn; lra|]); contradiction. discriminate. }
    specialize (H ex_coh _ _ _ 0%nat ex_coh_inv eq_refl E eq_refl ltac:(lia)). cbn in H. injection H as H. lra.
Qed.
Print Assumptions C45_coherence_refuted.

(** ** C46 *)
Lemma scale_cols_length ks d : length ks = length d -> length (scale_cols ks d) = length d.
Proof. intros H. unfold scale_cols. rewrite map_length, combine_length. lia. Qed.
Lemma scale_cols_nth ks d c : length ks = length d -> (c < length d)%nat -> nth c (scale_cols ks d) [] = map (cscale (nth c ks 0)) (nth c d []).
Proof.
  intros H Hc. unfold scale_cols. rewrite (nth_indep _ [] (map (cscale (snd (@nil cplx, 0))) (fst (@nil cplx, 0)))) by (rewrite map_length, combine_length; lia).
  rewrite (map_nth (fun p => map (cscale (snd p)) (fst p))). now rewrite combine_nth by auto.
Qed.
Lemma cabs_sq_scale k z : cabs_sq (cscale k z) = cabs_sq z * (k * k).
Proof. unfold cabs_sq, cscale. cbn. ring. Qed.
Lemma cabsv_scale k z : 0 <= k -> cabsv (cscale k z) = cabsv z * k.
Proof. intros H. unfold cabsv. rewrite cabs_sq_scale, sqrt_mult_alt by (unfold cabs_sq; nra). now rewrite sqrt_square. Qed.
Lemma scale_wf s ks : sp_wf s -> length ks = length (sp_d s) -> (forall k, In k ks -> 0 <= k) -> sp_wf (with_d s (sp_mag s) (scale_cols ks (sp_d s))).
Proof.
  intros (A & N & D & LD & U & M) L P. split; [|split; [|split; [|split; [|split]]]]; cbn [with_d sp_f sp_d sp_mag]; auto.
  - intros C. apply D. apply length_zero_iff_nil. rewrite <- (scale_cols_length ks) by auto. now rewrite C.
  - now rewrite scale_cols_length.
  - intros col Hc. unfold scale_cols in Hc. apply in_map_iff in Hc as ([c' k] & <- & Hc). apply in_combine_l in Hc. cbn [fst snd]. rewrite map_length. auto.
  - intros Em col z Hc Hz. unfold scale_cols in Hc. apply in_map_iff in Hc as ([c' k] & <- & Hc). cbn [fst snd] in Hz. apply in_map_iff in Hz as (w & <- & Hz).
    pose proof (P k (in_combine_r _ _ _ _ Hc)). apply in_combine_l in Hc. destruct (M Em c' w Hc Hz). cbn. nra.
Qed.
(** The magnitude read at a frequency follows a gain on the channel. *)
Lemma interp_scaled s xs ks c k o : interp_ready s xs -> length ks = length (sp_d s) -> (forall k, In k ks -> 0 <= k) -> (c < length (sp_d s))%nat -> (k < length xs)%nat -> in_range (sp_f s) (nth k xs 0) -> o = OMagnitude ->
  exists m m', get_interp s xs o = Ok m /\ get_interp (with_d s (sp_mag s) (scale_cols ks (sp_d s))) xs o = Ok m' /\
    fst (nth k (nth c m' []) c0) = fst (nth k (nth c m []) c0) * nth c ks 0 /\ 0 <= fst (nth k (nth c m []) c0).
Proof.
  intros R L P Hc Hk Hx ->. set (s' := with_d s (sp_mag s) (scale_cols ks (sp_d s))).
  assert (R' : interp_ready s' xs).
  { destruct R as (W & He & Hr). split. now apply scale_wf. split; auto. cbn. rewrite scale_cols_length; auto. }
  assert (L' : length (sp_d s') = length (sp_d s)) by (cbn; now apply scale_cols_length).
  destruct (C32_interpolation_inside s xs c k R Hc Hk Hx) as (pw & mg & E1 & E2 & S1 & S2 & H).
  destruct (C32_interpolation_inside s' xs c k R' ltac:(rewrite L'; auto) Hk Hx) as (pw' & mg' & E1' & E2' & S1' & S2' & H').
  exists mg, mg'. split; auto. split; auto. change (sp_dom s') with (sp_dom s) in H'. change (sp_f s') with (sp_f s) in H'. cbv zeta in H, H'.
  change (sp_d s') with (scale_cols ks (sp_d s)) in H'. rewrite scale_cols_nth in H' by auto. set (col := nth c (sp_d s) []) in *. set (g := nth c ks 0) in *.
  assert (G0 : 0 <= g) by (apply P, nth_In; lia). destruct R as (W & _). pose proof W as (A & N & D & LD & U & M). pose proof (U _ (nth_In _ [] Hc)) as LC. fold col in LC.
  assert (Sc : forall h a v, polygon (sp_f s) (map h col) (nth k xs 0) v -> polygon (sp_f s) (map (fun u => h u * a) col) (nth k xs 0) (v * a)).
  { intros h a v PV. apply polygon_scale with (k := a) in PV; [|now rewrite map_length]. now rewrite map_map in PV. }
  assert (Me : forall h h' : cplx -> R, (forall z, h (cscale g z) = h' z) -> map h (map (cscale g) col) = map h' col) by (intros h h' Hh; rewrite map_map; apply map_ext; auto).
  destruct (sp_dom s).
  - destruct H as [H1 H2], H' as [H1' H2']. rewrite (Me cabs_sq (fun z => cabs_sq z * (g * g))) in H1' by (intros; apply cabs_sq_scale).
    pose proof (polygon_unique _ _ _ _ _ A H1' (Sc _ (g * g) _ H1)) as E. rewrite H2', E, H2. split; [|apply sqrt_pos].
    destruct (polygon_between _ _ _ _ A H1) as (i & j & _ & _ & _ & _ & B & _).
    assert (Q : forall i, 0 <= nth i (map cabs_sq col) 0). { intros n. destruct (lt_dec n (length col)). rewrite (nth_indep _ 0 (cabs_sq c0)) by now rewrite map_length. rewrite map_nth. unfold cabs_sq; nra. rewrite nth_overflow by (rewrite map_length; lia). lra. }
    pose proof (Rmin_glb _ _ _ (Q i) (Q j)). rewrite sqrt_mult_alt by lra. now rewrite sqrt_square.
  - destruct H as [H1 H2], H' as [H1' H2']. rewrite (Me cabsv (fun z => cabsv z * g)) in H1' by (intros; now apply cabsv_scale).
    split. exact (polygon_unique _ _ _ _ _ A H1' (Sc _ g _ H1)).
    destruct (polygon_between _ _ _ _ A H1) as (i & j & _ & _ & _ & _ & B & _).
    assert (Q : forall i, 0 <= nth i (map cabsv col) 0). { intros n. destruct (lt_dec n (length col)). rewrite (nth_indep _ 0 (cabsv c0)) by now rewrite map_length. rewrite map_nth. apply sqrt_pos. rewrite nth_overflow by (rewrite map_length; lia). lra. }
    pose proof (Rmin_glb _ _ _ (Q i) (Q j)). lra.
  - destruct H as (re & im & P1 & P2 & H1 & H2 & _), H' as (re' & im' & P1' & P2' & H1' & H2' & _).
    pose proof (Me fst (fun z => fst z * g) ltac:(auto)) as M1. pose proof (Me snd (fun z => snd z * g) ltac:(auto)) as M2. unfold cplx in *. rewrite M1 in P1'. rewrite M2 in P2'.
    pose proof (polygon_unique _ _ _ _ _ A P1' (Sc fst g _ P1)) as ->. pose proof (polygon_unique _ _ _ _ _ A P2' (Sc snd g _ P2)) as ->.
    split; [|rewrite H2; apply sqrt_pos]. rewrite H2', H1', H2, H1. replace (re * g * (re * g) + im * g * (im * g)) with ((re * re + im * im) * (g * g)) by ring.
    rewrite sqrt_mult_alt by nra. now rewrite sqrt_square.
Qed.
(** After normalizing, the magnitude read at the reference frequency is one (0 dB), for every interpolation domain. *)
Theorem C46_unity_at_reference :
  forall s f s', interp_ready s [f] -> in_range (sp_f s) f -> sp_normalize s f None = Ok (Some s') ->
  sp_wf s' /\ sp_f s' = sp_f s /\ exists m, get_interp s' [f] OMagnitude = Ok m /\ forall c, (c < length (sp_d s))%nat -> fst (nth 0 (nth c m []) c0) = 1.
Proof.
  intros s f s' R Hf E. unfold sp_normalize in E. pose proof R as (W & _). pose proof W as (A & N & D & LD & U & M).
  assert (NZ : (0 < length (sp_d s))%nat) by (destruct (sp_d s); [congruence|simpl; lia]).
  destruct (interp_out s [f] OMagnitude 0 0 R) as (m & Em & Lm & _); auto. discriminate. rewrite Em in E. set (vals := map _ m) in E.
  assert (Lv : length vals = length (sp_d s)) by (unfold vals; now rewrite map_length).
  assert (Hv : forall c, (c < length (sp_d s))%nat -> nth c vals 0 = fst (nth 0 (nth c m []) c0)).
  { intros c Hc. unfold vals. rewrite (nth_indep _ 0 (fst (nth 0 (@nil cplx) c0))) by (rewrite map_length; lia). now rewrite (map_nth (fun v => fst (nth 0 v c0))). }
  destruct (existsb _ vals) eqn:Ex; [discriminate|]. injection E as <-.
  assert (V0 : forall v, In v vals -> v <> 0).
  { intros v Hin C. apply not_true_iff_false in Ex. apply Ex. apply existsb_exists. exists v. split; auto. destruct (Req_EM_T v 0); auto. }
  assert (V1 : forall v, In v vals -> 0 < v).
  { intros v Hin. pose proof (V0 v Hin). apply In_nth with (d := 0) in Hin as (c & Hc & <-). rewrite Lv in Hc. rewrite Hv in * by auto.
    destruct (interp_scaled s [f] (repeat 1 (length (sp_d s))) c 0 OMagnitude R) as (m1 & m2 & F1 & _ & _ & F4); auto. now rewrite repeat_length. intros k Hk. apply repeat_spec in Hk. lra.
    rewrite Em in F1. injection F1 as <-. lra. }
  assert (P : forall k, In k (map Rinv vals) -> 0 <= k) by (intros k Hk; apply in_map_iff in Hk as (v & <- & Hk); left; apply Rinv_0_lt_compat; auto).
  assert (LI : length (map Rinv vals) = length (sp_d s)) by now rewrite map_length.
  split. now apply scale_wf. split; auto.
  destruct (interp_scaled s [f] (map Rinv vals) 0 0 OMagnitude R LI P NZ) as (m1 & m' & F1 & F2 & _); auto. exists m'. split; auto.
  intros c Hc. destruct (interp_scaled s [f] (map Rinv vals) c 0 OMagnitude R LI P Hc) as (m2 & m3 & G1 & G2 & G3 & _); auto.
  rewrite F2 in G2. injection G2 as <-. rewrite Em in G1. injection G1 as <-. rewrite G3, <- Hv by auto.
  rewrite (nth_indep (map Rinv vals) 0 (/ 0)) by lia. rewrite map_nth. apply Rinv_r. apply V0, nth_In. lia.
Qed.
Print Assumptions C46_unity_at_reference.
(** With a reference channel all channels get the same factor, and the reference channel reads one. *)
Theorem C46_reference_channel :
  forall s f z r s', interp_ready s [f] -> in_range (sp_f s) f -> py_index (length (sp_d s)) z = Some r -> sp_normalize s f (Some z) = Ok (Some s') ->
  exists g, 0 < g /\ (forall c, (c < length (sp_d s))%nat -> nth c (sp_d s') [] = map (cscale g) (nth c (sp_d s) [])) /\
    exists m, get_interp s' [f] OMagnitude = Ok m /\ fst (nth 0 (nth r m []) c0) = 1.
Proof.
  intros s f z r s' R Hf Hz E. unfold sp_normalize in E. pose proof R as (W & _). pose proof W as (A & N & D & LD & U & M).
  pose proof (py_index_lt _ _ _ Hz) as Hr. destruct (interp_out s [f] OMagnitude r 0 R) as (m & Em & Lm & _); auto. discriminate. rewrite Em in E. rewrite map_length, Lm, Hz in E.
  set (v := nth r (map _ m) 0) in E. assert (Hv : v = fst (nth 0 (nth r m []) c0)).
  { unfold v. rewrite (nth_indep _ 0 (fst (nth 0 (@nil cplx) c0))) by (rewrite map_length; lia). now rewrite (map_nth (fun v => fst (nth 0 v c0))). }
  destruct (existsb _ _) eqn:Ex; [discriminate|]. injection E as <-.
  assert (V0 : v <> 0).
  { intros C. apply not_true_iff_false in Ex. apply Ex. apply existsb_exists. exists v. split; auto. destruct (length (sp_d s)); [lia|]. now left. destruct (Req_EM_T v 0); auto. }
  assert (MR : map Rinv (repeat v (length (sp_d s))) = repeat (/ v) (length (sp_d s))) by (generalize (length (sp_d s)); induction n; simpl; congruence). rewrite MR.
  assert (V1 : 0 < v).
  { destruct (interp_scaled s [f] (repeat 1 (length (sp_d s))) r 0 OMagnitude R) as (m1 & m2 & F1 & _ & _ & F4); auto. now rewrite repeat_length. intros k Hk. apply repeat_spec in Hk. lra.
    rewrite Em in F1. injection F1 as <-. lra. }
  assert (NR : forall c, (c < length (sp_d s))%nat -> nth c (repeat (/ v) (length (sp_d s))) 0 = / v).
  { intros c Hc. rewrite (nth_indep _ 0 (/ v)) by now rewrite repeat_length. apply nth_repeat. }
  exists (/ v). split. now apply Rinv_0_lt_compat. split.
  - intros c Hc. cbn. rewrite scale_cols_nth by (rewrite ?repeat_length; auto). now rewrite NR.
  - destruct (interp_scaled s [f] (repeat (/ v) (length (sp_d s))) r 0 OMagnitude R) as (m1 & m2 & F1 & F2 & F3 & _); auto. now rewrite repeat_length.
    intros k Hk. apply repeat_spec in Hk. subst. left. now apply Rinv_0_lt_compat.
    exists m2. split; auto. rewrite F3, NR by auto. rewrite Em in F1. injection F1 as <-. rewrite <- Hv. now apply Rinv_r.
Qed.
Print Assumptions C46_reference_channel.
(** Normalizing outside the stored range: zero padding divides by zero, one padding changes nothing. *)
Theorem C46_outside_range :
  forall s f, sp_wf s -> sp_dom s <> DComplex -> (f < nth 0 (sp_f s) 0 \/ nth (length (sp_f s) - 1) (sp_f s) 0 < f) ->
  (sp_edge s = ZeroPad -> sp_normalize s f None = Ok None) /\
  (sp_edge s = EdgeError -> sp_normalize s f None = Err AssertionError) /\
  (sp_edge s = OnePad -> exists s', sp_normalize s f None = Ok (Some s') /\ sp_f s' = sp_f s /\ sp_d s' = sp_d s).
Proof.
  intros s f W Hd Hf. pose proof W as (A & N & D & LD & U & M).
  assert (NZ : (0 < length (sp_d s))%nat) by (destruct (sp_d s); [congruence|simpl; lia]).
  split; [|split]; intros He.
  - pose proof (fun c Hc => C32_edges s f c W Hd Hc Hf) as H. cbv zeta in H. rewrite He in H. unfold sp_normalize.
    destruct (H 0%nat NZ) as (m & Em & V). rewrite Em. assert (Lm : length m = length (sp_d s)).
    { destruct (interp_out s [f] OMagnitude 0 0) as (m' & E' & L' & _); auto. split; auto. split; auto. rewrite He. discriminate. discriminate. congruence. }
    destruct m as [|v m]; [simpl in Lm; lia|]. cbn [nth] in V. cbn [map existsb]. rewrite V. cbn [fst]. destruct (Req_EM_T 0 0); [reflexivity|congruence].
  - pose proof (C32_edges s f 0 W Hd NZ Hf) as H. cbv zeta in H. rewrite He in H. unfold sp_normalize. now rewrite H.
  - pose proof (fun c Hc => C32_edges s f c W Hd Hc Hf) as H. cbv zeta in H. rewrite He in H. unfold sp_normalize.
    destruct (H 0%nat NZ) as (m & Em & V). rewrite Em. assert (Lm : length m = length (sp_d s)).
    { destruct (interp_out s [f] OMagnitude 0 0) as (m' & E' & L' & _); auto. split; auto. split; auto. rewrite He. discriminate. discriminate. congruence. }
    assert (MV : map (fun v => fst (nth 0 v c0)) m = repeat 1 (length (sp_d s))).
    { rewrite <- Lm. apply nth_ext with (d := fst (nth 0 (@nil cplx) c0)) (d' := 1). now rewrite map_length, repeat_length. intros c Hc. rewrite map_length in Hc.
      rewrite (map_nth (fun v => fst (nth 0 v c0))). rewrite nth_repeat. destruct (H c ltac:(lia)) as (m' & Em' & V'). rewrite Em in Em'. injection Em' as <-. now rewrite V'. }
    rewrite MV. replace (existsb _ (repeat 1 (length (sp_d s)))) with false.
    2:{ symmetry. apply not_true_iff_false. intros C. apply existsb_exists in C as (v & Hin & C). apply repeat_spec in Hin. subst. destruct (Req_EM_T 1 0); [lra|discriminate]. }
    eexists. split; [reflexivity|]. split; auto. cbn. clear. induction (sp_d s) as [|col t IH]; auto. unfold scale_cols in *. cbn [length repeat map combine fst snd]. rewrite IH. f_equal.
    rewrite Rinv_1. rewrite <- (map_id col) at 2. apply map_ext. intros [a b]. unfold cscale. cbn. f_equal; ring.
Qed.
Print Assumptions C46_outside_range.
(** A gain in dB multiplies the magnitudes of its channel by 10^(gain/20). *)
Theorem C46_apply_gain :
  forall s gains s' c i, sp_wf s -> sp_apply_gain s gains = (s', Ok tt) -> (c < length (sp_d s))%nat -> (i < length (sp_f s))%nat ->
  sp_wf s' /\ (length gains = 1%nat \/ length gains = length (sp_d s)) /\
  let g := nth (if (length gains =? 1)%nat then 0%nat else c) gains 0 in
  cabsv (nth i (nth c (sp_d s') []) c0) = cabsv (nth i (nth c (sp_d s) []) c0) * Rpower 10 (g / 20).
Proof.
  intros s gains s' c i W E Hc Hi. unfold sp_apply_gain in E. destruct (_ || _) eqn:Eb; [|discriminate]. injection E as <-. apply orb_true_iff in Eb. rewrite !Nat.eqb_eq in Eb.
  set (ks := if (length gains =? 1)%nat then _ else _).
  assert (L : length ks = length (sp_d s)). { unfold ks. destruct (Nat.eqb_spec (length gains) 1). apply repeat_length. rewrite map_length. lia. }
  assert (P : forall k, In k ks -> 0 <= k). { intros k Hk. left. unfold ks in Hk. destruct (_ =? _)%nat. apply repeat_spec in Hk. subst. apply exp_pos. apply in_map_iff in Hk as (g & <- & _). apply exp_pos. }
  split. now apply scale_wf. split; auto. cbn [with_d sp_d]. rewrite scale_cols_nth by auto. pose proof W as (_ & _ & _ & _ & U & _). pose proof (U _ (nth_In _ [] Hc)).
  rewrite (nth_indep _ c0 (cscale (nth c ks 0) c0)) by (rewrite map_length; lia). rewrite map_nth. rewrite cabsv_scale by (apply P, nth_In; lia). f_equal.
  unfold ks. destruct (Nat.eqb_spec (length gains) 1).
  - rewrite (nth_indep _ 0 (Rpower 10 (nth 0 gains 0 / 20))) by now rewrite repeat_length. apply nth_repeat.
  - rewrite (nth_indep _ 0 (Rpower 10 (0 / 20))) by (rewrite map_length; lia). now rewrite (map_nth (fun g => Rpower 10 (g / 20))).
Qed.
Print Assumptions C46_apply_gain.
Example C46_example : interp_ready ex_sp [3 / 2] /\ in_range (sp_f ex_sp) (3 / 2) /\ exists s', sp_normalize ex_sp (3 / 2) None = Ok (Some s').
Proof.
  assert (R : interp_ready ex_sp [3 / 2]) by (split; [apply ex_sp_wf|split; [auto|discriminate]]).
  assert (I : in_range (sp_f ex_sp) (3 / 2)) by (split; cbn; lra). split; auto. split; auto.
  unfold sp_normalize. rewrite get_interp_ok; [|discriminate|discriminate|now left|discriminate].
  cbn [ex_sp sp_d map nth sp_dom fst convert_out interp_col sp_edge edge_values sp_f].
  assert (V : forall k, 0 <= k -> 0 < np_interp [0; 1; 2; 3] (map (idata DPower) (ex_col k)) 0 0 (3 / 2)).
  { intros k Hk. unfold np_interp. cbn. repeat (match goal with |- context [Rlt_dec ?a ?b] => destruct (Rlt_dec a b); try lra end). unfold cabs_sq. cbn. nra. }
  destruct (existsb _ _) eqn:Ex; [|eexists; reflexivity]. exfalso. apply existsb_exists in Ex as (v & Hin & C). destruct (Req_EM_T v 0); [|discriminate]. subst.
  destruct Hin as [Hin|[Hin|[]]]; apply sqrt_eq_0 in Hin; pose proof (V 1 ltac:(lra)); pose proof (V 3 ltac:(lra)); lra.
Qed.
(** Resampling a magnitude spectrum on its own frequencies changes nothing but the interpolation domain. *)
Theorem C32_resample_same_grid :
  forall s, interp_ready s (sp_f s) -> sp_mag s = true -> exists s', sp_resample s (sp_f s) = (s', Ok tt) /\ sp_f s' = sp_f s /\ sp_d s' = sp_d s /\ sp_mag s' = true.
Proof.
  intros s R Hm. unfold sp_resample, set_interp. set (s1 := mkSp _ _ _ _ _ _). pose proof R as (W & He & Hr). pose proof W as (A & N & D & LD & U & M). pose proof (wf_f s W) as NE.
  assert (R1 : interp_ready s1 (sp_f s1)) by (split; [apply W|split; auto]).
  assert (G : exists m, get_interp s1 (sp_f s) OMagnitude = Ok m /\ m = sp_d s).
  { destruct (interp_out s1 (sp_f s) OMagnitude 0 0 R1) as (m & E & L & _). discriminate. destruct (sp_d s1) eqn:Q; [cbn in Q; congruence|simpl; lia]. destruct (sp_f s); [congruence|simpl; lia].
    exists m. split; auto. apply nth_ext with (d := []) (d' := []); auto. intros c Hc. rewrite L in Hc. change (sp_d s1) with (sp_d s) in Hc. pose proof (U _ (nth_In _ [] Hc)) as LC.
    assert (NZ : (0 < length (sp_f s))%nat) by (destruct (sp_f s); [congruence|simpl; lia]).
    destruct (interp_out s1 (sp_f s) OMagnitude c 0 R1) as (m0 & E0 & _ & LM & _); auto. discriminate. rewrite E in E0. injection E0 as <-.
    apply nth_ext with (d := c0) (d' := c0). congruence. intros j Hj. rewrite LM in Hj.
    destruct (C32_values_on_grid s1 j c R1 Hc Hj) as (_ & m2 & _ & E2 & _ & V & _). change (sp_f s1) with (sp_f s) in E2. rewrite E in E2. injection E2 as <-. rewrite V.
    change (sp_d s1) with (sp_d s). set (z := nth j (nth c (sp_d s) []) c0). destruct (M Hm (nth c (sp_d s) []) z) as [Z1 Z2]. now apply nth_In. apply nth_In. lia.
    unfold cabsv, cabs_sq. destruct z as [a b]. cbn in *. subst b. f_equal. replace (a * a + 0 * 0) with (a * a) by ring. now apply sqrt_square. }
  destruct G as (m & -> & ->). rewrite set_freqs_ok by auto. rewrite set_sdata_ok; auto. eexists. split; [reflexivity|]. auto.
  intros _ col z Hc Hz. now apply (M Hm col z).
Qed.
Print Assumptions C32_resample_same_grid.
