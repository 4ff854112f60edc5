(** C60: signal-to-noise ratio and scale-invariant signal-to-distortion ratio. *)
From Coq Require Import List Arith Lia ZArith Bool Reals Lra Psatz.
From Verif Require Import Alg Spec Dft M_arrays M_latency M_dynamics M_level P_ar Claims_level M_distances.
Import ListNotations.
Local Open Scope R_scope.

(** ** Specification *)
Definition decibel (r : R) : R := 10 * (ln r / ln 10).
(** The four outcomes of the ratio of two powers in decibels. *)
Definition ratio_db (a b : R) (v : ext) : Prop :=
  (0 < a -> 0 < b -> v = Fin (decibel (a / b))) /\ (0 < a -> b = 0 -> v = PInf) /\ (a = 0 -> 0 < b -> v = NInf) /\ (a = 0 -> b = 0 -> v = NaN).
Definition energy (x : list R) : R := rsum (length x) (fun i => get x i * get x i).
Definition inner (x y : list R) : R := rsum (length x) (fun i => get x i * get y i).
(** y = c s + n, sample by sample *)
Definition decomposes (y s : list R) (c : R) (n : list R) : Prop :=
  length y = length s /\ length n = length s /\ forall i, get y i = c * get s i + get n i.

Lemma energy_nonneg x : 0 <= energy x.
Proof. unfold energy. apply rsum_nonneg. intros. nra. Qed.
Lemma sqsum_energy x : sqsum x = energy x.
Proof. unfold energy. induction x as [|a x IH]. reflexivity. cbn [sqsum fold_right length]. fold (sqsum x). rewrite IH, (sum_S_front (HA := CRing_R)). reflexivity. Qed.
Lemma energy_zero x : energy x = 0 -> forall i, get x i = 0.
Proof.
  unfold energy. intros H i. destruct (Nat.lt_ge_cases i (length x)); [|now apply (get_out (HA := CRing_R))].
  assert (G : forall n, rsum n (fun i => get x i * get x i) = 0 -> forall i, (i < n)%nat -> get x i = 0).
  { induction n as [|n IH]; intros E k Hk; [lia|]. cbn [sum] in E. change (@radd R CRing_R) with Rplus in E.
    pose proof (rsum_nonneg n (fun i => get x i * get x i) ltac:(intros; apply Rle_0_sqr)). assert (get x n * get x n = 0) by nra. assert (rsum n (fun i => get x i * get x i) = 0) by nra.
    destruct (Nat.eq_dec k n) as [->|]; [nra|]. apply IH; auto; lia. }
  now apply (G (length x)).
Qed.
Lemma ln10_pos : 0 < ln 10.
Proof. rewrite <- ln_1. apply ln_increasing; lra. Qed.
Lemma ln_quot a b : 0 < a -> 0 < b -> ln (a / b) = ln a - ln b.
Proof. intros. unfold Rdiv. rewrite ln_mult, ln_Rinv by (auto; now apply Rinv_0_lt_compat). ring. Qed.
Lemma ratio_ok a b : 0 <= a -> 0 <= b -> ratio_db a b (xscale 10 (xlog10 (xdiv a b))).
Proof.
  intros Ha Hb. pose proof ln10_pos. unfold ratio_db, xdiv. repeat split; intros.
  - destruct (Req_EM_T b 0); [lra|]. cbn [xlog10]. destruct (Rlt_dec 0 (a / b)) as [|nn]. reflexivity. exfalso. apply nn. apply Rdiv_lt_0_compat; lra.
  - destruct (Req_EM_T b 0); [|lra]. destruct (Rlt_dec 0 a); [reflexivity|lra].
  - destruct (Req_EM_T b 0); [lra|]. cbn [xlog10]. replace (a / b) with 0 by (subst a; field; lra). destruct (Rlt_dec 0 0); [lra|]. destruct (Req_EM_T 0 0); [reflexivity|lra].
  - destruct (Req_EM_T b 0); [|lra]. destruct (Rlt_dec 0 a); [lra|]. destruct (Rlt_dec a 0); [lra|]. reflexivity.
Qed.
Lemma ratio_unique a b u v : 0 <= a -> 0 <= b -> ratio_db a b u -> ratio_db a b v -> u = v.
Proof.
  intros Ha Hb (U1 & U2 & U3 & U4) (V1 & V2 & V3 & V4). destruct (Req_EM_T a 0), (Req_EM_T b 0).
  - now rewrite U4, V4.
  - rewrite U3, V3; auto; lra.
  - rewrite U2, V2; auto; lra.
  - rewrite U1, V1; auto; lra.
Qed.

Lemma sum_lin n a b (f g : nat -> R) : rsum n (fun i => a * f i + b * g i) = a * rsum n f + b * rsum n g.
Proof. induction n as [|n IH]; cbn [sum]; change (@radd R CRing_R) with Rplus. change (@r0 R CRing_R) with 0. ring. rewrite IH. ring. Qed.
Lemma sisdr_decomposed s y c n : energy s <> 0 -> decomposes y s c n -> inner s n = 0 -> sisdr s y = xscale 10 (xlog10 (xdiv (c * c * energy s) (energy n))).
Proof.
  intros HS (Ly & Ln & D) O. unfold sisdr. change (dot s s) with (energy s). destruct (Req_EM_T (energy s) 0); [contradiction|].
  assert (EP : dot s y = c * energy s).
  { unfold dot, energy. rewrite (sum_ext (HA := CRing_R) _ _ (fun i => c * (get s i * get s i) + 1 * (get s i * get n i))) by (intros; rewrite D; simpl; ring).
    rewrite sum_lin. change (rsum (length s) (fun i => get s i * get n i)) with (inner s n). rewrite O. ring. }
  rewrite EP. replace (c * energy s / energy s) with c by (field; auto). do 3 f_equal.
  - rewrite sqsum_energy. unfold energy. rewrite map_length, <- (sum_scal_l (HA := CRing_R)). apply sum_ext. intros i Hi. unfold get at 1 2. rewrite !(nth_map' (fun v => c * v) s i 0) by auto. simpl. unfold get. simpl. ring.
  - rewrite sqsum_energy. unfold energy. rewrite mk_length, Ln. apply sum_ext. intros i Hi. rewrite get_mk by auto. rewrite D.
    replace (get (map (fun v => c * v) s) i) with (c * get s i) by (symmetry; unfold get; apply (nth_map' (fun v => c * v) s i 0); auto). simpl. ring.
Qed.
Lemma decompose s y : energy s <> 0 -> length y = length s -> exists c n, decomposes y s c n /\ inner s n = 0.
Proof.
  intros HS L. set (c := inner s y / energy s). exists c, (mk (length s) (fun i => get y i - c * get s i)).
  assert (G : forall i, get (mk (length s) (fun i => get y i - c * get s i)) i = get y i - c * get s i).
  { intros i. destruct (Nat.lt_ge_cases i (length s)). now rewrite get_mk. rewrite !get_out by (rewrite ?mk_length; lia). simpl. ring. }
  split; [split; [auto|split; [apply mk_length|intros i; rewrite G; simpl; ring]]|].
  unfold inner. rewrite (sum_ext (HA := CRing_R) _ _ (fun i => 1 * (get s i * get y i) + (- c) * (get s i * get s i))) by (intros; rewrite G; simpl; ring).
  rewrite sum_lin. change (rsum (length s) (fun i => get s i * get y i)) with (inner s y). change (rsum (length s) (fun i => get s i * get s i)) with (energy s). unfold c. field. auto.
Qed.

(** ** Scale-invariant signal-to-distortion ratio *)
(** Every channel of the result compares the power of the part of the modified channel along its target with the power of the rest. *)
Theorem C60_si_sdr fs target modified :
  rows modified = rows target -> (length target = 1%nat \/ length modified = length target) ->
  (forall c, In c target -> length c = rows target) -> (forall c, In c modified -> length c = rows target) ->
  exists v, si_sdr fs fs target modified = Ok v /\ length v = length modified /\
    forall k, (k < length modified)%nat ->
      let s := nth (if (length target =? 1)%nat then 0 else k) target [] in let y := nth k modified [] in
      (energy s = 0 -> nth k v NaN = NaN) /\
      (energy s <> 0 -> (exists c n, decomposes y s c n /\ inner s n = 0) /\
        forall c n, decomposes y s c n -> inner s n = 0 -> ratio_db (c * c * energy s) (energy n) (nth k v NaN)).
Proof.
  intros HR HC HT HM. unfold si_sdr. rewrite Z.eqb_refl, HR, Nat.eqb_refl. cbn [negb].
  assert (E : negb (length target =? 1)%nat && negb (length modified =? length target)%nat = false).
  { destruct HC as [-> | ->]; [reflexivity|]. rewrite Nat.eqb_refl. apply andb_false_r. }
  rewrite E. eexists. split; [reflexivity|]. split; [apply mk_length|]. intros k Hk. rewrite nth_mk by auto. cbv zeta. set (s := nth (if (length target =? 1)%nat then 0%nat else k) target []). set (y := nth k modified []). split.
  - intros Z. unfold sisdr. change (dot s s) with (energy s). destruct (Req_EM_T (energy s) 0); [reflexivity|contradiction].
  - intros Z. assert (Ly : length y = length s).
    { unfold y, s. rewrite (HM (nth k modified [])) by (apply nth_In; auto). rewrite HT; auto. apply nth_In. destruct (Nat.eqb_spec (length target) 1); lia. }
    split; [now apply decompose|]. intros c n D O. rewrite (sisdr_decomposed s y c n) by auto. apply ratio_ok; [|apply energy_nonneg]. pose proof (energy_nonneg s). nra.
Qed.
Print Assumptions C60_si_sdr.
(** A target of two samples; a channel that is three times the target plus a perpendicular part of equal size; a copy of the target. *)
Example C60_si_sdr_case : exists v, si_sdr 48000 48000 [[1; 1]] [[3 + 3; 3 - 3]; [2; 2]; [1; -1]] = Ok v /\
  nth 0 v NaN = Fin (decibel 1) /\ nth 1 v NaN = PInf /\ nth 2 v NaN = NInf.
Proof.
  destruct (C60_si_sdr 48000 [[1; 1]] [[3 + 3; 3 - 3]; [2; 2]; [1; -1]]) as (v & H & L & G); auto.
  { intros c [<-|[]]. reflexivity. } { intros c [<-|[<-|[<-|[]]]]; reflexivity. }
  exists v. split; auto. assert (E : energy [1; 1] = 2) by (unfold energy, get; simpl; lra).
  split; [|split].
  - destruct (G 0%nat ltac:(simpl; lia)) as [_ G0]. cbn [nth length Nat.eqb] in G0. destruct (G0 ltac:(lra)) as [_ G1].
    destruct (G1 3 [3; -3]) as [F _]. { split; [auto|split; [auto|]]. intros [ | [ | [ | i ] ] ]; unfold get; simpl; ring. } { unfold inner, get; simpl; ring. }
    rewrite F. f_equal. f_equal. unfold energy, get; simpl. field. unfold energy, get; simpl; lra. unfold energy, get; simpl; lra.
  - destruct (G 1%nat ltac:(simpl; lia)) as [_ G0]. cbn [nth length Nat.eqb] in G0. destruct (G0 ltac:(lra)) as [_ G1].
    destruct (G1 2 [0; 0]) as [_ [F _]]. { split; [auto|split; [auto|]]. intros [ | [ | [ | i ] ] ]; unfold get; simpl; ring. } { unfold inner, get; simpl; ring. }
    apply F; unfold energy, get; simpl; lra.
  - destruct (G 2%nat ltac:(simpl; lia)) as [_ G0]. cbn [nth length Nat.eqb] in G0. destruct (G0 ltac:(lra)) as [_ G1].
    destruct (G1 0 [1; -1]) as [_ [_ [F _]]]. { split; [auto|split; [auto|]]. intros [ | [ | [ | i ] ] ]; unfold get; simpl; ring. } { unfold inner, get; simpl; ring. }
    apply F; unfold energy, get; simpl; lra.
Qed.

(** Gains (also negative ones) on the target or on the modified signal do not matter. *)
Definition amplify (g : R) (m : list (list R)) : list (list R) := map (map (fun v => v * g)) m.
Lemma get_amp g x i : get (map (fun v => v * g) x) i = get x i * g.
Proof. unfold get. change (@r0 R CRing_R) with 0. replace 0 with (0 * g) at 1 by ring. apply (map_nth (fun v => v * g)). Qed.
Lemma energy_amp g x : energy (map (fun v => v * g) x) = g * g * energy x.
Proof. unfold energy. rewrite map_length, <- (sum_scal_l (HA := CRing_R)). apply sum_ext. intros. rewrite get_amp. simpl. ring. Qed.
Lemma sisdr_scale a b s y : a <> 0 -> b <> 0 -> length y = length s -> sisdr (map (fun v => v * a) s) (map (fun v => v * b) y) = sisdr s y.
Proof.
  intros Ha Hb L. destruct (Req_EM_T (energy s) 0) as [Z|Z].
  - unfold sisdr. change (dot s s) with (energy s). change (dot (map (fun v => v * a) s) (map (fun v => v * a) s)) with (energy (map (fun v => v * a) s)). rewrite energy_amp, Z, Rmult_0_r.
    destruct (Req_EM_T 0 0); [reflexivity|lra].
  - destruct (decompose s y Z L) as (c & n & D & O). rewrite (sisdr_decomposed s y c n) by auto.
    assert (Za : energy (map (fun v => v * a) s) <> 0) by (rewrite energy_amp; intros E; apply Rmult_integral in E; destruct E as [E|E]; [nra|contradiction]).
    rewrite (sisdr_decomposed _ (map (fun v => v * b) y) (c * b / a) (map (fun v => v * b) n)); auto.
    + rewrite !energy_amp. assert (E1 : c * b / a * (c * b / a) * (a * a * energy s) = b * b * (c * c * energy s)) by (field; auto). rewrite E1.
      assert (P : 0 < b * b) by nra. pose proof (energy_nonneg n) as Pn. pose proof (energy_nonneg s) as Ps. set (u := c * c * energy s) in *. assert (0 <= u) by (unfold u; nra).
      unfold xdiv. destruct (Req_EM_T (energy n) 0) as [E|E].
      * rewrite E, Rmult_0_r. destruct (Req_EM_T 0 0); [|lra]. destruct (Rlt_dec 0 u); destruct (Rlt_dec 0 (b * b * u)); destruct (Rlt_dec u 0); destruct (Rlt_dec (b * b * u) 0); auto; nra.
      * destruct (Req_EM_T (b * b * energy n) 0) as [E2|E2]; [exfalso; apply Rmult_integral in E2; destruct E2; [lra|contradiction]|]. do 3 f_equal. field. repeat split; auto.
    + destruct D as (Ly & Ln & D). split; [|split]; rewrite ?map_length; auto. intros i. rewrite !get_amp, D. field. auto.
    + unfold inner in *. rewrite map_length. rewrite (sum_ext (HA := CRing_R) _ _ (fun i => (a * b) * (get s i * get n i))) by (intros; rewrite !get_amp; simpl; ring).
      rewrite (sum_scal_l (HA := CRing_R)). rewrite O. simpl. ring.
Qed.
Theorem C60_scale_invariant fs1 fs2 a b target modified : a <> 0 -> b <> 0 ->
  (forall c, In c target -> length c = rows target) -> (forall c, In c modified -> length c = rows modified) ->
  si_sdr fs1 fs2 (amplify a target) (amplify b modified) = si_sdr fs1 fs2 target modified.
Proof.
  intros Ha Hb HT HM. unfold si_sdr. destruct (negb _); auto. unfold amplify at 1 2 3 6 7. rewrite !map_length.
  destruct (negb _ && negb _) eqn:E; auto.
  assert (RE : forall g m, rows (amplify g m) = rows m) by (intros g [|c m]; auto; unfold rows; simpl; now rewrite map_length).
  rewrite !RE. destruct (Nat.eqb_spec (rows modified) (rows target)) as [ER|]; auto. cbn [negb]. f_equal. apply mk_ext. intros k Hk.
  assert (NE : forall g m i, nth i (amplify g m) [] = map (fun v => v * g) (nth i m [])) by (intros; unfold amplify; change [] with (map (fun v => v * g) []) at 1; apply (map_nth (map (fun v => v * g)))).
  rewrite !NE. apply sisdr_scale; auto. rewrite HM by (apply nth_In; auto). rewrite ER. symmetry. apply HT, nth_In.
  apply andb_false_iff in E. rewrite !negb_false_iff, !Nat.eqb_eq in E. destruct (Nat.eqb_spec (length target) 1); [lia|]. destruct E; lia.
Qed.
Print Assumptions C60_scale_invariant.
Example C60_scale_case : si_sdr 48000 48000 (amplify (-2) [[1; 1]]) (amplify 3 [[1; 0]]) = si_sdr 48000 48000 [[1; 1]] [[1; 0]].
Proof. apply C60_scale_invariant; try lra; intros c [<-|[]]; reflexivity. Qed.

(** What is refused: other sampling rates, numbers of channels that do not match, other lengths. *)
Theorem C60_refused fs1 fs2 target modified :
  (fs1 <> fs2 \/ (length target <> 1%nat /\ length modified <> length target) \/ rows modified <> rows target) <->
  si_sdr fs1 fs2 target modified = Err AssertionError.
Proof.
  unfold si_sdr. destruct (Z.eqb_spec fs2 fs1); cbn [negb]; [|split; auto; intros _; left; congruence].
  destruct (Nat.eqb_spec (length target) 1); cbn [negb andb].
  - destruct (Nat.eqb_spec (rows modified) (rows target)); cbn [negb]; split; auto; intros H; [|discriminate]. destruct H as [H|[[H _]|H]]; congruence.
  - destruct (Nat.eqb_spec (length modified) (length target)); cbn [negb].
    + destruct (Nat.eqb_spec (rows modified) (rows target)); cbn [negb]; split; auto; intros H; [|discriminate]. destruct H as [H|[[_ H]|H]]; congruence.
    + split; auto.
Qed.
Print Assumptions C60_refused.
Example C60_refused_case : si_sdr 48000 44100 [[1]] [[1]] = Err AssertionError.
Proof. apply C60_refused. left. lia. Qed.

(** ** Signal-to-noise ratio *)
(** The two variances are compared; one noise channel serves all signal channels. *)
Lemma std_sq x : std x * std x = variance x.
Proof. rewrite std_variance. apply sqrt_sqrt, variance_nonneg. Qed.
Lemma std_nonneg x : 0 <= std x.
Proof. rewrite std_variance. apply sqrt_pos. Qed.
Lemma snr1_ratio s n : ratio_db (variance s) (variance n) (snr1 s n).
Proof.
  pose proof ln10_pos as L10. unfold snr1, rms. pose proof (std_nonneg s) as Ps. pose proof (std_nonneg n) as Pn. rewrite <- (std_sq s), <- (std_sq n).
  unfold ratio_db, xdiv. repeat split; intros A B.
  - assert (0 < std s) by nra. assert (0 < std n) by nra. destruct (Req_EM_T (std n) 0); [lra|]. cbn [xlog10].
    assert (P : 0 < std s / std n) by (apply Rdiv_lt_0_compat; lra). destruct (Rlt_dec 0 (std s / std n)); [|contradiction]. cbn [xscale]. f_equal. unfold decibel.
    replace (std s * std s / (std n * std n)) with ((std s / std n) * (std s / std n)) by (field; lra). rewrite ln_mult by auto. field. lra.
  - assert (0 < std s) by nra. assert (std n = 0) by nra. destruct (Req_EM_T (std n) 0); [|lra]. destruct (Rlt_dec 0 (std s)); [reflexivity|lra].
  - assert (E : std s = 0) by nra. assert (0 < std n) by nra. destruct (Req_EM_T (std n) 0); [lra|]. cbn [xlog10]. rewrite E. replace (0 / std n) with 0 by (field; lra). destruct (Rlt_dec 0 0); [lra|]. destruct (Req_EM_T 0 0); [reflexivity|lra].
  - assert (E : std s = 0) by nra. assert (E2 : std n = 0) by nra. destruct (Req_EM_T (std n) 0); [|lra]. rewrite E. destruct (Rlt_dec 0 0); [lra|]. reflexivity.
Qed.
Theorem C60_snr fs signal noise : length noise = 1%nat \/ length signal = length noise ->
  exists v, snr fs fs signal noise = Ok v /\ length v = length signal /\
    forall k, (k < length signal)%nat ->
      ratio_db (variance (nth k signal [])) (variance (nth (if (length noise =? 1)%nat then 0 else k) noise [])) (nth k v NaN).
Proof.
  intros HC. unfold snr. rewrite Z.eqb_refl. cbn [negb].
  assert (E : negb (length noise =? 1)%nat && negb (length signal =? length noise)%nat = false).
  { destruct HC as [-> | ->]; [reflexivity|]. rewrite Nat.eqb_refl. apply andb_false_r. }
  rewrite E. eexists. split; [reflexivity|]. split; [apply mk_length|]. intros k Hk. rewrite nth_mk by auto. apply snr1_ratio.
Qed.
Print Assumptions C60_snr.
Example C60_snr_case : exists v, snr 48000 48000 [[1; -1]; [2; -2]] [[1; -1]] = Ok v /\ nth 0 v NaN = Fin (decibel 1).
Proof.
  destruct (C60_snr 48000 [[1; -1]; [2; -2]] [[1; -1]]) as (v & H & L & G); auto. exists v. split; auto.
  destruct (G 0%nat ltac:(simpl; lia)) as [F _]. cbn [nth length Nat.eqb] in F. assert (V : variance [1; -1] = 1) by (unfold variance, avg, total; simpl; field).
  rewrite V in F. rewrite F by lra. do 2 f_equal. field.
Qed.
(** A constant offset of either signal is not counted: noise that is only an offset is no noise at all, and a recording with its own
    offset has the same ratio as without. *)
Lemma variance_offset c x : variance (map (fun v => v + c) x) = variance x.
Proof.
  destruct x as [|a x]; [reflexivity|]. set (l := a :: x). assert (HL : INR (length l) <> 0) by (apply not_0_INR; simpl; lia).
  assert (T : forall l, total (map (fun v => v + c) l) = total l + INR (length l) * c).
  { induction l0 as [|b l0 IH]. simpl. unfold total. simpl. ring. cbn [map]. change (total ((b + c) :: map (fun v => v + c) l0)) with (b + c + total (map (fun v => v + c) l0)). change (total (b :: l0)) with (b + total l0). rewrite IH. cbn [length]. rewrite S_INR. ring. }
  assert (A : avg (map (fun v => v + c) l) = avg l + c) by (unfold avg; rewrite T, map_length; field; auto).
  unfold variance. rewrite A, map_map. unfold avg. rewrite !map_length. do 2 f_equal. apply map_ext. intros. ring.
Qed.
Theorem C60_offset_refuted fs signal noise c d :
  snr fs fs (map (map (fun v => v + c)) signal) (map (map (fun v => v + d)) noise) = snr fs fs signal noise.
Proof.
  unfold snr. rewrite Z.eqb_refl, !map_length. cbn [negb]. destruct (_ && _); auto. f_equal. apply mk_ext. intros k Hk.
  assert (NE : forall g m i, nth i (map (map (fun v => v + g)) m) [] = map (fun v => v + g) (nth i m [])) by (intros; change [] with (map (fun v => v + g) []) at 1; apply (map_nth (map (fun v => v + g)))).
  rewrite !NE. eapply ratio_unique; [apply variance_nonneg|apply variance_nonneg| |apply snr1_ratio].
  rewrite <- (variance_offset c (nth k signal [])). rewrite <- (variance_offset d (nth (if (length noise =? 1)%nat then 0 else k) noise [])) at 1. apply snr1_ratio.
Qed.
Print Assumptions C60_offset_refuted.
Example C60_offset_case : exists v, snr 48000 48000 [[1; -1]] [[5; 5]] = Ok v /\ nth 0 v NaN = PInf.
Proof.
  destruct (C60_snr 48000 [[1; -1]] [[5; 5]]) as (v & H & L & G); auto. exists v. split; auto. destruct (G 0%nat ltac:(simpl; lia)) as (_ & F & _). apply F.
  unfold variance, avg, total; simpl; lra. unfold variance, avg, total; simpl; lra.
Qed.
(** Changing the level of the signal by g dB changes the ratio by g dB, of the noise by -g dB; exchanging the two changes the sign. *)
Theorem C60_snr_laws s n a b : 0 < variance s -> 0 < variance n -> a <> 0 -> b <> 0 ->
  exists v, snr1 s n = Fin v /\ snr1 n s = Fin (- v) /\ snr1 (map (fun x => x * a) s) (map (fun x => x * b) n) = Fin (v + decibel (a * a) - decibel (b * b)).
Proof.
  intros Hs Hn Ha Hb. assert (Pa : 0 < a * a) by nra. assert (Pb : 0 < b * b) by nra. pose proof ln10_pos as L10.
  pose proof (variance_scale a s) as E1. pose proof (variance_scale b n) as E2. unfold scale in E1, E2.
  destruct (snr1_ratio s n) as [F1 _]. destruct (snr1_ratio n s) as [F2 _]. destruct (snr1_ratio (map (fun x => x * a) s) (map (fun x => x * b) n)) as [F3 _].
  rewrite E1, E2 in F3. exists (decibel (variance s / variance n)). split; [now apply F1|]. split.
  - rewrite F2 by auto. f_equal. unfold decibel. rewrite !ln_quot by auto. field. lra.
  - rewrite F3 by nra. f_equal. unfold decibel. rewrite !ln_quot by nra. rewrite (ln_mult (variance s)), (ln_mult (variance n)) by auto. field. lra.
Qed.
Print Assumptions C60_snr_laws.
Example C60_snr_laws_case : 0 < variance [1; -1] /\ 0 < variance [2; 0].
Proof. unfold variance, avg, total; simpl; lra. Qed.
