(** Property C89: calibration of signals with a recorded tone. *)
From Coq Require Import List Arith Lia ZArith Bool Reals Lra Psatz.
From Verif Require Import Alg Spec M_arrays M_signal P_arrays P_signal M_dynamics M_level M_calib Claims_level.
Import ListNotations.
Local Open Scope R_scope.

(** ** Specification *)
(** effective value of the alternating part of a channel *)
Definition dev (x : list R) : R := sqrt (variance x).
(** dB(SPL) of a pressure in Pa: re 20 uPa *)
Definition spl (p : R) : R := level true (p / (20 / 10 ^ 6)).
(** one signal is what another one becomes with the gain g in channel c *)
Definition amplified (s y : signal) (c : nat) (g : R) : Prop :=
  length (nth c (s_re y) []) = length (nth c (s_re s) []) /\ forall i, nth i (nth c (s_re y) []) 0 = g * nth i (nth c (s_re s) []) 0.
(** the recording of channel c: the only channel or the channel with this number *)
Definition tone (m : mat) (c : nat) : list R := match m with [x] => x | _ => nth c m [] end.

(** ** Auxiliary facts *)
Lemma dev_scale g x : 0 <= g -> dev (scale g x) = dev x * g.
Proof.
  intros H. unfold dev. rewrite variance_scale. rewrite sqrt_mult. rewrite sqrt_square; auto. apply variance_nonneg. apply Rle_0_sqr.
Qed.
Lemma rms_dev x : rms x = dev x.
Proof. apply std_variance. Qed.
Lemma pressure_pos v : 0 < pressure v.
Proof. unfold pressure. apply Rmult_lt_0_compat. apply exp_pos. lra. Qed.
Lemma spl_pressure v : spl (pressure v) = v.
Proof. unfold spl, pressure. replace (Rpower 10 (v / 20) * (20 / 10 ^ 6) / (20 / 10 ^ 6)) with (from_db true v) by (unfold from_db, db_factor; field). apply level_from. Qed.
Lemma times_ok gs m : length gs = length m -> times (map Some gs) m = Some (mk (length m) (fun c => scale (nth c gs 0) (nth c m []))).
Proof.
  intros L. unfold times. assert (E : combine (map Some gs) m = map (fun p => (Some (fst p), snd p)) (combine gs m)).
  { clear L. revert m. induction gs; intros [|x m]; simpl; auto. now rewrite IHgs. }
  rewrite E, map_map. cbn [fst snd option_map]. rewrite (opt_seq_map _ (fun p => scale (fst p) (snd p))) by auto. f_equal.
  apply (list_eq_nth []). { rewrite map_length, combine_length, mk_length. lia. } intros c Hc. rewrite map_length, combine_length in Hc. rewrite nth_mk by lia.
  rewrite (nth_map' _ _ c (0, []) []) by (rewrite combine_length; lia). rewrite combine_nth by auto. reflexivity.
Qed.
Lemma mk_shape m n k (g : nat -> R) : shape m n k -> shape (mk k (fun c => scale (g c) (nth c m []))) n k.
Proof.
  intros (L1 & L2). split; [apply mk_length|]. apply Forall_forall. intros x Hx. apply in_map_iff in Hx as (c & <- & Hc). apply in_seq in Hc. unfold scale. rewrite map_length. apply (shape_col m n k); [split|]; auto. lia.
Qed.
Definition gain (m : mat) (v : R) (c : nat) : R := pressure v / dev (tone m c).
Definition calibrated (m : mat) (v : R) (s : signal) : signal := mkSig (mk (length (s_re s)) (fun c => scale (gain m v c) (nth c (s_re s) []))) None 1 false (s_fs s).
Definition usable (m : mat) : Prop := m <> [] /\ forall x, In x m -> 0 < dev x.
Definition fits (m : mat) (k : nat) (sigs : list signal) : Prop := sigs <> [] /\ (forall s, In s sigs -> exists n, sig_ok s n k) /\ (length m = 1%nat \/ length m = k).
Lemma tone_in m c : m <> [] -> (length m = 1%nat \/ c < length m)%nat -> In (tone m c) m.
Proof. intros N H. destruct m as [|x [|y m]]; [easy|simpl; auto|]. unfold tone. apply nth_In. simpl in *. lia. Qed.
Lemma factors_ok s v : usable (s_re s) -> factors_of s v = map Some (map (fun x => pressure v / dev x) (s_re s)).
Proof.
  intros (_ & H). unfold factors_of. rewrite map_map. apply map_ext_in. intros x Hx. rewrite rms_dev. unfold div_opt. specialize (H x Hx). destruct (Req_EM_T (dev x) 0); [lra|auto].
Qed.
Lemma one_ok m v k n s (gs : list R) : sig_ok s n k -> length gs = k -> (forall c, (c < k)%nat -> nth c gs 0 = gain m v c) -> calibrate_one (map Some gs) s = Some (Ok (calibrated m v s)).
Proof.
  intros H L G. unfold calibrate_one. pose proof (ok_re _ _ _ H) as Sh. pose proof Sh as (L1 & _). rewrite times_ok by lia. cbn [option_map]. rewrite L1.
  assert (E : mk k (fun c => scale (nth c gs 0) (nth c (s_re s) [])) = mk k (fun c => scale (gain m v c) (nth c (s_re s) []))). { unfold mk. apply map_ext_in. intros c Hc. apply in_seq in Hc. now rewrite G by lia. }
  rewrite E. rewrite (set_real false (s_fs s) _ n k). unfold calibrated. now rewrite L1. now apply mk_shape. apply (ok_k _ _ _ H). apply (ok_kn _ _ _ H). apply (ok_n _ _ _ H).
Qed.
Lemma map_some_repeat (a : R) k : map Some (repeat a k) = repeat (Some a) k.
Proof. induction k; simpl; congruence. Qed.
Lemma calibrate_with sigs (m : mat) v k f : usable m -> fits m k sigs -> f = map Some (map (fun x => pressure v / dev x) m) ->
  (if (1 <? length f)%nat then if (match sigs with s :: _ => ncols (s_re s) | [] => 0%nat end =? length f)%nat then Ok (opt_seq (map (calibrate_one f) sigs)) else Err AssertionError
   else Ok (opt_seq (map (calibrate_one (repeat (hd None f) match sigs with s :: _ => ncols (s_re s) | [] => 0%nat end)) sigs))) = Ok (Some (map (fun s => Ok (calibrated m v s)) sigs)).
Proof.
  intros (U1 & U2) (F1 & F2 & F3) ->. rewrite !map_length. destruct sigs as [|s0 sigs]; [easy|]. set (all := s0 :: sigs) in *. destruct (F2 s0 (or_introl eq_refl)) as (n0 & O0).
  replace (ncols (s_re s0)) with k by (symmetry; apply (shape_ncols _ n0), (ok_re _ _ _ O0)).
  destruct (Nat.ltb_spec 1 (length m)).
  - assert (E : k = length m) by lia. rewrite E, Nat.eqb_refl. do 2 f_equal. apply opt_seq_map. intros s Hs. destruct (F2 s Hs) as (n & O). apply (one_ok m v k n); auto. now rewrite map_length.
    intros c Hc. rewrite (nth_map' _ m c [] 0) by lia. unfold gain, tone. destruct m as [|x [|y m]]; auto; simpl in *; lia.
  - destruct m as [|x [|y m]]; [easy| |simpl in *; lia]. cbn [map hd]. do 2 f_equal. apply opt_seq_map. intros s Hs. destruct (F2 s Hs) as (n & O). rewrite <- map_some_repeat. apply (one_ok [x] v k n); auto. apply repeat_length.
    intros c Hc. rewrite (nth_indep _ 0 (pressure v / dev x)) by (now rewrite repeat_length). apply nth_repeat.
Qed.
Lemma calibrate_value c sigs force k : force = true \/ c_update c = true -> c_high c = true -> usable (s_re (c_sig c)) -> fits (s_re (c_sig c)) k sigs ->
  calibrate_signal sigs force c = (mkCal (c_sig c) (c_spl c) true false (factors_of (c_sig c) (c_spl c)) (c_named c), Ok (Some (map (fun s => Ok (calibrated (s_re (c_sig c)) (c_spl c) s)) sigs))).
Proof.
  intros Hf Hh U F. unfold calibrate_signal. set (c1 := if force then _ else _).
  assert (E : c_sig c1 = c_sig c /\ c_spl c1 = c_spl c /\ c_high c1 = true /\ c_update c1 = true /\ c_named c1 = c_named c) by (unfold c1; destruct force; cbn; repeat (split; auto); destruct Hf; auto; discriminate).
  destruct E as (E1 & E2 & E3 & E4 & E5). unfold compute_factors. rewrite E4, E3, E1, E2, E5. cbn [c_factors].
  pose proof (calibrate_with sigs (s_re (c_sig c)) (c_spl c) k (factors_of (c_sig c) (c_spl c)) U F (factors_ok _ _ U)) as V.
  destruct (1 <? _)%nat. { destruct (_ =? _)%nat. now rewrite V. discriminate. } now rewrite V.
Qed.
Lemma calibrated_amplified m v s c : (c < length (s_re s))%nat -> amplified s (calibrated m v s) c (gain m v c).
Proof.
  intros Hc. unfold amplified, calibrated. cbn [s_re]. rewrite nth_mk by auto. split. apply scale_length. intros i. unfold scale. destruct (Nat.lt_ge_cases i (length (nth c (s_re s) []))). rewrite (nth_map' _ _ i 0 0) by auto. ring.
  rewrite !nth_overflow by (rewrite ?map_length; auto). ring.
Qed.

(** ** C89 *)
(** A calibrated signal is the signal with one gain per channel: the one with which the recorded tone of this channel has the given dB(SPL).
    The amplitude is not constrained. The same holds for every band of a multi-band signal. *)
Theorem C89_calibrated : forall (c : calib) (sigs : list signal) (force : bool) (k : nat), force = true \/ c_update c = true -> c_high c = true -> usable (s_re (c_sig c)) -> fits (s_re (c_sig c)) k sigs ->
  exists ys, snd (calibrate_signal sigs force c) = Ok (Some (map Ok ys)) /\
    Forall2 (fun s y => s_fs y = s_fs s /\ s_constr y = false /\ s_scale y = 1 /\ length (s_re y) = k /\
      forall ch, (ch < k)%nat -> exists g, 0 < g /\ amplified s y ch g /\ spl (dev (map (Rmult g) (tone (s_re (c_sig c)) ch))) = c_spl c) sigs ys.
Proof.
  intros c sigs force k Hf Hh U F. exists (map (calibrated (s_re (c_sig c)) (c_spl c)) sigs). rewrite (calibrate_value c sigs force k) by auto. cbn [snd]. split. { now rewrite map_map. }
  destruct F as (_ & F2 & F3). assert (A : forall s, In s sigs -> length (s_re s) = k). { intros s Hs. destruct (F2 s Hs) as (n & O). apply (ok_re _ _ _ O). } clear F2.
  induction sigs as [|s sigs IH]; simpl; constructor; [|apply IH; intros; apply A; now right]. assert (L := A s (or_introl eq_refl)). unfold calibrated at 1 2 3 4. cbn [s_fs s_constr s_scale s_re]. rewrite mk_length. repeat (split; auto).
  intros ch Hch. exists (gain (s_re (c_sig c)) (c_spl c) ch). assert (T : 0 < dev (tone (s_re (c_sig c)) ch)). { destruct U as (U1 & U2). apply U2, tone_in; auto. lia. }
  assert (G : 0 < gain (s_re (c_sig c)) (c_spl c) ch) by (unfold gain; apply Rdiv_lt_0_compat; auto; apply pressure_pos). split; auto. split. { apply calibrated_amplified. lia. }
  set (x := tone _ _) in *. set (g := gain _ _ _) in *. replace (map (Rmult g) x) with (scale g x) by (unfold scale; apply map_ext; intros; ring). rewrite dev_scale by lra. unfold g, gain. fold x.
  replace (dev x * (pressure (c_spl c) / dev x)) with (pressure (c_spl c)) by (field; lra). apply spl_pressure.
Qed.
Print Assumptions C89_calibrated.
(** a tone of two samples, a signal of two channels *)
Definition beep : signal := mkSig [[1 / 10; - (1 / 10)]] None 1 false 48000.
Definition noise2 : signal := mkSig [[1; 0; 1]; [2; -3; 0]] None 1 false 48000.
Lemma dev_beep a : 0 <= a -> dev [a; - a] = a.
Proof.
  intros H. unfold dev, variance, avg, total. simpl. replace ((((a - (a + (- a + 0)) / (1 + 1)) * (a - (a + (- a + 0)) / (1 + 1)) + ((- a - (a + (- a + 0)) / (1 + 1)) * (- a - (a + (- a + 0)) / (1 + 1)) + 0)) / (1 + 1))) with (a * a) by field. now apply sqrt_square.
Qed.
Example C89_calibrated_case : let c := new_calib beep 94 true in usable (s_re (c_sig c)) /\ fits (s_re (c_sig c)) 2 [noise2].
Proof.
  split. { split; [discriminate|]. intros x [<-|[]]. rewrite dev_beep; lra. } split; [discriminate|]. split; [|now left]. intros s [<-|[]]. exists 3%nat.
  constructor; simpl; try lia; try discriminate. split; [reflexivity|repeat constructor].
Qed.
(** The recorded tone itself gets the given level. *)
Theorem C89_tone : forall (c : calib) (force : bool) (n k : nat), force = true \/ c_update c = true -> c_high c = true -> sig_ok (c_sig c) n k -> usable (s_re (c_sig c)) ->
  exists y, snd (calibrate_signal [c_sig c] force c) = Ok (Some [Ok y]) /\ length (s_re y) = k /\ forall x, In x (s_re y) -> spl (dev x) = c_spl c.
Proof.
  intros c force n k Hf Hh O U. pose proof (ok_re _ _ _ O) as (L1 & L2). assert (F : fits (s_re (c_sig c)) k [c_sig c]). { split; [discriminate|]. split. { intros s [<-|[]]. eauto. } auto. }
  rewrite (calibrate_value c _ force k) by auto. eexists. split; [reflexivity|]. unfold calibrated. cbn [s_re]. rewrite mk_length. split; auto. intros x Hx. apply in_map_iff in Hx as (ch & <- & Hch). apply in_seq in Hch.
  assert (T : tone (s_re (c_sig c)) ch = nth ch (s_re (c_sig c)) []). { unfold tone. destruct (s_re (c_sig c)) as [|y [|z m]]; auto. simpl in L1. destruct ch; auto. simpl in Hch. lia. }
  assert (P : 0 < dev (nth ch (s_re (c_sig c)) [])). { apply U. apply nth_In. lia. } unfold gain. rewrite T. rewrite dev_scale. 2:{ left. apply Rdiv_lt_0_compat; auto. apply pressure_pos. }
  replace (dev _ * (pressure (c_spl c) / dev _)) with (pressure (c_spl c)) by (field; lra). apply spl_pressure.
Qed.
Print Assumptions C89_tone.
(** Levels of a calibrated signal: dB(SPL) is the given level plus the level difference to the recording. *)
Theorem C89_levels : forall (c : calib) (s : signal) (force : bool) (k ch : nat), force = true \/ c_update c = true -> c_high c = true -> usable (s_re (c_sig c)) -> fits (s_re (c_sig c)) k [s] -> (ch < k)%nat -> 0 < dev (nth ch (s_re s) []) ->
  exists y, snd (calibrate_signal [s] force c) = Ok (Some [Ok y]) /\ spl (dev (nth ch (s_re y) [])) = c_spl c + level true (dev (nth ch (s_re s) [])) - level true (dev (tone (s_re (c_sig c)) ch)).
Proof.
  intros c s force k ch Hf Hh U F Hch Hd. assert (Lk : length (s_re s) = k). { destruct F as (_ & F & _). destruct (F s (or_introl eq_refl)) as (n & O). apply (ok_re _ _ _ O). }
  assert (T : 0 < dev (tone (s_re (c_sig c)) ch)). { destruct U as (U1 & U2). apply U2, tone_in; auto. destruct F as (_ & _ & F). lia. }
  rewrite (calibrate_value c _ force k) by auto. eexists. split; [reflexivity|]. unfold calibrated. cbn [s_re]. rewrite nth_mk by lia. unfold gain. set (x := nth ch _ _) in *. set (t := tone _ _) in *. pose proof (pressure_pos (c_spl c)) as PP.
  rewrite dev_scale by (left; apply Rdiv_lt_0_compat; auto). unfold spl. replace (dev x * (pressure (c_spl c) / dev t) / (20 / 10 ^ 6)) with (pressure (c_spl c) / (20 / 10 ^ 6) * (dev x * / dev t)) by (field; lra).
  assert (I : 0 < / dev t) by (now apply Rinv_0_lt_compat). rewrite level_mul; [|apply Rdiv_lt_0_compat; lra|nra]. rewrite level_mul by auto. fold (spl (pressure (c_spl c))). rewrite spl_pressure.
  replace (level true (/ dev t)) with (- level true (dev t)). ring. unfold level. rewrite ln_Rinv by auto. unfold Rdiv. ring.
Qed.
Print Assumptions C89_levels.
Example C89_levels_case : let c := new_calib beep 94 true in fits (s_re (c_sig c)) 1 [mkSig [[1; -1]] None 1 false 48000] /\ 0 < dev [1; -1].
Proof.
  split. { split; [discriminate|]. split; [|now left]. intros s [<-|[]]. exists 2%nat. constructor; simpl; try lia; try discriminate. split; [reflexivity|repeat constructor]. }
  replace [1; -1] with [1; - (1)] by (repeat f_equal; lra). rewrite dev_beep; lra.
Qed.
(** A constant offset of the recording changes nothing. *)
Theorem C89_offset : forall (s s' : signal) (v : R) (o : nat -> R), length (s_re s') = length (s_re s) -> (forall ch, (ch < length (s_re s))%nat -> nth ch (s_re s') [] = map (Rplus (o ch)) (nth ch (s_re s) [])) ->
  factors_of s' v = factors_of s v.
Proof.
  intros s s' v o L H. unfold factors_of. apply (list_eq_nth None). now rewrite !map_length. intros ch Hch. rewrite map_length in Hch. rewrite !(nth_map' _ _ ch [] None) by lia. rewrite H by lia. f_equal. rewrite !rms_dev. unfold dev. f_equal.
  set (x := nth ch (s_re s) []). destruct x as [|a x'] eqn:Ex; [reflexivity|]. rewrite <- Ex. assert (N : 0 < INR (length x)) by (rewrite Ex; apply inr_pos; discriminate).
  assert (T : total (map (Rplus (o ch)) x) = INR (length x) * o ch + total x). { clear. induction x; simpl. lra. change (total (a :: x)) with (a + total x). change (total ((o ch + a) :: map (Rplus (o ch)) x)) with (o ch + a + total (map (Rplus (o ch)) x)). rewrite IHx. destruct (length x) eqn:E; [simpl; lra|]. ring. }
  assert (A : avg (map (Rplus (o ch)) x) = o ch + avg x). { unfold avg. rewrite T, map_length. field. lra. }
  unfold variance. rewrite A, map_map. f_equal. apply map_ext. intros w. ring.
Qed.
Print Assumptions C89_offset.
Example C89_offset_case : let s := mkSig [[1 / 10; - (1 / 10)]] None 1 false 48000 in let s' := mkSig [[2; 2 - 2 / 10]] None 1 false 48000 in
  nth 0 (s_re s') [] = map (Rplus (19 / 10)) (nth 0 (s_re s) []).
Proof. simpl. f_equal; [lra|]. f_equal; lra. Qed.
(** *** Histories *)
(** the recording and the level at present, and those of the last computation; new calibration channels and the force flag ask for a new one *)
Definition view : Type := (signal * R) * option (signal * R).
Definition look (w : view) (force : bool) : signal * R := if force then fst w else match snd w with Some u => u | None => fst w end.
Definition watch (w : view) (o : cal_op) : view :=
  match o with
  | AddChannel s a => match append_signals a true (fst (fst w)) [s] with Ok s' => ((s', snd (fst w)), None) | Err _ => w end
  | SetLevel v => ((fst (fst w), v), snd w)
  | SetRecording s => ((s, snd (fst w)), snd w)
  | Calibrate l f => (fst w, Some (look w f))
  end.
Definition follows (w : view) (c : calib) : Prop :=
  c_high c = true /\ c_sig c = fst (fst w) /\ c_spl c = snd (fst w) /\ match snd w with None => c_update c = true | Some u => c_update c = false /\ c_factors c = factors_of (fst u) (snd u) end.
Lemma used_factors w c l f : follows w c -> let c' := fst (calibrate_signal l f c) in c_high c' = true /\ c_sig c' = c_sig c /\ c_spl c' = c_spl c /\ c_update c' = false /\ c_factors c' = factors_of (fst (look w f)) (snd (look w f)).
Proof.
  intros (H1 & H2 & H3 & H4). unfold calibrate_signal. set (c1 := if f then _ else _). assert (E : c_high c1 = true /\ c_sig c1 = c_sig c /\ c_spl c1 = c_spl c) by (unfold c1; destruct f; auto). destruct E as (E1 & E2 & E3).
  assert (K : exists c2, compute_factors c1 = (c2, Ok tt) /\ c_high c2 = true /\ c_sig c2 = c_sig c /\ c_spl c2 = c_spl c /\ c_update c2 = false /\ c_factors c2 = factors_of (fst (look w f)) (snd (look w f))).
  { unfold compute_factors. destruct (c_update c1) eqn:U.
    - rewrite E1. eexists. split; [reflexivity|]. cbn. rewrite E2, E3, H2, H3. repeat (split; auto). unfold look. destruct f; auto. destruct (snd w); auto. exfalso. unfold c1 in U. destruct H4. congruence.
    - exists c1. split; auto. repeat (split; auto). unfold c1 in *. destruct f; [discriminate|]. unfold look. destruct (snd w). apply H4. congruence. }
  destruct K as (c2 & -> & K). cbv zeta. destruct (1 <? _)%nat; [destruct (_ =? _)%nat|]; exact K.
Qed.
Lemma watch_ok w c o : follows w c -> follows (watch w o) (cal_step c o).
Proof.
  intros F. pose proof F as (H1 & H2 & H3 & H4). destruct o as [s a|v|s|l f].
  - unfold cal_step, add_calibration_channel, watch. rewrite H2. destruct (append_signals a true (fst (fst w)) [s]); cbn [fst]; auto. repeat (split; auto).
  - repeat (split; auto).
  - repeat (split; auto).
  - destruct (used_factors w c l f F) as (A1 & A2 & A3 & A4 & A5). cbn [cal_step]. repeat (split; cbn [watch fst snd]; try congruence).
Qed.
(** For every history of an object: a call uses the recording and the level it sees: those of the present, or those of the last computation
    when nothing was added since and the update is not forced. *)
Theorem C89_history : forall (s : signal) (v : R) (ops : list cal_op) (sigs : list signal) (force : bool),
  let u := look (fold_left watch ops ((s, v), None)) force in
  snd (calibrate_signal sigs force (fold_left cal_step ops (new_calib s v true))) = snd (calibrate_signal sigs true (new_calib (fst u) (snd u) true)).
Proof.
  intros s v ops sigs force. assert (F : follows (fold_left watch ops ((s, v), None)) (fold_left cal_step ops (new_calib s v true))).
  { assert (G : follows ((s, v), None) (new_calib s v true)) by (repeat (split; auto)). revert G. generalize ((s, v), @None (signal * R)) (new_calib s v true). induction ops as [|o ops IH]; intros w c G; simpl; auto. apply IH. now apply watch_ok. }
  set (w := fold_left watch ops _) in *. set (c := fold_left cal_step ops _) in *. cbv zeta. set (u := look w force).
  assert (V : forall c f g, c_factors (fst (calibrate_signal sigs f c)) = g -> c_high c = true -> snd (calibrate_signal sigs f c) =
    let k := match sigs with s :: _ => ncols (s_re s) | [] => 0%nat end in
    if (1 <? length g)%nat then if (k =? length g)%nat then Ok (opt_seq (map (calibrate_one g) sigs)) else Err AssertionError else Ok (opt_seq (map (calibrate_one (repeat (hd None g) k)) sigs))).
  { clear. intros c f g E H. unfold calibrate_signal in *. set (c1 := if f then _ else _) in *. assert (H1 : c_high c1 = true) by (unfold c1; destruct f; auto). assert (K : exists c2, compute_factors c1 = (c2, Ok tt)).
    { unfold compute_factors. rewrite H1. destruct (c_update c1); eauto. } destruct K as (c2 & K). rewrite K in *. cbv zeta in *. assert (G : c_factors c2 = g). { destruct (1 <? _)%nat; [destruct (_ =? _)%nat|]; exact E. } rewrite G. clear E. destruct (1 <? _)%nat; [destruct (_ =? _)%nat|]; reflexivity. }
  destruct (used_factors w c sigs force F) as (_ & _ & _ & _ & A). fold u in A. rewrite (V c force _ A) by apply F. symmetry. apply V; auto.
  assert (G : follows ((fst u, snd u), None) (new_calib (fst u) (snd u) true)) by (repeat (split; auto)). now destruct (used_factors _ _ sigs true G) as (_ & _ & _ & _ & B).
Qed.
Print Assumptions C89_history.
(** Without changes by hand every call uses the present recording. *)
Theorem C89_never_stale : forall (s : signal) (v : R) (ops : list cal_op) (sigs : list signal) (force : bool), Forall (fun o => match o with SetLevel _ | SetRecording _ => False | _ => True end) ops ->
  let c := fold_left cal_step ops (new_calib s v true) in snd (calibrate_signal sigs force c) = snd (calibrate_signal sigs true (new_calib (c_sig c) v true)).
Proof.
  intros s v ops sigs force H c. unfold c at 1. rewrite C89_history.
  assert (G : forall w c, follows w c -> snd (fst w) = v -> (match snd w with Some u => u = fst w | None => True end) -> let w' := fold_left watch ops w in let c' := fold_left cal_step ops c in follows w' c' /\ snd (fst w') = v /\ match snd w' with Some u => u = fst w' | None => True end).
  { clear c. induction H as [|o ops Ho Hs IH]; intros w c F E P; simpl; auto. apply IH. now apply watch_ok.
    - destruct o; cbn [watch]; auto; try easy. destruct (append_signals _ _ _ _); auto.
    - destruct o as [s1 a|?|?|l f]; cbn [watch]; try easy. destruct (append_signals _ _ _ _); auto. cbn [fst snd]. unfold look. destruct f; auto. destruct (snd w); auto. }
  destruct (G ((s, v), None) (new_calib s v true)) as (G1 & G2 & G3). repeat (split; auto). auto. exact I. fold c in G1. set (w := fold_left watch ops _) in *. destruct G1 as (_ & G1 & _).
  assert (L : look w force = fst w). { unfold look. destruct force; auto. destruct (snd w); auto. } rewrite L, G1. f_equal. f_equal. f_equal. exact G2.
Qed.
Print Assumptions C89_never_stale.
Example C89_never_stale_case : let c := fold_left cal_step [Calibrate [beep] false; AddChannel beep false] (new_calib beep 94 true) in
  c_update c = true /\ length (s_re (c_sig c)) = 2%nat.
Proof. unfold cal_step, add_calibration_channel. cbn [fold_left]. destruct (used_factors ((beep, 94), None) (new_calib beep 94 true) [beep] false) as (_ & -> & _). repeat (split; auto). simpl. auto. Qed.
(** A level changed by hand is not used by the calls that follow until one of them is forced or a channel is added. *)
Theorem C89_changed_level_refuted : forall (s : signal) (v w : R) (before after : list signal), v <> w -> usable (s_re s) ->
  let c := cal_step (cal_step (new_calib s v true) (Calibrate before false)) (SetLevel w) in
  c_spl c = w /\ snd (calibrate_signal after false c) = snd (calibrate_signal after true (new_calib s v true)) /\ factors_of s v <> factors_of s w.
Proof.
  intros s v w before after Hn U c. split; [reflexivity|]. split. { exact (C89_history s v [Calibrate before false; SetLevel w] after false). }
  rewrite !factors_ok by auto. intros E. destruct U as (U1 & U2). destruct (s_re s) as [|x m]; [easy|]. simpl in E. injection E as E _. specialize (U2 x (or_introl eq_refl)).
  apply Hn. rewrite <- (spl_pressure v), <- (spl_pressure w). f_equal. apply (Rmult_eq_reg_r (/ dev x)); auto. apply Rinv_neq_0_compat. lra.
Qed.
Print Assumptions C89_changed_level_refuted.
Example C89_changed_level_case : usable (s_re beep) /\ 94 <> 114.
Proof. split; [apply (proj1 C89_calibrated_case)|lra]. Qed.
(** Recordings with little signal-to-noise ratio cannot be used: every first call raises an AttributeError, and the recording, which is the
    caller's signal, cannot give its spectrum any more. *)
Theorem C89_low_snr_refuted : forall (s : signal) (v : R) (sigs : list signal) (force : bool),
  let c := new_calib s v false in recording_spectrum c = Ok tt /\ snd (calibrate_signal sigs force c) = Err AttributeError /\ recording_spectrum (fst (calibrate_signal sigs force c)) = Err AttributeError /\
    c_sig (fst (calibrate_signal sigs force c)) = s /\ snd (calibrate_signal sigs force (fst (calibrate_signal sigs force c))) = Err AttributeError.
Proof. intros s v sigs [|] c; repeat (split; [reflexivity|]); reflexivity. Qed.
Print Assumptions C89_low_snr_refuted.
(** As many channels as in the recording are needed, unless it has one channel. *)
Theorem C89_channel_count : forall (c : calib) (s : signal) (force : bool), force = true \/ c_update c = true -> c_high c = true -> (1 < length (s_re (c_sig c)))%nat -> length (s_re s) <> length (s_re (c_sig c)) ->
  snd (calibrate_signal [s] force c) = Err AssertionError.
Proof.
  intros c s force Hf Hh H1 H2. unfold calibrate_signal. set (c1 := if force then _ else _).
  assert (E : c_sig c1 = c_sig c /\ c_high c1 = true /\ c_update c1 = true) by (unfold c1; destruct force; cbn; repeat (split; auto); destruct Hf; auto; discriminate). destruct E as (E1 & E2 & E3).
  unfold compute_factors. rewrite E2, E3, E1. cbv zeta. cbn [c_factors]. unfold factors_of. rewrite map_length. destruct (Nat.ltb_spec 1 (length (s_re (c_sig c)))); [|lia]. unfold ncols. destruct (Nat.eqb_spec (length (s_re s)) (length (s_re (c_sig c)))); [lia|reflexivity].
Qed.
Print Assumptions C89_channel_count.
Example C89_channel_count_case : (1 < length (s_re noise2))%nat /\ length (s_re beep) <> length (s_re noise2).
Proof. simpl. lia. Qed.
(** The imaginary part of a complex signal is lost. *)
Theorem C89_complex_refuted : forall (c : calib) (s : signal) (force : bool) (y : signal), snd (calibrate_signal [s] force c) = Ok (Some [Ok y]) -> s_im y = None.
Proof.
  intros c s force y H. assert (G : forall f, opt_seq (map (calibrate_one f) [s]) = Some [Ok y] -> s_im y = None).
  { intros f. cbn [map opt_seq]. unfold calibrate_one. destruct (times f (s_re s)); [|discriminate]. cbn [option_map]. unfold set_time_data. cbn [i_re i_im i_int]. destruct (_ && _); [discriminate|]. intros E. injection E as <-. reflexivity. }
  unfold calibrate_signal in H. set (c1 := if force then _ else _) in *. destruct (compute_factors c1) as [c2 [u|e]]; [|discriminate]. cbv zeta in H. destruct (1 <? _)%nat; [destruct (_ =? _)%nat|]; cbn [snd] in H; try discriminate; injection H as H; eapply G; exact H.
Qed.
Print Assumptions C89_complex_refuted.
Example C89_complex_case : let s := mkSig [[1; -1]] (Some [[1; 1]]) 1 false 48000 in exists y, snd (calibrate_signal [s] false (new_calib beep 94 true)) = Ok (Some [Ok y]) /\ s_im s <> None.
Proof.
  intros s. destruct C89_calibrated_case as (U & _). assert (F : fits (s_re beep) 1 [s]). { split; [discriminate|]. split; [|now left]. intros x [<-|[]]. exists 2%nat. constructor; simpl; try lia; try discriminate. split; [reflexivity|repeat constructor]. intros im E. injection E as <-. split; [reflexivity|repeat constructor]. }
  rewrite (calibrate_value (new_calib beep 94 true) [s] false 1) by auto. eexists. split; [reflexivity|discriminate].
Qed.
(** A silent or constant recording gives no finite samples. *)
Theorem C89_silent_recording_refuted : forall (c : calib) (s : signal) (force : bool) (x : list R), force = true \/ c_update c = true -> c_high c = true -> s_re (c_sig c) = [x] -> dev x = 0 -> s_re s <> [] -> snd (calibrate_signal [s] force c) = Ok None.
Proof.
  intros c s force x Hf Hh Hr Hd Hs. unfold calibrate_signal. set (c1 := if force then _ else _).
  assert (E : c_sig c1 = c_sig c /\ c_high c1 = true /\ c_update c1 = true) by (unfold c1; destruct force; cbn; repeat (split; auto); destruct Hf; auto; discriminate). destruct E as (E1 & E2 & E3).
  unfold compute_factors. rewrite E2, E3, E1. cbv zeta. cbn [c_factors]. unfold factors_of. rewrite Hr. cbn [map length]. cbn [Nat.ltb Nat.leb hd snd]. rewrite rms_dev, Hd. unfold div_opt. destruct (Req_EM_T 0 0); [|lra]. unfold calibrate_one, times, ncols. destruct (s_re s) as [|y m]; [easy|]. reflexivity.
Qed.
Print Assumptions C89_silent_recording_refuted.
Example C89_silent_recording_case : dev [1; 1; 1] = 0.
Proof. unfold dev, variance, avg, total. simpl. replace (_ / (1 + 1 + 1)) with 0 by field. apply sqrt_0. Qed.
