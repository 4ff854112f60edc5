(** C73: spectral deconvolution. *)
From Coq Require Import List Arith Lia ZArith Bool Reals Lra Lia.
From Verif Require Import Alg Spec Dft M_arrays M_signal M_block M_scaling M_latency M_level M_distances M_tf M_ir.
From Verif Require Import P_arrays P_parseval P_dft2 P_block Claims_scaling Claims_tf Claims_signal Claims_room Claims_das P_ir.
Import ListNotations.
Local Open Scope R_scope.

(** ** Facts about bins *)
Lemma dft_zero_real n x : snd (dft n x 0) = 0.
Proof.
  unfold dft. rewrite csum_snd. apply (sum_zero' (HA := CRing_R)). intros t Ht. change (@rmul C CRing_C) with cmul.
  replace (- (Z.of_nat t * Z.of_nat 0))%Z with 0%Z by lia. rewrite root_0. simpl. change (@r0 R CRing_R) with 0. ring.
Qed.
Lemma dft_mid_real n x j : (2 * j = n)%nat -> (0 < n)%nat -> snd (dft n x j) = 0.
Proof.
  intros H Hn. pose proof (dft_conj n x j Hn ltac:(lia)) as E. replace (n - j)%nat with j in E by lia.
  assert (snd (dft n x j) = - snd (dft n x j)) by (rewrite E at 1; reflexivity). lra.
Qed.
Lemma cinv_real z : snd z = 0 -> snd (cinv z) = 0.
Proof. intros H. unfold cinv. simpl. rewrite H. unfold Rdiv. ring. Qed.
Lemma cmul_real y z : snd y = 0 -> snd z = 0 -> snd (cmul y z) = 0.
Proof. intros H1 H2. simpl. rewrite H1, H2. ring. Qed.
Lemma cabs2_pos z : z <> rc 0 -> 0 < cabs2 z.
Proof. intros H. assert (0 <= cabs2 z) by (unfold cabs2; nra). destruct (Req_dec (cabs2 z) 0) as [E|E]; [|lra]. exfalso. apply H. now apply c_norm_zero. Qed.
Lemma cinv_r z : z <> rc 0 -> cmul z (cinv z) = rc 1.
Proof. intros H. apply cabs2_pos in H. unfold cabs2 in H. apply c_ext; unfold cinv; simpl; field; lra. Qed.
Lemma cinv_l z : z <> rc 0 -> cmul (cinv z) z = rc 1.
Proof. intros. rewrite cmul_comm. now apply cinv_r. Qed.
Lemma ratio_iff x y h : x <> rc 0 -> cmul x h = y <-> h = cmul y (cinv x).
Proof.
  intros H. split; [intros <-|intros ->].
  - rewrite (cmul_comm x h), <- cmul_assoc, cinv_r by auto. now rewrite cmul_comm, cmul_rc1.
  - rewrite (cmul_comm y), cmul_assoc, cinv_r by auto. apply cmul_rc1.
Qed.
(** The solution of a circular convolution equation, by its bins. *)
Lemma solve_iff n x y h : (0 < n)%nat -> (forall k, (k <= n / 2)%nat -> dft n x k <> rc 0) ->
  (forall t, (t < n)%nat -> circ n x h t = get y t) <-> (forall k, (k <= n / 2)%nat -> dft n h k = cmul (dft n y k) (cinv (dft n x k))).
Proof.
  intros Hn Hx. assert (Hd : (n / 2 < n)%nat) by (apply Nat.div_lt; lia). split.
  - intros H k Hk. apply ratio_iff; auto. symmetry. apply dft_circ; [lia|]. intros t Ht. now rewrite H.
  - intros H t Ht. rewrite <- (get_mk (HA := CRing_R) n (circ n x h)) by auto. apply (dft_inj_half n); auto. intros k Hk.
    rewrite (dft_circ n x h _ k); [|lia|intros s Hs; now rewrite (get_mk (HA := CRing_R))]. apply ratio_iff; auto.
Qed.

(** ** The model on one channel *)
Lemma all_some_mk {T} m (f : nat -> option T) (g : nat -> T) : (forall k, (k < m)%nat -> f k = Some (g k)) -> all_some (mk m f) = Some (mk m g).
Proof.
  unfold mk. intros H. assert (E : map f (seq 0 m) = map (fun k => Some (g k)) (seq 0 m)).
  { apply map_ext_in. intros k Hk. apply in_seq in Hk. apply H. lia. }
  rewrite E. generalize (seq 0 m). induction l; simpl; auto. now rewrite IHl.
Qed.
Lemma all_some_none {T} (l : list (option T)) : In None l -> all_some l = None.
Proof. induction l as [|a l IH]; simpl; intros []. now subst. rewrite IH by auto. now destruct a. Qed.
Lemma cdiv_some a b : b <> rc 0 -> cdiv a b = Some (cmul a (cinv b)).
Proof. intros. unfold cdiv. now rewrite czero_false. Qed.
Lemma deconv_bins n (Y X : list C) (f : nat -> option C) (g : nat -> C) : (0 < n)%nat -> length Y = (n / 2 + 1)%nat ->
  (forall k, (k <= n / 2)%nat -> f k = Some (g k)) -> snd (g 0%nat) = 0 -> (forall j, (2 * j = n)%nat -> snd (g j) = 0) ->
  exists h, option_map (irfft_n n) (all_some (mk (length Y) f)) = Some h /\ length h = n /\ forall k, (k <= n / 2)%nat -> dft n h k = g k.
Proof.
  intros Hn LY Hf G0 Gm. rewrite (all_some_mk _ f g) by (intros; apply Hf; lia). cbn [option_map]. eexists. split; [reflexivity|].
  split; [apply mk_length|]. intros k Hk. rewrite dft_irfft; auto.
  - rewrite nth_mk' by (rewrite LY; lia). auto.
  - rewrite nth_mk' by (rewrite LY; lia). auto.
  - intros j Hj. rewrite nth_mk' by (rewrite LY, <- Hj, Nat.mul_comm, Nat.div_mul by lia; lia). auto.
Qed.

(** Amplitude scalings multiply the bins by positive factors that do not depend on the signal. *)
Definition bin_factor (sc : scaling) (n : nat) (fs : R) (k : nat) : R :=
  if has_units sc then / edge_div n k * scaling_factor sc n fs None else / fscale sc n.
Lemma edge_div_pos n k : 0 < edge_div n k.
Proof. unfold edge_div. assert (0 < sqrt 2) by (apply sqrt_lt_R0; lra). destruct (k =? 0)%nat; auto. destruct (2 * k =? n)%nat; lra. Qed.
Lemma bin_factor_pos sc n fs k : (0 < n)%nat -> 0 < fs -> is_amplitude sc = true -> 0 < bin_factor sc n fs k.
Proof.
  intros Hn Hf Ha. pose proof (INR_pos n Hn). pose proof (edge_div_pos n k) as Pe. assert (0 < sqrt (INR n)) by now apply sqrt_lt_R0.
  assert (0 < sqrt 2) by (apply sqrt_lt_R0; lra).
  unfold bin_factor. destruct sc; try discriminate; cbn [has_units fscale scaling_factor is_density is_amplitude]; try (apply Rinv_0_lt_compat; lra).
  - apply Rmult_lt_0_compat. now apply Rinv_0_lt_compat. now apply Rdiv_lt_0_compat.
  - apply Rmult_lt_0_compat. now apply Rinv_0_lt_compat. apply sqrt_lt_R0. apply Rdiv_lt_0_compat; auto. apply Rdiv_lt_0_compat; lra.
Qed.
Lemma amp_spectrum x sc n fs : (1 < n)%nat -> is_amplitude sc = true ->
  exists X, fft_spectrum x sc n fs None = Ok X /\ length X = (n / 2 + 1)%nat /\ forall k, (k <= n / 2)%nat -> nth k X (rc 0) = cmulr (dft n x k) (bin_factor sc n fs k).
Proof.
  intros Hn Ha. unfold fft_spectrum, bin_factor. destruct (has_units sc) eqn:U.
  - replace (rfft_scaled sc n x) with (rfft n x) by (destruct sc; auto; discriminate).
    destruct (scale_spectrum_eq x sc n fs None Hn) as (X & E & L & V). exists X. split; auto. split; auto. intros k Hk. rewrite V by auto.
    rewrite Ha. cbn zeta. apply c_ext; cbn; unfold Rdiv; ring.
  - exists (rfft_scaled sc n x). split; auto. split. { destruct sc; cbn [rfft_scaled]; rewrite ?map_length, rfft_length; auto. }
    intros k Hk. rewrite rfft_any by auto. apply c_ext; cbn; unfold Rdiv; ring.
Qed.
Lemma cmulr_nonzero z r : 0 < r -> z <> rc 0 <-> cmulr z r <> rc 0.
Proof.
  intros Hr. split; intros H E; apply H.
  - injection E as E1 E2. apply c_ext; simpl; nra.
  - rewrite E. apply c_ext; simpl; ring.
Qed.
Lemma cmulr_ratio y x r : 0 < r -> x <> rc 0 -> cmul (cmulr y r) (cinv (cmulr x r)) = cmul y (cinv x).
Proof.
  intros Hr Hx. symmetry. apply (ratio_iff (cmulr x r) (cmulr y r)). now apply (cmulr_nonzero x r).
  transitivity (cmulr (cmul x (cmul y (cinv x))) r). { apply c_ext; simpl; ring. }
  f_equal. now apply ratio_iff.
Qed.

(** ** The whole call *)
(** Recordings that fit together: same positive rate and length n, one or as many input channels, the same amplitude scaling. [m] is the
    number of points that are transformed and the FFT has that length (pad_to_fast_length off, or a fast length). *)
Record fits (out inp : meas) (n m : nat) : Prop := {
  f_out : forall x, In x (m_ch out) -> length x = n; f_inp : forall x, In x (m_ch inp) -> length x = n;
  f_some : m_ch out <> []; f_some_inp : m_ch inp <> []; f_chan : length (m_ch inp) = 1%nat \/ length (m_ch inp) = length (m_ch out);
  f_rate : m_fs out = m_fs inp; f_pos : 0 < m_fs out; f_sc : m_sc out = m_sc inp; f_amp : is_amplitude (m_sc out) = true;
  f_long : (1 < n)%nat; f_fo : fft_len out m = m; f_fi : fft_len inp m = m }.
Definition in_channel (inp : meas) (c : nat) : list R := nth (if (length (m_ch inp) =? 1)%nat then 0%nat else c) (m_ch inp) [].
Lemma hd_in {T} (d : T) l : l <> [] -> In (hd d l) l.
Proof. destruct l; simpl; auto; congruence. Qed.
Lemma m_len_fits out inp n m : fits out inp n m -> m_len out = n /\ m_len inp = n.
Proof. intros F. split; unfold m_len; [apply (f_out _ _ _ _ F)|apply (f_inp _ _ _ _ F)]; apply hd_in; apply F. Qed.

Lemma specs_ok sc m fs (pad : list R -> list R) (chs : list (list R)) : (1 < m)%nat -> is_amplitude sc = true ->
  exists Xs, seq_result (map (fun x => fft_spectrum (pad x) sc m fs None) chs) = Ok Xs /\ length Xs = length chs /\
  forall c, (c < length chs)%nat -> length (nth c Xs []) = (m / 2 + 1)%nat /\
    forall k, (k <= m / 2)%nat -> nth k (nth c Xs []) (rc 0) = cmulr (dft m (pad (nth c chs [])) k) (bin_factor sc m fs k).
Proof.
  intros Hm Ha. induction chs as [|x chs IH].
  - exists []. split; auto. split; auto. simpl. intros; lia.
  - destruct IH as (Xs & E & L & V). destruct (amp_spectrum (pad x) sc m fs Hm Ha) as (X & E1 & L1 & V1). exists (X :: Xs).
    cbn [map seq_result]. rewrite E1. cbn [bind]. rewrite E. cbn [bind]. split; auto. split; [simpl; lia|].
    intros [|c] Hc; simpl in *; [auto|]. apply V. lia.
Qed.
Lemma loop_plain Xs f thr fs n r b : forall Ys c0, length f = b -> (forall Y, In Y Ys -> length Y = b) ->
  (forall c, (c < length Ys)%nat -> length (nth (if (length Xs =? 1)%nat then 0%nat else (c0 + c)%nat) Xs []) = b) ->
  exists cols, deconv_loop Ys Xs f thr fs false n r c0 = Ok cols /\ length cols = length Ys /\
  forall c, (c < length Ys)%nat -> nth c cols None = deconv_plain (nth c Ys []) (nth (if (length Xs =? 1)%nat then 0%nat else (c0 + c)%nat) Xs []) n.
Proof.
  induction Ys as [|Y Ys IH]; intros c0 Hf HY HX.
  - exists []. simpl. repeat split; auto. intros; lia.
  - destruct (IH (S c0) Hf) as (cols & E & L & V). { intros; apply HY; now right. }
    { intros c Hc. pose proof (HX (S c) ltac:(simpl; lia)) as Q. destruct (length Xs =? 1)%nat; auto. now replace (S c0 + c)%nat with (c0 + S c)%nat by lia. }
    pose proof (HX 0%nat ltac:(simpl; lia)) as Q0. rewrite Nat.add_0_r in Q0.
    eexists. cbn [deconv_loop]. rewrite (HY Y (or_introl eq_refl)), Q0, Hf, Nat.eqb_refl. cbn [negb andb]. rewrite E. cbn [bind]. split; [reflexivity|].
    split; [simpl; lia|]. intros [|c] Hc. { rewrite Nat.add_0_r. reflexivity. }
    cbn [nth]. rewrite V by (simpl in Hc; lia). now replace (S c0 + c)%nat with (c0 + S c)%nat by lia.
Qed.
Lemma loop_reg Xs f thr fs n q eps b : reg_eps q f = Ok eps -> forall Ys c0, length f = b -> (forall Y, In Y Ys -> length Y = b) ->
  (forall c, (c < length Ys)%nat -> length (nth (if (length Xs =? 1)%nat then 0%nat else (c0 + c)%nat) Xs []) = b) ->
  exists cols, deconv_loop Ys Xs f thr fs true n (Four q) c0 = Ok cols /\ length cols = length Ys /\
  forall c, (c < length Ys)%nat -> nth c cols None = deconv_reg (nth c Ys []) (nth (if (length Xs =? 1)%nat then 0%nat else (c0 + c)%nat) Xs []) eps n.
Proof.
  intros He. induction Ys as [|Y Ys IH]; intros c0 Hf HY HX.
  - exists []. simpl. repeat split; auto. intros; lia.
  - destruct (IH (S c0) Hf) as (cols & E & L & V). { intros; apply HY; now right. }
    { intros c Hc. pose proof (HX (S c) ltac:(simpl; lia)) as Q. destruct (length Xs =? 1)%nat; auto. now replace (S c0 + c)%nat with (c0 + S c)%nat by lia. }
    pose proof (HX 0%nat ltac:(simpl; lia)) as Q0. rewrite Nat.add_0_r in Q0.
    eexists. cbn [deconv_loop]. rewrite (HY Y (or_introl eq_refl)), Q0, Hf, Nat.eqb_refl. cbn [negb andb resolve_range bind]. rewrite He. cbn [bind]. rewrite E. cbn [bind].
    split; [reflexivity|]. split; [simpl; lia|]. intros [|c] Hc. { rewrite Nat.add_0_r. reflexivity. }
    cbn [nth]. rewrite V by (simpl in Hc; lia). now replace (S c0 + c)%nat with (c0 + S c)%nat by lia.
Qed.
Lemma rfftfreq_length n fs : length (rfftfreq n fs) = (n / 2 + 1)%nat.
Proof. apply mk_length. Qed.
Definition padded_to (padding : bool) (n : nat) (x : list R) : list R := if padding then pad_trim_col n true x else x.
(** The columns of the result before the final trimming. *)
Lemma call_eq out inp n reg r thr (padding keep : bool) : let m : nat := (if padding then n * 2 else n)%nat in
  fits out inp n m -> (reg = true \/ r = Auto) -> (reg = true -> exists q eps, r = Four q /\ reg_eps q (rfftfreq m (m_fs out)) = Ok eps) ->
  exists (cols : list (option (list R))) (Ys Xs : nat -> list C), spectral_deconvolve out inp reg r thr padding keep = Ok (if (padding && keep)%bool then map (option_map (fun h => pad_trim_col n true h)) cols else cols) /\
  length cols = length (m_ch out) /\
  forall c, (c < length (m_ch out))%nat ->
    (let Y := Ys c in let X := Xs c in length Y = (m / 2 + 1)%nat /\ length X = (m / 2 + 1)%nat /\
     (forall k, (k <= m / 2)%nat -> nth k Y (rc 0) = cmulr (dft m (padded_to padding m (nth c (m_ch out) [])) k) (bin_factor (m_sc out) m (m_fs out) k)) /\
     (forall k, (k <= m / 2)%nat -> nth k X (rc 0) = cmulr (dft m (padded_to padding m (in_channel inp c)) k) (bin_factor (m_sc out) m (m_fs out) k)) /\
     if reg then forall q eps, r = Four q -> reg_eps q (rfftfreq m (m_fs out)) = Ok eps -> nth c cols None = deconv_reg Y X eps m else nth c cols None = deconv_plain Y X m).
Proof.
  intros m F Hr Hq. destruct (m_len_fits _ _ _ _ F) as [Lo Li]. unfold spectral_deconvolve. rewrite Lo, Li, Nat.eqb_refl. cbn [negb].
  replace ((length (m_ch inp) =? 1) || (length (m_ch out) =? length (m_ch inp)))%nat with true.
  2:{ symmetry. apply orb_true_iff. destruct (f_chan _ _ _ _ F) as [E|E]; rewrite E; [left; reflexivity|right; apply Nat.eqb_refl]. }
  cbn [negb]. destruct (Req_EM_T (m_fs out) (m_fs inp)) as [_|N]; [|exfalso; apply N, F]. cbn [negb].
  replace (negb reg && match r with Auto => false | _ => true end)%bool with false.
  2:{ destruct Hr as [->| ->]; auto. now destruct reg. }
  fold m. rewrite (f_fo _ _ _ _ F), (f_fi _ _ _ _ F). rewrite <- (f_rate _ _ _ _ F), <- (f_sc _ _ _ _ F).
  assert (Hm : (1 < m)%nat) by (pose proof (f_long _ _ _ _ F); unfold m; destruct padding; lia).
  pose proof (f_amp _ _ _ _ F) as Ha.
  destruct (specs_ok (m_sc out) m (m_fs out) (fun x => if padding then pad_trim_col m true x else x) (m_ch inp) Hm Ha) as (Xs & EX & LX & VX).
  destruct (specs_ok (m_sc out) m (m_fs out) (fun x => if padding then pad_trim_col m true x else x) (m_ch out) Hm Ha) as (Ys & EY & LY & VY).
  rewrite EX. cbn [bind]. rewrite EY. cbn [bind].
  set (ix := fun c => if (length Xs =? 1)%nat then 0%nat else c).
  assert (Hix : forall c, (c < length (m_ch out))%nat -> (ix c < length (m_ch inp))%nat).
  { intros c Hc. unfold ix. rewrite LX. pose proof (f_some_inp _ _ _ _ F). destruct (Nat.eqb_spec (length (m_ch inp)) 1); [lia|]. destruct (f_chan _ _ _ _ F); lia. }
  assert (A1 : forall Y, In Y Ys -> length Y = (m / 2 + 1)%nat). { intros Y HY. apply (In_nth _ _ []) in HY. destruct HY as (i & Hi & <-). apply VY. lia. }
  assert (A2 : forall c, (c < length Ys)%nat -> length (nth (if (length Xs =? 1)%nat then 0%nat else (0 + c)%nat) Xs []) = (m / 2 + 1)%nat).
  { intros c Hc. apply VX. apply (Hix c). lia. }
  destruct reg.
  - destruct (Hq eq_refl) as (q & eps & -> & He).
    destruct (loop_reg Xs (rfftfreq m (m_fs out)) thr (m_fs out) m q eps (m / 2 + 1) He Ys 0 (rfftfreq_length _ _) A1 A2) as (cols & EC & LC & VC).
    rewrite EC. cbn [bind]. exists cols, (fun c => nth c Ys []), (fun c => nth (ix c) Xs []). split; [reflexivity|]. split; [lia|].
    intros c Hc. cbn zeta. split; [apply VY; auto|]. split; [apply VX; auto|]. split; [apply VY; auto|]. split.
    { intros k Hk. rewrite (proj2 (VX (ix c) (Hix c Hc))) by auto. unfold in_channel, ix, padded_to. now rewrite LX. }
    intros q' eps' E1 E2. injection E1 as <-. rewrite He in E2. injection E2 as <-. apply VC. lia.
  - destruct Hr as [Hr| ->]; [discriminate|].
    destruct (loop_plain Xs (rfftfreq m (m_fs out)) thr (m_fs out) m Auto (m / 2 + 1) Ys 0 (rfftfreq_length _ _) A1 A2) as (cols & EC & LC & VC).
    rewrite EC. cbn [bind]. exists cols, (fun c => nth c Ys []), (fun c => nth (ix c) Xs []). split; [reflexivity|]. split; [lia|].
    intros c Hc. cbn zeta. split; [apply VY; auto|]. split; [apply VX; auto|]. split; [apply VY; auto|]. split.
    { intros k Hk. rewrite (proj2 (VX (ix c) (Hix c Hc))) by auto. unfold in_channel, ix, padded_to. now rewrite LX. }
    apply VC. lia.
Qed.

(** ** Without regularisation *)
(** Every channel of the result is the one impulse response whose circular convolution with the input channel is the output channel; it
    holds nan exactly when a bin of the input is zero. *)
Theorem C73_recovers_system :
  forall out inp n thr keep, fits out inp n n ->
  exists cols, spectral_deconvolve out inp false Auto thr false keep = Ok cols /\ length cols = length (m_ch out) /\
  forall c, (c < length (m_ch out))%nat -> let x := in_channel inp c in let y := nth c (m_ch out) [] in
    ((exists k, (k <= n / 2)%nat /\ dft n x k = rc 0) -> nth c cols None = None) /\
    ((forall k, (k <= n / 2)%nat -> dft n x k <> rc 0) -> exists h, nth c cols None = Some h /\ length h = n /\
      (forall t, (t < n)%nat -> circ n x h t = get y t) /\
      (forall h', (forall t, (t < n)%nat -> circ n x h' t = get y t) -> forall t, (t < n)%nat -> get h' t = get h t)).
Proof.
  intros out inp n thr keep F. destruct (call_eq out inp n false Auto thr false keep F (or_intror eq_refl)) as (cols & Ys & Xs & E & L & V). discriminate.
  exists cols. split; [exact E|]. split; auto. intros c Hc x y. destruct (V c Hc) as (LY & LX & VY & VX & VC). cbn [padded_to] in VY, VX.
  set (Y := Ys c) in *. set (X := Xs c) in *. fold x in VX. fold y in VY.
  assert (Hn : (0 < n)%nat) by (pose proof (f_long _ _ _ _ F); lia).
  assert (Pb : forall k, 0 < bin_factor (m_sc out) n (m_fs out) k) by (intros; apply bin_factor_pos; auto; apply F).
  rewrite VC. unfold deconv_plain. split.
  - intros (k & Hk & Ek). rewrite all_some_none; auto. unfold mk. apply in_map_iff. exists k. split; [|apply in_seq; lia].
    rewrite VX, Ek by auto. unfold cdiv. replace (cmulr (rc 0) _) with (rc 0) by (apply c_ext; simpl; ring).
    rewrite czero_rc. now destruct (Req_EM_T 0 0).
  - intros Hx. destruct (deconv_bins n Y X (fun k => cdiv (nth k Y (rc 0)) (nth k X (rc 0))) (fun k => cmul (dft n y k) (cinv (dft n x k))) Hn LY) as (h & Eh & Lh & Vh).
    + intros k Hk. rewrite cdiv_some. 2:{ rewrite VX by auto. apply cmulr_nonzero; auto. }
      rewrite VX, VY by auto. now rewrite cmulr_ratio by auto.
    + apply cmul_real; [|apply cinv_real]; apply dft_zero_real.
    + intros j Hj. apply cmul_real; [|apply cinv_real]; apply dft_mid_real; auto.
    + exists h. split; auto. split; auto. assert (S1 := proj2 (solve_iff n x y h Hn Hx) Vh). split; auto.
      intros h' S2. apply (dft_inj_half n). intros k Hk. rewrite Vh by auto. now apply solve_iff.
Qed.
Print Assumptions C73_recovers_system.

Lemma pad_get m (x : list R) t : (length x <= m)%nat -> get (pad_trim_col m true x) t = get x t.
Proof.
  intros H. destruct (Nat.lt_ge_cases t m). { now rewrite pad_trim_end by auto. }
  rewrite !(get_out (HA := CRing_R)); auto; try lia. rewrite pad_trim_length. lia.
Qed.
Lemma pad_dft m x k : (length x <= m)%nat -> dft m (pad_trim_col m true x) k = dft m x k.
Proof. intros H. unfold dft. apply (sum_ext (HA := CRing_C)). intros t Ht. now rewrite pad_get. Qed.
(** Linear convolution: sample [t] of x filtered with h. *)
Definition filtered (x h : list R) (t : nat) : R := rsum (S t) (fun a => get x a * get h (t - a)%nat).
Lemma circ_filtered n x h t : (length x <= n)%nat -> (length h <= n + 1)%nat -> (t < n * 2)%nat -> circ (n * 2) x h t = filtered x h t.
Proof.
  intros Lx Lh Ht. unfold circ, filtered.
  replace (n * 2)%nat with (S t + (n * 2 - S t))%nat at 1 by lia. rewrite (sum_split (HA := CRing_R)).
  rewrite (sum_zero' (HA := CRing_R) (n * 2 - S t)). 2:{
    intros i Hi. change (@r0 R CRing_R) with 0. destruct (Nat.lt_ge_cases (S t + i) n).
    - rewrite (get_out (HA := CRing_R) h); [change (@r0 R CRing_R) with 0; ring|]. rewrite Nat.mod_small by lia. lia.
    - rewrite (get_out (HA := CRing_R) x) by lia. change (@r0 R CRing_R) with 0. ring. }
  change (@radd R CRing_R) with Rplus. change (@r0 R CRing_R) with 0. rewrite Rplus_0_r. apply (sum_ext (HA := CRing_R)). intros a Ha. f_equal. f_equal.
  replace (t + n * 2 - a)%nat with (t - a + 1 * (n * 2))%nat by lia. rewrite Nat.mod_add by lia. apply Nat.mod_small. lia.
Qed.
(** With zero padding, a system whose response has died out at the end of the recording is found without circular effects. *)
Theorem C73_padded :
  forall out inp n thr keep, fits out inp n (n * 2) ->
  exists cols, spectral_deconvolve out inp false Auto thr true keep = Ok cols /\ length cols = length (m_ch out) /\
  forall c h, (c < length (m_ch out))%nat -> let x := in_channel inp c in let y := nth c (m_ch out) [] in
    (forall k, (k <= n)%nat -> dft (n * 2) x k <> rc 0) -> (length h <= n + 1)%nat ->
    (forall t, (t < n * 2)%nat -> get y t = filtered x h t) ->
    exists h', nth c cols None = Some h' /\ length h' = (if keep then n else n * 2)%nat /\ forall t, (t < length h')%nat -> get h' t = get h t.
Proof.
  intros out inp n thr keep F. destruct (call_eq out inp n false Auto thr true keep F (or_intror eq_refl)) as (cols & Ys & Xs & E & L & V). discriminate.
  eexists. split; [exact E|]. split. { cbn [andb]. destruct keep; rewrite ?map_length; auto. }
  intros c h Hc x y Hx Lh Hy. destruct (V c Hc) as (LY & LX & VY & VX & VC). cbn [padded_to] in VY, VX.
  set (Y := Ys c) in *. set (X := Xs c) in *. fold x in VX. fold y in VY.
  assert (Hn : (0 < n)%nat) by (pose proof (f_long _ _ _ _ F); lia).
  assert (D : (n * 2 / 2 = n)%nat) by (apply Nat.div_mul; lia).
  assert (Ly : length y = n). { apply (f_out _ _ _ _ F). apply nth_In. auto. }
  assert (Lx : length x = n). { apply (f_inp _ _ _ _ F). unfold x, in_channel. apply nth_In. pose proof (f_some_inp _ _ _ _ F). destruct (Nat.eqb_spec (length (m_ch inp)) 1); [lia|]. destruct (f_chan _ _ _ _ F); lia. }
  assert (Pb : forall k, 0 < bin_factor (m_sc out) (n * 2) (m_fs out) k) by (intros; apply bin_factor_pos; auto; try lia; apply F).
  destruct (deconv_bins (n * 2) Y X (fun k => cdiv (nth k Y (rc 0)) (nth k X (rc 0))) (fun k => cmul (dft (n * 2) y k) (cinv (dft (n * 2) x k))) ltac:(lia) LY) as (h1 & Eh & Lh1 & Vh).
  - intros k Hk. rewrite cdiv_some. 2:{ rewrite VX, pad_dft by (auto; lia). apply cmulr_nonzero; auto. apply Hx. lia. }
    rewrite VX, VY, !pad_dft by (auto; lia). rewrite cmulr_ratio by (auto; apply Hx; lia). reflexivity.
  - apply cmul_real; [|apply cinv_real]; apply dft_zero_real.
  - intros j Hj. apply cmul_real; [|apply cinv_real]; apply dft_mid_real; auto; lia.
  - assert (S1 : forall t, (t < n * 2)%nat -> get h t = get h1 t).
    { apply (dft_inj_half (n * 2)). intros k Hk. rewrite Vh by auto. apply solve_iff; auto; try lia.
      - intros j Hj. apply Hx. lia.
      - intros t Ht. rewrite Hy by auto. apply circ_filtered; auto; lia. }
    fold (deconv_plain Y X (n * 2)) in Eh. rewrite <- VC in Eh. cbn [andb]. destruct keep.
    + exists (pad_trim_col n true h1). assert (L1 : length (pad_trim_col n true h1) = n) by apply pad_trim_length.
      split. { rewrite (nth_indep _ None (option_map (fun h => pad_trim_col n true h) None)) by (rewrite map_length; lia). rewrite map_nth, Eh. reflexivity. }
      split; auto. rewrite L1. intros t Ht. rewrite pad_trim_end by auto. symmetry. apply S1. lia.
    + exists h1. split; auto. split; auto. rewrite Lh1. intros t Ht. symmetry. now apply S1.
Qed.
Print Assumptions C73_padded.

(** ** With regularisation *)
Definition bin_freq (n : nat) (fs : R) (k : nat) : R := INR k * fs / INR n.
Lemma rfftfreq_get n fs k : (k <= n / 2)%nat -> getr (rfftfreq n fs) k = bin_freq n fs k.
Proof. intros. unfold rfftfreq. now rewrite (get_mk (HA := CRing_R)) by lia. Qed.
Lemma rfftfreq_incr n fs : (0 < n)%nat -> 0 < fs -> increasing (rfftfreq n fs).
Proof.
  intros Hn Hf i j Hij Hj. rewrite rfftfreq_length in Hj. rewrite !rfftfreq_get by lia. unfold bin_freq. pose proof (INR_pos n Hn). apply lt_INR in Hij.
  unfold Rdiv. apply Rmult_lt_compat_r. now apply Rinv_0_lt_compat. apply Rmult_lt_compat_r; auto.
Qed.
Lemma rfftfreq_some n fs : rfftfreq n fs <> [].
Proof. intros E. apply (f_equal (@length R)) in E. rewrite rfftfreq_length in E. simpl in E. lia. Qed.
Lemma nearest_le n fs p k : (0 < n)%nat -> 0 < fs -> (k <= n / 2)%nat -> p <= bin_freq n fs k -> (nearest p (rfftfreq n fs) <= k)%nat.
Proof.
  intros Hn Hf Hk H. destruct (nearest_spec p (rfftfreq n fs) (rfftfreq_some n fs)) as (A & B & _). rewrite rfftfreq_length in *.
  destruct (le_lt_dec (nearest p (rfftfreq n fs)) k) as [|L]; auto. exfalso. specialize (B k ltac:(lia)).
  pose proof (rfftfreq_incr n fs Hn Hf k _ L ltac:(rewrite rfftfreq_length; lia)) as I. rewrite (rfftfreq_get n fs k) in * by auto.
  revert B. unfold Rabs. repeat destruct (Rcase_abs _); lra.
Qed.
Lemma nearest_ge n fs p k : (0 < n)%nat -> 0 < fs -> (k <= n / 2)%nat -> bin_freq n fs k <= p -> (k <= nearest p (rfftfreq n fs))%nat.
Proof.
  intros Hn Hf Hk H. destruct (nearest_spec p (rfftfreq n fs) (rfftfreq_some n fs)) as (A & B & _). rewrite rfftfreq_length in *.
  destruct (le_lt_dec k (nearest p (rfftfreq n fs))) as [|L]; auto. exfalso. specialize (B k ltac:(lia)).
  pose proof (rfftfreq_incr n fs Hn Hf _ k L ltac:(rewrite rfftfreq_length; lia)) as I. rewrite (rfftfreq_get n fs k) in * by auto.
  revert B. unfold Rabs. repeat destruct (Rcase_abs _); lra.
Qed.
Lemma bin_freq_S n fs k : (0 < n)%nat -> bin_freq n fs (S k) = bin_freq n fs k + fs / INR n.
Proof. intros Hn. unfold bin_freq. rewrite S_INR. field. pose proof (INR_pos n Hn). lra. Qed.
Lemma nearest_gt n fs p k : (0 < n)%nat -> 0 < fs -> (k < n / 2)%nat -> bin_freq n fs k + fs / INR n / 2 < p -> (k < nearest p (rfftfreq n fs))%nat.
Proof.
  intros Hn Hf Hk H. destruct (nearest_spec p (rfftfreq n fs) (rfftfreq_some n fs)) as (A & B & _). rewrite rfftfreq_length in *.
  destruct (le_lt_dec (S k) (nearest p (rfftfreq n fs))) as [|L]; auto. exfalso. specialize (B (S k) ltac:(lia)).
  rewrite (rfftfreq_get n fs (S k)), bin_freq_S in B by lia.
  assert (P : 0 < fs / INR n) by (apply Rdiv_lt_0_compat; auto; now apply INR_pos).
  assert (I : getr (rfftfreq n fs) (nearest p (rfftfreq n fs)) <= bin_freq n fs k).
  { destruct (Nat.eq_dec (nearest p (rfftfreq n fs)) k) as [->|Ne]. rewrite rfftfreq_get by lia. lra.
    left. rewrite <- (rfftfreq_get n fs k) by lia. apply rfftfreq_incr; auto. lia. rewrite rfftfreq_length. lia. }
  revert B. unfold Rabs. repeat destruct (Rcase_abs _); lra.
Qed.
Definition full_reg : R := Rpower 10 (3 / 2).
Lemma reg_eps_ok n fs a b c d : (0 < n)%nat -> 0 < fs -> a <= b -> b <= c -> c <= d ->
  exists eps, reg_eps (a, b, c, d) (rfftfreq n fs) = Ok eps /\ forall k, (k <= n / 2)%nat -> 0 <= getr eps k <= full_reg /\
    (b <= bin_freq n fs k <= c -> bin_freq n fs k + fs / INR n / 2 < d -> (k < n / 2)%nat -> getr eps k = 0) /\
    ((bin_freq n fs k + fs / INR n / 2 < a /\ (k < n / 2)%nat) \/ d <= bin_freq n fs k -> getr eps k = full_reg).
Proof.
  intros Hn Hf Hab Hbc Hcd. pose proof (rfftfreq_some n fs) as Ns. pose proof (rfftfreq_incr n fs Hn Hf) as Inc.
  pose proof (fun p k => nearest_le n fs p k Hn Hf) as NL. pose proof (fun p k => nearest_ge n fs p k Hn Hf) as NG. pose proof (fun p k => nearest_gt n fs p k Hn Hf) as NT.
  set (f := rfftfreq n fs) in *.
  assert (Lf : length f = (n / 2 + 1)%nat) by apply rfftfreq_length.
  pose proof (proj1 (nearest_spec d f Ns)) as Pd.
  assert (M1 := nearest_mono f a b Ns Inc Hab). assert (M2 := nearest_mono f b c Ns Inc Hbc). assert (M3 := nearest_mono f c d Ns Inc Hcd).
  destruct (tukey_ok hann hann true true (nearest a f) (nearest b f) (nearest c f) (nearest d f) (length f) hann_length hann_length M1 M2 M3 ltac:(lia)) as (w & Ew & Lw & Vw).
  unfold reg_eps. rewrite Ew. cbn [bind]. eexists. split; [reflexivity|]. intros k Hk.
  assert (Full : 0 < full_reg) by apply exp_pos.
  replace (30 / 20) with (3 / 2) by lra. fold full_reg.
  rewrite (get_map (fun v => v * full_reg)) by lia. rewrite Vw by lia. cbn zeta.
  pose proof (tukey_range hann hann true (nearest a f) (nearest b f) (nearest c f) (nearest d f) k hann_range hann_range) as Rg.
  split; [nra|]. split.
  - intros [H1 H2] H3 H4. pose proof (NL b k Hk H1). pose proof (NG c k Hk H2). pose proof (NT d k H4 H3).
    unfold tukey_value. destruct (Nat.ltb_spec k (nearest a f)); [lia|]. destruct (Nat.ltb_spec k (nearest b f)); [lia|].
    destruct (Nat.ltb_spec k (nearest c f)); [ring|]. destruct (Nat.ltb_spec k (nearest d f)); [|lia].
    destruct (Nat.ltb_spec 1 (nearest d f - nearest c f)); [|ring]. replace (k - nearest c f)%nat with 0%nat by lia. rewrite Nat.add_0_r, hann_mid by lia. ring.
  - intros H. replace (tukey_value _ _ _ _ _ _ _ k) with 0; [ring|]. unfold tukey_value. destruct H as [[H1 H2]|H].
    + pose proof (NT a k H2 H1). destruct (Nat.ltb_spec k (nearest a f)); [auto|lia].
    + pose proof (NL d k Hk H). destruct (Nat.ltb_spec k (nearest a f)); [auto|]. destruct (Nat.ltb_spec k (nearest b f)); [lia|].
      destruct (Nat.ltb_spec k (nearest c f)); [lia|]. destruct (Nat.ltb_spec k (nearest d f)); [lia|auto].
Qed.
Lemma reg_ratio y x e : x <> rc 0 -> 0 <= e -> cmul y (cmul (cconj x) (cinv (rc (cabs2 x + e)))) = cmulr (cmul y (cinv x)) (cabs2 x / (cabs2 x + e)).
Proof. intros Hx He. apply cabs2_pos in Hx. unfold cabs2 in *. apply c_ext; unfold cinv; simpl; field; nra. Qed.

(** The quotient is exact for the bins inside the range and damped outside: every bin is the exact quotient times a factor in ]0, 1],
    which is 1 inside and |X|^2 / (|X|^2 + 10^1.5) outside the outer limits. *)
Theorem C73_regularised :
  forall out inp n thr keep a b c d, fits out inp n n -> m_sc out = FFTBackward -> a <= b -> b <= c -> c <= d ->
  exists cols, spectral_deconvolve out inp true (Four (a, b, c, d)) thr false keep = Ok cols /\ length cols = length (m_ch out) /\
  forall ch, (ch < length (m_ch out))%nat -> let x := in_channel inp ch in let y := nth ch (m_ch out) [] in
    (forall k, (k <= n / 2)%nat -> dft n x k <> rc 0) -> exists h g, nth ch cols None = Some h /\ length h = n /\
    forall k, (k <= n / 2)%nat -> let f := bin_freq n (m_fs out) k in let half := m_fs out / INR n / 2 in
      dft n h k = cmulr (cmul (dft n y k) (cinv (dft n x k))) (g k) /\ 0 < g k <= 1 /\
      (b <= f <= c -> f + half < d -> (k < n / 2)%nat -> g k = 1) /\
      ((f + half < a /\ (k < n / 2)%nat) \/ d <= f -> g k = cabs2 (dft n x k) / (cabs2 (dft n x k) + Rpower 10 (3 / 2))).
Proof.
  intros out inp n thr keep a b c d F Sc Hab Hbc Hcd.
  assert (Hn : (0 < n)%nat) by (pose proof (f_long _ _ _ _ F); lia).
  destruct (reg_eps_ok n (m_fs out) a b c d Hn (f_pos _ _ _ _ F) Hab Hbc Hcd) as (eps & Ee & Ve).
  destruct (call_eq out inp n true (Four (a, b, c, d)) thr false keep F (or_introl eq_refl)) as (cols & Ys & Xs & E & L & V). { intros _. eauto. }
  exists cols. split; [exact E|]. split; auto. intros ch Hc x y Hx. destruct (V ch Hc) as (LY & LX & VY & VX & VC). cbn [padded_to] in VY, VX.
  specialize (VC _ _ eq_refl Ee). set (Y := Ys ch) in *. set (X := Xs ch) in *. fold x in VX. fold y in VY. rewrite Sc in VX, VY.
  assert (B1 : forall z k, cmulr z (bin_factor FFTBackward n (m_fs out) k) = z). { intros. unfold bin_factor. cbn [has_units fscale]. apply c_ext; simpl; field. }
  set (g := fun k => cabs2 (dft n x k) / (cabs2 (dft n x k) + getr eps k)).
  assert (Gr : forall k, (k <= n / 2)%nat -> 0 < g k <= 1).
  { intros k Hk. destruct (Ve k Hk) as (Re & _). pose proof (cabs2_pos _ (Hx k Hk)). unfold g. split. apply Rdiv_lt_0_compat; lra.
    apply Rmult_le_reg_r with (cabs2 (dft n x k) + getr eps k); [lra|]. unfold Rdiv. rewrite Rmult_assoc, Rinv_l by lra. lra. }
  destruct (deconv_bins n Y X (fun k => let x := nth k X (rc 0) in option_map (cmul (nth k Y (rc 0))) (cdiv (cconj x) (rc (cabs2 x + get eps k))))
              (fun k => cmulr (cmul (dft n y k) (cinv (dft n x k))) (g k)) Hn LY) as (h & Eh & Lh & Vh).
  - intros k Hk. cbn zeta. rewrite VX, VY, !B1 by auto. destruct (Ve k Hk) as (Re & _). pose proof (cabs2_pos _ (Hx k Hk)). rewrite cdiv_some.
    + cbn [option_map]. f_equal. apply reg_ratio; auto. lra.
    + intros Q. injection Q as Q. lra.
  - unfold cmulr. cbn [snd]. rewrite (cmul_real (dft n y 0)); [ring|apply dft_zero_real|apply cinv_real; apply dft_zero_real].
  - intros j Hj. unfold cmulr. cbn [snd]. rewrite (cmul_real (dft n y j)); [ring|now apply dft_mid_real|apply cinv_real; now apply dft_mid_real].
  - exists h, g. split. { rewrite VC. exact Eh. } split; auto. intros k Hk f half. split; [now apply Vh|]. split; [now apply Gr|].
    destruct (Ve k Hk) as (Re & E0 & E1). pose proof (cabs2_pos _ (Hx k Hk)). split.
    + intros H1 H2 H3. unfold g. rewrite E0 by auto. field. lra.
    + intros H1. unfold g. rewrite E1 by auto. reflexivity.
Qed.
Print Assumptions C73_regularised.

(** ** The automatic range *)
Definition tiny : R := / 2 ^ 1022.
(** Bin [k] of magnitudes [A] is louder than [thr] dB relative to every bin; magnitudes below the smallest normal number count as that. *)
Definition loud (thr : R) (m : nat) (A : nat -> R) (k : nat) : Prop := forall j, (j < m)%nat -> Rpower 10 (thr / 20) * Rmax (A j) tiny < Rmax (A k) tiny.
Lemma tiny_pos : 0 < tiny.
Proof. apply Rinv_0_lt_compat. apply pow_lt. lra. Qed.
Lemma Rmax_tiny a : 0 < Rmax a tiny.
Proof. pose proof tiny_pos. pose proof (Rmax_r a tiny). lra. Qed.
Lemma ln10_pos : 0 < ln 10.
Proof. rewrite <- ln_1. apply ln_increasing; lra. Qed.
Lemma db_default_val v : 0 <= v -> db_default v = Some (20 * (ln (Rmax v tiny) / ln 10)).
Proof.
  intros Hv. unfold db_default, to_db1, log10o. change smallest_normal with tiny. rewrite (Rabs_pos_eq v) by auto. pose proof (Rmax_tiny v).
  destruct (Req_EM_T (Rmax v tiny) 0); [lra|]. reflexivity.
Qed.
Lemma db_compare thr a b : 0 < a -> 0 < b -> thr < 20 * (ln a / ln 10) - 20 * (ln b / ln 10) <-> Rpower 10 (thr / 20) * b < a.
Proof.
  intros Ha Hb. pose proof ln10_pos as L. unfold Rpower.
  assert (E : exp (thr / 20 * ln 10) * b = exp (thr / 20 * ln 10 + ln b)) by (rewrite exp_plus, exp_ln; auto). rewrite E.
  assert (Q : 20 * (ln a / ln 10) - 20 * (ln b / ln 10) = 20 * (ln a - ln b) / ln 10) by (field; lra). rewrite Q.
  assert (P : thr < 20 * (ln a - ln b) / ln 10 <-> thr / 20 * ln 10 + ln b < ln a).
  { split; intros H.
    - apply Rmult_lt_compat_r with (r := ln 10) in H; auto. unfold Rdiv in H. rewrite Rmult_assoc, Rinv_l in H by lra. lra.
    - apply Rmult_lt_reg_r with (ln 10); auto. unfold Rdiv. rewrite Rmult_assoc, Rinv_l by lra. lra. }
  rewrite P. split; intros H.
  - rewrite <- (exp_ln a) by auto. now apply exp_increasing.
  - rewrite <- (exp_ln a) in H by auto. now apply exp_lt_inv.
Qed.
Lemma last_default {T} (l : list T) d d' : l <> [] -> last l d = last l d'.
Proof. induction l as [|a l IH]; intros H; [congruence|]. destruct l; auto. apply IH. discriminate. Qed.
Lemma filter_ends {T} (P : T -> bool) (d : T) l : (exists k, (k < length l)%nat /\ P (nth k l d) = true) ->
  exists i j a r, filter P l = a :: r /\ a = nth i l d /\ last (a :: r) a = nth j l d /\ (i < length l)%nat /\ (j < length l)%nat /\
    P (nth i l d) = true /\ P (nth j l d) = true /\ forall k, (k < length l)%nat -> P (nth k l d) = true -> (i <= k <= j)%nat.
Proof.
  induction l as [|x l IH]; intros (k & Hk & Pk); [simpl in Hk; lia|].
  assert (D : (exists k, (k < length l)%nat /\ P (nth k l d) = true) \/ (forall k, (k < length l)%nat -> P (nth k l d) = false)).
  { clear. induction l as [|y l IH]. right; simpl; intros; lia. destruct (P y) eqn:E. left. exists 0%nat. simpl. split; auto; lia.
    destruct IH as [(k & H1 & H2)|H]. left. exists (S k). simpl. split; auto; lia. right. intros [|k] Hk; simpl in *; auto. apply H. lia. }
  destruct D as [D|D].
  - destruct (IH D) as (i & j & a & r & E & Ea & El & Hi & Hj & Pi & Pj & B). cbn [filter]. destruct (P x) eqn:Px.
    + exists 0%nat, (S j), x, (a :: r). rewrite E. repeat split; simpl; auto; try lia.
      * rewrite <- El. apply (last_default (a :: r)). discriminate.
      * intros. destruct k0; simpl in *; try lia. specialize (B k0 ltac:(lia) H0). lia.
    + exists (S i), (S j), a, r. rewrite E. repeat split; simpl; auto; try lia; destruct k0; simpl in *; try congruence; specialize (B k0 ltac:(lia) H0); lia.
  - destruct k; [|simpl in Hk, Pk; rewrite D in Pk by lia; discriminate]. simpl in Pk. cbn [filter]. rewrite Pk.
    assert (E : filter P l = []). { clear - D. induction l as [|y l IH]; auto. simpl. rewrite (D 0%nat ltac:(simpl; lia) : P y = false). apply IH. intros k Hk. apply (D (S k)). simpl. lia. }
    exists 0%nat, 0%nat, x, []. rewrite E. repeat split; simpl; auto; try lia; destruct k; simpl in *; try lia; rewrite D in H0 by lia; discriminate.
Qed.
Lemma frequencies_above_ok X f thr : X <> [] -> length f = length X -> thr < 0 ->
  let A := fun k => sqrt (cabs2 (nth k X (rc 0))) in
  exists i j, frequencies_above X f thr = Ok (getr f i, getr f j) /\ (i < length X)%nat /\ (j < length X)%nat /\
    loud thr (length X) A i /\ loud thr (length X) A j /\ forall k, (k < length X)%nat -> loud thr (length X) A k -> (i <= k <= j)%nat.
Proof.
  intros NX Lf Ht A. unfold frequencies_above.
  set (db := map _ X). assert (Ldb : length db = length X) by apply map_length.
  assert (Vdb : forall k, (k < length X)%nat -> nth k db 0 = 20 * (ln (Rmax (A k) tiny) / ln 10)).
  { intros k Hk. unfold db. set (fn := fun z : C => match db_default (sqrt (cabs2 z)) with Some v => v | None => 0 end).
    rewrite (nth_indep _ 0 (fn (rc 0))) by (now rewrite map_length). rewrite map_nth. unfold fn. rewrite db_default_val by apply sqrt_pos. reflexivity. }
  assert (Nd : db <> []). { unfold db. destruct X; [congruence|discriminate]. }
  destruct (argmax_spec db Nd) as (T1 & T2 & _). cbn zeta in T1, T2. rewrite Ldb in *. set (tp := argmax db) in *.
  set (P := fun p : R * R => if Rlt_dec thr (fst p - nth tp db 0) then true else false).
  assert (Lc : length (combine db f) = length X) by (rewrite combine_length; lia).
  assert (Vc : forall k, (k < length X)%nat -> nth k (combine db f) (0, 0) = (nth k db 0, nth k f 0)) by (intros; apply combine_nth; lia).
  assert (PL : forall k, (k < length X)%nat -> P (nth k (combine db f) (0, 0)) = true <-> loud thr (length X) A k).
  { intros k Hk. rewrite Vc by auto. unfold P. cbn [fst]. split.
    - destruct (Rlt_dec thr (nth k db 0 - nth tp db 0)) as [H|]; [|discriminate]. intros _ j Hj.
      apply db_compare; try apply Rmax_tiny. rewrite <- !Vdb by auto. specialize (T2 j Hj). lra.
    - intros H. destruct (Rlt_dec thr (nth k db 0 - nth tp db 0)) as [|N]; auto. exfalso. apply N. rewrite !Vdb by auto. apply db_compare; try apply Rmax_tiny. now apply H. }
  destruct (filter_ends P (0, 0) (combine db f)) as (i & j & a & r & E & Ea & El & Hi & Hj & Pi & Pj & B).
  { exists tp. rewrite Lc. split; auto. rewrite Vc by auto. unfold P. cbn [fst]. destruct (Rlt_dec thr (nth tp db 0 - nth tp db 0)); auto. lra. }
  fold P. rewrite E. exists i, j. rewrite Lc in *. split. { rewrite Ea at 1. cbn [last] in El |- *. rewrite El, !Vc by auto. reflexivity. }
  repeat split; auto; try (now apply PL); try (apply B; auto; now apply PL).
Qed.
Lemma loop_first Y Ys Xs f thr fs n r q c0 : resolve_range r (nth (if (length Xs =? 1)%nat then 0%nat else c0) Xs []) f thr fs = Ok q ->
  deconv_loop (Y :: Ys) Xs f thr fs true n r c0 = deconv_loop (Y :: Ys) Xs f thr fs true n (Four q) c0.
Proof. intros E. cbn [deconv_loop]. rewrite E. reflexivity. Qed.
(** Two frequencies stand for four: half an octave is added on each side, at most up to half the sampling rate. *)
Theorem C73_two_limits :
  forall out inp a b thr padding keep,
  spectral_deconvolve out inp true (Two a b) thr padding keep =
  spectral_deconvolve out inp true (Four (a / sqrt 2, a, b, Rmin (b * sqrt 2) (m_fs out / 2))) thr padding keep.
Proof.
  intros. unfold spectral_deconvolve. destruct (negb _); auto. destruct (negb _); auto. destruct (negb _); auto. cbn [negb andb].
  destruct (seq_result _) as [Xs|]; auto. cbn [bind]. destruct (seq_result _) as [Ys|]; auto. cbn [bind]. now destruct Ys as [|Y Ys].
Qed.
Print Assumptions C73_two_limits.
(** In automatic mode the limits are the first and the last bin of the first input channel that are louder than the threshold. They are
    used for all channels. *)
Theorem C73_automatic_range :
  forall out inp n thr keep, fits out inp n n -> m_sc out = FFTBackward -> thr < 0 ->
  let A := fun k => sqrt (cabs2 (dft n (in_channel inp 0) k)) in
  exists i j, (i <= n / 2)%nat /\ (j <= n / 2)%nat /\ loud thr (n / 2 + 1) A i /\ loud thr (n / 2 + 1) A j /\
    (forall k, (k <= n / 2)%nat -> loud thr (n / 2 + 1) A k -> (i <= k <= j)%nat) /\
    spectral_deconvolve out inp true Auto thr false keep =
    spectral_deconvolve out inp true (Two (bin_freq n (m_fs out) i) (bin_freq n (m_fs out) j)) thr false keep.
Proof.
  intros out inp n thr keep F Sc Ht A. destruct (m_len_fits _ _ _ _ F) as [Lo Li].
  assert (Hn := f_long _ _ _ _ F). pose proof (f_amp _ _ _ _ F) as Ha.
  destruct (specs_ok (m_sc out) n (m_fs out) (fun x => x) (m_ch inp) Hn Ha) as (Xs & EX & LX & VX).
  destruct (specs_ok (m_sc out) n (m_fs out) (fun x => x) (m_ch out) Hn Ha) as (Ys & EY & LY & VY).
  assert (I0 : (0 < length (m_ch inp))%nat). { pose proof (f_some_inp _ _ _ _ F). destruct (m_ch inp); [congruence|simpl; lia]. }
  assert (O0 : (0 < length (m_ch out))%nat). { pose proof (f_some _ _ _ _ F). destruct (m_ch out); [congruence|simpl; lia]. }
  destruct (VX 0%nat I0) as (LX0 & VX0).
  assert (B1 : forall z k, cmulr z (bin_factor FFTBackward n (m_fs out) k) = z). { intros. unfold bin_factor. cbn [has_units fscale]. apply c_ext; simpl; field. }
  destruct (frequencies_above_ok (nth 0 Xs []) (rfftfreq n (m_fs out)) thr) as (i & j & E & Hi & Hj & Pi & Pj & B); auto.
  { intros Q. rewrite Q in LX0. simpl in LX0. lia. } { now rewrite rfftfreq_length, LX0. }
  rewrite LX0 in *.
  assert (LL : forall k, (k <= n / 2)%nat -> loud thr (n / 2 + 1) (fun k => sqrt (cabs2 (nth k (nth 0 Xs []) (rc 0)))) k <-> loud thr (n / 2 + 1) A k).
  { intros k Hk. assert (Q : forall m, (m <= n / 2)%nat -> sqrt (cabs2 (nth m (nth 0 Xs []) (rc 0))) = A m).
    { intros m Hm. rewrite VX0, Sc, B1 by auto. unfold A, in_channel. now destruct (length (m_ch inp) =? 1)%nat. }
    unfold loud. split; intros H m Hm; specialize (H m Hm); rewrite !Q in * by lia; auto. }
  exists i, j. split; [lia|]. split; [lia|]. split; [apply LL; auto; lia|]. split; [apply LL; auto; lia|]. split.
  { intros k Hk Hl. apply B; [lia|]. now apply LL. }
  unfold spectral_deconvolve. rewrite Lo, Li. destruct (negb _); auto. destruct (negb _); auto. destruct (negb _); auto. cbn [negb andb].
  rewrite (f_fo _ _ _ _ F), (f_fi _ _ _ _ F), <- (f_rate _ _ _ _ F), <- (f_sc _ _ _ _ F), EX, EY. cbn [bind]. destruct Ys as [|Y Ys]; auto.
  assert (E1 : nth (if (length Xs =? 1)%nat then 0%nat else 0%nat) Xs [] = nth 0 Xs []) by now destruct (length Xs =? 1)%nat.
  set (q := (bin_freq n (m_fs out) i / sqrt 2, bin_freq n (m_fs out) i, bin_freq n (m_fs out) j, Rmin (bin_freq n (m_fs out) j * sqrt 2) (m_fs out / 2))).
  rewrite (loop_first Y Ys Xs _ thr (m_fs out) _ Auto q). rewrite (loop_first Y Ys Xs _ thr (m_fs out) _ (Two _ _) q). reflexivity.
  - reflexivity.
  - rewrite E1. cbn [resolve_range]. rewrite E. cbn [bind fst snd]. rewrite !rfftfreq_get by lia. reflexivity.
Qed.
Print Assumptions C73_automatic_range.

(** ** Witnesses and deviations *)
Definition unit_at (n s : nat) : list R := mk n (fun t => if (t =? s)%nat then 1 else 0).
Lemma unit_get n s t : (s < n)%nat -> getr (unit_at n s) t = if (t =? s)%nat then 1 else 0.
Proof.
  intros Hs. unfold unit_at. destruct (Nat.lt_ge_cases t n). now rewrite (get_mk (HA := CRing_R)).
  rewrite (get_out (HA := CRing_R)) by (rewrite mk_length; lia). destruct (Nat.eqb_spec t s); [lia|reflexivity].
Qed.
Lemma unit_dft m n s k : (s < n)%nat -> (s < m)%nat -> dft m (unit_at n s) k = root m (- (Z.of_nat s * Z.of_nat k)).
Proof.
  intros Hs Hm. unfold dft.
  rewrite (sum_ext (HA := CRing_C) m _ (fun t => if (t =? s)%nat then root m (- (Z.of_nat t * Z.of_nat k)) else @r0 C CRing_C)).
  - now rewrite (sum_delta (HA := CRing_C) m s (fun t => root m (- (Z.of_nat t * Z.of_nat k)))).
  - intros t Ht. rewrite unit_get by auto. change (@rmul C CRing_C) with cmul. change (@r0 C CRing_C) with (rc 0). destruct (t =? s)%nat; apply c_ext; simpl; ring.
Qed.
Lemma root_nonzero n a : root n a <> rc 0.
Proof. intros E. pose proof (sin2_cos2 (2 * PI * IZR a / INR n)) as H. unfold Rsqr in H. unfold root, cis, rc in E. injection E as E1 E2. rewrite E1, E2 in H. lra. Qed.
Lemma root_abs n a : cabs2 (root n a) = 1.
Proof. unfold cabs2, root, cis. simpl. pose proof (sin2_cos2 (2 * PI * IZR a / INR n)) as H. unfold Rsqr in H. lra. Qed.

(** Recordings with the default parameters (spectra zero padded to a fast length). *)
Definition default_meas (chs : list (list R)) : meas := mkMeas chs 48000 FFTBackward true.
Lemma fits_default n outs inps : (1 < n)%nat -> next_fast_len n = n -> (forall x, In x outs -> length x = n) -> (forall x, In x inps -> length x = n) ->
  outs <> [] -> inps <> [] -> length inps = 1%nat \/ length inps = length outs -> fits (default_meas outs) (default_meas inps) n n.
Proof. intros. constructor; simpl; auto; try lra. Qed.
Example C73_recovers_system_example :
  exists h, spectral_deconvolve (default_meas [[3; 1; 0; 2]]) (default_meas [unit_at 4 1]) false Auto (-30) false false = Ok [Some h] /\ length h = 4%nat /\
    forall t, (t < 4)%nat -> circ 4 (unit_at 4 1) h t = get [3; 1; 0; 2] t.
Proof.
  assert (F : fits (default_meas [[3; 1; 0; 2]]) (default_meas [unit_at 4 1]) 4 4).
  { apply fits_default; auto; try discriminate; intros x [<-|[]]; reflexivity. }
  destruct (C73_recovers_system _ _ 4 (-30) false F) as (cols & E & L & V). destruct (V 0%nat ltac:(simpl; lia)) as (_ & V0).
  destruct V0 as (h & Eh & Lh & Sh & _).
  - intros k Hk. unfold in_channel. cbn. intros Q. apply (root_nonzero 4 (- (Z.of_nat 1 * Z.of_nat k))). rewrite <- (unit_dft 4 4 1 k) by lia. exact Q.
  - exists h. rewrite E. destruct cols as [|o [|]]; try discriminate. cbn in Eh. rewrite Eh. auto.
Qed.
Example C73_padded_example :
  exists h, spectral_deconvolve (default_meas [[0; 1; 1 / 2; 0]]) (default_meas [unit_at 4 1]) false Auto (-30) true true = Ok [Some h] /\ length h = 4%nat /\
    get h 0 = 1 /\ get h 1 = 1 / 2.
Proof.
  assert (F : fits (default_meas [[0; 1; 1 / 2; 0]]) (default_meas [unit_at 4 1]) 4 (4 * 2)).
  { constructor; simpl; auto; try lra; try discriminate; try lia; intros x [<-|[]]; reflexivity. }
  destruct (C73_padded _ _ 4 (-30) true F) as (cols & E & L & V). destruct (V 0%nat [1; 1 / 2] ltac:(simpl; lia)) as (h & Eh & Lh & Sh).
  - intros k Hk. unfold in_channel. cbn [length Nat.eqb default_meas m_ch nth]. rewrite unit_dft by lia. apply root_nonzero.
  - simpl. lia.
  - intros t Ht. unfold in_channel. cbn [length Nat.eqb default_meas m_ch nth]. unfold filtered.
    do 8 (destruct t as [|t]; [unfold unit_at, mk, get; simpl; lra|]). lia.
  - exists h. rewrite E. destruct cols as [|o [|]]; try discriminate. cbn in Eh. rewrite Eh. split; auto. split; auto. rewrite !Sh by lia. auto.
Qed.
(** Signals of seven samples: with the default parameters both are transformed with eight points, and going back with seven does not give
    the response of the system, a delay of one sample. *)
Theorem C73_fast_length_refuted :
  exists h, spectral_deconvolve (default_meas [unit_at 7 1]) (default_meas [unit_at 7 0]) false Auto (-30) false false = Ok [Some h] /\
    length h = 7%nat /\ get h 0 = 1 / 7 /\ (forall t, (t < 7)%nat -> circ 7 (unit_at 7 0) (unit_at 7 1) t = get (unit_at 7 1) t).
Proof.
  unfold spectral_deconvolve. cbn [default_meas m_ch m_fs m_sc m_fast m_len hd length Nat.eqb negb orb fft_len]. change (length (unit_at 7 1)) with 7%nat. change (length (unit_at 7 0)) with 7%nat.
  cbn [Nat.eqb negb orb andb]. destruct (Req_EM_T 48000 48000) as [_|N]; [|congruence]. cbn [negb]. change (next_fast_len 7) with 8%nat.
  destruct (specs_ok FFTBackward 8 48000 (fun x => x) [unit_at 7 0] ltac:(lia) eq_refl) as (Xs & EX & LX & VX).
  destruct (specs_ok FFTBackward 8 48000 (fun x => x) [unit_at 7 1] ltac:(lia) eq_refl) as (Ys & EY & LY & VY).
  cbn beta in EX, EY. unfold default_meas. cbn [m_ch m_sc m_fs m_fast fft_len]. change (next_fast_len 7) with 8%nat. rewrite EX. cbn [bind]. rewrite EY. cbn [bind].
  destruct Xs as [|X [|]]; try discriminate. destruct Ys as [|Y [|]]; try discriminate.
  destruct (VX 0%nat ltac:(simpl; lia)) as (LX0 & VX0). destruct (VY 0%nat ltac:(simpl; lia)) as (LY0 & VY0). cbn [nth] in *. change (8 / 2)%nat with 4%nat in *. change (4 + 1)%nat with 5%nat in *.
  assert (B1 : forall z k, cmulr z (bin_factor FFTBackward 8 48000 k) = z). { intros. unfold bin_factor. cbn [has_units fscale]. apply c_ext; simpl; field. }
  destruct (loop_plain [X] (rfftfreq 8 48000) (-30) 48000 7 Auto 5 [Y] 0) as (cols & EC & LC & VC).
  { apply rfftfreq_length. } { intros Z [<-|[]]. auto. } { intros c Hc. simpl in Hc. cbn [length Nat.eqb nth]. auto. }
  rewrite EC. cbn [bind]. specialize (VC 0%nat ltac:(simpl; lia)). cbn [length Nat.eqb nth] in VC. destruct cols as [|o [|]]; try discriminate. cbn [nth] in VC. subst o.
  unfold deconv_plain. rewrite LY0. rewrite (all_some_mk 5 _ (fun k => root 8 (- (Z.of_nat 1 * Z.of_nat k)))).
  2:{ intros k Hk. rewrite VX0, VY0, !B1 by lia. rewrite !unit_dft by lia. rewrite cdiv_some by apply root_nonzero. f_equal.
      replace (- (Z.of_nat 0 * Z.of_nat k))%Z with 0%Z by lia. rewrite root_0. unfold cinv, rc. apply c_ext; simpl; field. }
  cbn [option_map]. eexists. split; [reflexivity|]. split; [apply mk_length|]. split.
  - unfold irfft_n. rewrite (get_mk (HA := CRing_R)) by lia.
    assert (R7 : forall k, root 7 (Z.of_nat k * Z.of_nat 0) = rc 1). { intros k. replace (Z.of_nat k * Z.of_nat 0)%Z with 0%Z by lia. apply root_0. }
    rewrite (sum_ext (HA := CRing_C) 7 _ (fun k => herm 7 (mk 5 (fun k => root 8 (- (Z.of_nat 1 * Z.of_nat k)))) k)).
    2:{ intros k Hk. rewrite R7. change (@rmul C CRing_C) with cmul. apply c_ext; simpl; ring. }
    assert (C1 : forall k, fst (root 8 (- (Z.of_nat 1 * Z.of_nat k))) = cos (INR k * (PI / 4))).
    { intros k. unfold root, cis. cbn [fst]. rewrite opp_IZR, mult_IZR, <- !INR_IZR_INZ. rewrite <- cos_neg. f_equal. simpl INR. field. }
    rewrite csum_fst. unfold herm. change (7 / 2)%nat with 3%nat. cbn [sum Nat.leb Nat.sub]. rewrite !nth_mk' by lia. cbn [cconj fst]. rewrite !C1.
    change (@radd R CRing_R) with Rplus. change (@r0 R CRing_R) with 0.
    assert (V0 : cos (INR 0 * (PI / 4)) = 1) by (simpl INR; rewrite Rmult_0_l; apply cos_0).
    assert (V2 : cos (INR 2 * (PI / 4)) = 0). { replace (INR 2 * (PI / 4)) with (PI / 2) by (simpl INR; field). apply cos_PI2. }
    assert (V3 : cos (INR 3 * (PI / 4)) = - cos (INR 1 * (PI / 4))).
    { replace (INR 3 * (PI / 4)) with (- (INR 1 * (PI / 4)) + PI) by (simpl INR; field). rewrite neg_cos, cos_neg. ring. }
    rewrite V0, V2, V3. simpl INR. field.
  - intros t Ht. unfold circ. do 7 (destruct t as [|t]; [unfold unit_at, mk, get; simpl; lra|]). lia.
Qed.
Print Assumptions C73_fast_length_refuted.
(** Signals whose spectra have a different scaling: deconvolving a signal by itself does not give the unit impulse. *)
Theorem C73_scaling_mismatch_refuted :
  exists h, spectral_deconvolve (mkMeas [unit_at 2 0] 48000 FFTForward true) (mkMeas [unit_at 2 0] 48000 FFTBackward true) false Auto (-30) false false = Ok [Some h] /\ get h 0 = 1 / 2.
Proof.
  unfold spectral_deconvolve. cbn [m_ch m_fs m_sc m_fast m_len hd length Nat.eqb negb orb fft_len]. change (length (unit_at 2 0)) with 2%nat.
  cbn [Nat.eqb negb orb andb]. destruct (Req_EM_T 48000 48000) as [_|N]; [|congruence]. cbn [negb]. unfold fft_len. cbn [m_fast m_fs]. change (next_fast_len 2) with 2%nat.
  destruct (specs_ok FFTBackward 2 48000 (fun x => x) [unit_at 2 0] ltac:(lia) eq_refl) as (Xs & EX & LX & VX).
  destruct (specs_ok FFTForward 2 48000 (fun x => x) [unit_at 2 0] ltac:(lia) eq_refl) as (Ys & EY & LY & VY).
  cbn beta in EX, EY. rewrite EX. cbn [bind]. rewrite EY. cbn [bind].
  destruct Xs as [|X [|]]; try discriminate. destruct Ys as [|Y [|]]; try discriminate.
  destruct (VX 0%nat ltac:(simpl; lia)) as (LX0 & VX0). destruct (VY 0%nat ltac:(simpl; lia)) as (LY0 & VY0). cbn [nth] in *. change (2 / 2)%nat with 1%nat in *. change (1 + 1)%nat with 2%nat in *.
  assert (B1 : forall z k, cmulr z (bin_factor FFTBackward 2 48000 k) = z). { intros. unfold bin_factor. cbn [has_units fscale]. apply c_ext; simpl; field. }
  assert (B2 : forall z k, cmulr z (bin_factor FFTForward 2 48000 k) = cmulr z (/ 2)). { intros. unfold bin_factor. cbn [has_units fscale]. simpl INR. apply c_ext; simpl; field. }
  destruct (loop_plain [X] (rfftfreq 2 48000) (-30) 48000 2 Auto 2 [Y] 0) as (cols & EC & LC & VC).
  { apply rfftfreq_length. } { intros Z [<-|[]]. auto. } { intros c Hc. simpl in Hc. cbn [length Nat.eqb nth]. auto. }
  rewrite EC. cbn [bind]. specialize (VC 0%nat ltac:(simpl; lia)). cbn [length Nat.eqb nth] in VC. destruct cols as [|o [|]]; try discriminate. cbn [nth] in VC. subst o.
  unfold deconv_plain. rewrite LY0. rewrite (all_some_mk 2 _ (fun k => rc (/ 2))).
  2:{ intros k Hk. rewrite VX0, VY0, B1, B2 by lia. rewrite !unit_dft by lia. rewrite cdiv_some by apply root_nonzero. f_equal.
      replace (- (Z.of_nat 0 * Z.of_nat k))%Z with 0%Z by lia. rewrite root_0. unfold cinv, rc. apply c_ext; simpl; field. }
  cbn [option_map]. eexists. split; [reflexivity|]. unfold irfft_n. rewrite (get_mk (HA := CRing_R)) by lia. rewrite csum_fst. unfold herm. change (2 / 2)%nat with 1%nat.
  cbn [sum Nat.leb Nat.sub]. rewrite !nth_mk' by lia. replace (Z.of_nat 0 * Z.of_nat 0)%Z with 0%Z by lia. replace (Z.of_nat 1 * Z.of_nat 0)%Z with 0%Z by lia. rewrite root_0. 
  change (@radd R CRing_R) with Rplus. change (@r0 R CRing_R) with 0. simpl. field.
Qed.
Print Assumptions C73_scaling_mismatch_refuted.
(** With an even number of samples and an upper limit at half the sampling rate (as in automatic mode when the last bin is loud) the
    last bin is regularised with the full weight although it lies in the range. *)
Theorem C73_nyquist_refuted :
  forall out inp h thr keep a, fits out inp (2 * h) (2 * h) -> m_sc out = FFTBackward -> 0 <= a <= m_fs out / 2 ->
  exists cols, spectral_deconvolve out inp true (Two a (m_fs out / 2)) thr false keep = Ok cols /\ length cols = length (m_ch out) /\
  forall ch, (ch < length (m_ch out))%nat -> let x := in_channel inp ch in let y := nth ch (m_ch out) [] in
    (forall k, (k <= h)%nat -> dft (2 * h) x k <> rc 0) -> exists r g, nth ch cols None = Some r /\
      dft (2 * h) r h = cmulr (cmul (dft (2 * h) y h) (cinv (dft (2 * h) x h))) g /\ g < 1 /\
      g = cabs2 (dft (2 * h) x h) / (cabs2 (dft (2 * h) x h) + Rpower 10 (3 / 2)).
Proof.
  intros out inp h thr keep a F Sc Ha. rewrite C73_two_limits. pose proof (f_pos _ _ _ _ F) as Fp. pose proof (f_long _ _ _ _ F) as Fl.
  assert (S2 : 1 < sqrt 2) by (rewrite <- sqrt_1; apply sqrt_lt_1; lra).
  assert (M : Rmin (m_fs out / 2 * sqrt 2) (m_fs out / 2) = m_fs out / 2) by (apply Rmin_right; nra). rewrite M.
  assert (Ea : a / sqrt 2 <= a). { apply Rmult_le_reg_r with (sqrt 2); [lra|]. unfold Rdiv. rewrite Rmult_assoc, Rinv_l by lra. nra. }
  destruct (C73_regularised out inp (2 * h) thr keep (a / sqrt 2) a (m_fs out / 2) (m_fs out / 2) F Sc Ea ltac:(lra) ltac:(lra)) as (cols & E & L & V).
  assert (Hh : (2 * h / 2 = h)%nat) by (rewrite Nat.mul_comm; apply Nat.div_mul; lia). rewrite Hh in V.
  exists cols. split; [exact E|]. split; auto. intros ch Hc x y Hx. destruct (V ch Hc Hx) as (r & g & Er & Lr & Vr). destruct (Vr h (le_n h)) as (D & G & _ & G2).
  exists r, (g h). split; auto. split; [exact D|]. fold x in G2. rewrite G2.
  - split; [|reflexivity]. pose proof (cabs2_pos _ (Hx h (le_n h))) as P. fold x in P. assert (Q : 0 < Rpower 10 (3 / 2)) by apply exp_pos.
    apply Rmult_lt_reg_r with (cabs2 (dft (2 * h) x h) + Rpower 10 (3 / 2)); [lra|]. unfold Rdiv. rewrite Rmult_assoc, Rinv_l by lra. lra.
  - right. unfold bin_freq. rewrite mult_INR. simpl (INR 2). assert (0 < INR h) by (apply lt_0_INR; lia). apply Req_le. field. lra.
Qed.
Print Assumptions C73_nyquist_refuted.

Definition small_first : list R := [11 / 10; 1; 1; 1].
Lemma root4 : root 4 0 = (1, 0) /\ root 4 (-1) = (0, -1) /\ root 4 (-2) = (-1, 0) /\ root 4 (-3) = (0, 1) /\ root 4 (-4) = (1, 0) /\ root 4 (-6) = (-1, 0).
Proof.
  assert (E1 : root 4 (-1) = (0, -1)).
  { unfold root, cis. simpl INR. replace (2 * PI * -1 / (1 + 1 + 1 + 1)) with (- (PI / 2)) by field. rewrite cos_neg, sin_neg, cos_PI2, sin_PI2. reflexivity. }
  assert (E2 : root 4 (-2) = (-1, 0)). { change (-2)%Z with (-1 + -1)%Z. rewrite root_add, E1. apply c_ext; simpl; ring. }
  assert (E3 : root 4 (-3) = (0, 1)). { change (-3)%Z with (-1 + -2)%Z. rewrite root_add, E1, E2. apply c_ext; simpl; ring. }
  assert (E4 : root 4 (-4) = (1, 0)). { change (-4)%Z with (-2 + -2)%Z. rewrite root_add, E2. apply c_ext; simpl; ring. }
  repeat split; auto. apply root_0. change (-6)%Z with (-2 + -4)%Z. rewrite root_add, E2, E4. apply c_ext; simpl; ring.
Qed.
Lemma small_first_dft k : (k <= 2)%nat -> dft 4 small_first k = rc (if (k =? 0)%nat then 41 / 10 else 1 / 10).
Proof.
  intros Hk. destruct root4 as (R0 & R1 & R2 & R3 & R4 & R6). unfold dft, small_first.
  destruct k as [|[|[|k]]]; [| | |lia].
  all: cbn [sum get nth Nat.eqb]; change (@rmul C CRing_C) with cmul; change (@radd C CRing_C) with cadd; change (@r0 C CRing_C) with (rc 0); change (@r0 R CRing_R) with 0.
  all: cbn [Z.of_nat Z.mul Z.opp Pos.mul Pos.of_succ_nat Pos.succ Pos.add].
  all: rewrite ?R0, ?R1, ?R2, ?R3, ?R4, ?R6; apply c_ext; simpl; try lra.

Qed.
Lemma small_tiny a : 1 / 10 <= a -> Rmax a tiny = a.
Proof.
  intros Ha. apply Rmax_left. assert (tiny <= / 2 ^ 4). { unfold tiny. apply Rinv_le_contravar. apply pow_lt; lra. apply Rle_pow; [lra|lia]. } simpl in H. lra.
Qed.
Lemma sqrt_cabs_rc a : 0 <= a -> sqrt (cabs2 (rc a)) = a.
Proof. intros. unfold cabs2, rc. simpl. replace (a * a + 0 * 0) with (a * a) by ring. now apply sqrt_square. Qed.
Lemma unit_amp k : sqrt (cabs2 (dft 4 (unit_at 4 0) k)) = 1.
Proof. rewrite unit_dft, root_abs by lia. apply sqrt_1. Qed.
(** The range found from the first channel is used for the others: deconvolving a second channel by itself gives a different result when
    it is done together with the first one. *)
Theorem C73_first_channel_range_refuted :
  let both := mkMeas [unit_at 4 0; small_first] 4 FFTBackward true in let one := mkMeas [small_first] 4 FFTBackward true in
  exists h0 h1 h2, spectral_deconvolve both both true Auto (-20) false false = Ok [Some h0; Some h1] /\
    spectral_deconvolve one one true Auto (-20) false false = Ok [Some h2] /\ h1 <> h2 /\
    dft 4 h1 1 = rc 1 /\ dft 4 h2 1 = rc (1 / 100 / (1 / 100 + Rpower 10 (3 / 2))).
Proof.
  intros both one.
  assert (FB : fits both both 4 4). { constructor; simpl; auto; try lra; try discriminate; intros x [<-|[<-|[]]]; reflexivity. }
  assert (FO : fits one one 4 4). { constructor; simpl; auto; try lra; try discriminate; intros x [<-|[]]; reflexivity. }
  assert (T : Rpower 10 (-20 / 20) = 1 / 10). { replace (-20 / 20) with (- (1)) by field. rewrite Rpower_Ropp, Rpower_1 by lra. field. }
  assert (S2 : 1 < sqrt 2) by (rewrite <- sqrt_1; apply sqrt_lt_1; lra).
  assert (NZ : forall k, (k <= 2)%nat -> dft 4 small_first k <> rc 0). { intros k Hk. rewrite small_first_dft by auto. intros Q. apply (f_equal fst) in Q. simpl in Q. destruct (k =? 0)%nat; lra. }
  destruct (C73_automatic_range both both 4 (-20) false FB eq_refl ltac:(lra)) as (i & j & Hi & Hj & _ & _ & W & EB). change (4 / 2)%nat with 2%nat in *.
  change (in_channel both 0) with (unit_at 4 0) in W.
  assert (AL : forall k, (k <= 2)%nat -> loud (-20) (2 + 1) (fun k => sqrt (cabs2 (dft 4 (unit_at 4 0) k))) k).
  { intros k Hk q Hq. rewrite !unit_amp, T, !small_tiny by lra. lra. }
  pose proof (W 0%nat ltac:(lia) (AL 0%nat ltac:(lia))). pose proof (W 2%nat ltac:(lia) (AL 2%nat ltac:(lia))). assert (i = 0%nat) by lia. assert (j = 2%nat) by lia. subst i j. clear W.
  destruct (C73_automatic_range one one 4 (-20) false FO eq_refl ltac:(lra)) as (i & j & Ii & Jj & LI & LJ & _ & EO). change (4 / 2)%nat with 2%nat in *.
  change (in_channel one 0) with small_first in LI, LJ.
  assert (ZL : forall k, (k <= 2)%nat -> loud (-20) (2 + 1) (fun k => sqrt (cabs2 (dft 4 small_first k))) k -> k = 0%nat).
  { intros k Hk HL. destruct k as [|k]; auto. specialize (HL 0%nat ltac:(lia)). cbv beta in HL. rewrite !small_first_dft, T in HL by lia. cbn [Nat.eqb] in HL.
    rewrite !sqrt_cabs_rc, !small_tiny in HL by lra. lra. }
  pose proof (ZL i Ii LI). pose proof (ZL j Jj LJ). subst i j.
  rewrite EB, EO, !C73_two_limits. cbn [m_fs both one].
  replace (bin_freq 4 4 0) with 0 by (unfold bin_freq; simpl; field). replace (bin_freq 4 4 2) with 2 by (unfold bin_freq; simpl; field).
  replace (0 / sqrt 2) with 0 by (field; lra). replace (Rmin (0 * sqrt 2) (4 / 2)) with 0 by (rewrite Rmult_0_l; symmetry; apply Rmin_left; lra).
  replace (Rmin (2 * sqrt 2) (4 / 2)) with 2 by (rewrite Rmin_right; lra).
  destruct (C73_regularised both both 4 (-20) false 0 0 2 2 FB eq_refl ltac:(lra) ltac:(lra) ltac:(lra)) as (cb & CB & LB & VB).
  destruct (C73_regularised one one 4 (-20) false 0 0 0 0 FO eq_refl ltac:(lra) ltac:(lra) ltac:(lra)) as (co & CO & LO & VO).
  change (4 / 2)%nat with 2%nat in *. cbn [m_ch both one length] in LB, LO, VB, VO.
  destruct (VB 0%nat ltac:(lia)) as (h0 & g0 & E0 & _ & _). { intros k Hk. change (in_channel both 0) with (unit_at 4 0). rewrite unit_dft by lia. apply root_nonzero. }
  destruct (VB 1%nat ltac:(lia)) as (h1 & g1 & E1 & _ & V1). { intros k Hk. now apply NZ. }
  destruct (VO 0%nat ltac:(lia)) as (h2 & g2 & E2 & _ & V2). { intros k Hk. now apply NZ. }
  destruct cb as [|u0 [|u1 [|]]]; try discriminate. destruct co as [|w0 [|]]; try discriminate. cbn [nth] in E0, E1, E2. subst u0 u1 w0.
  exists h0, h1, h2. split; [exact CB|]. split; [exact CO|].
  assert (D1 : dft 4 h1 1 = rc 1).
  { destruct (V1 1%nat ltac:(lia)) as (D & _ & G & _). cbn [m_fs both] in G. rewrite D, G.
    - change (in_channel both 1) with small_first. cbn [nth]. rewrite small_first_dft by lia. cbn [Nat.eqb]. unfold cinv, rc, cmulr. apply c_ext; simpl; field.
    - unfold bin_freq. simpl. lra.
    - unfold bin_freq. simpl. lra.
    - lia. }
  assert (D2 : dft 4 h2 1 = rc (1 / 100 / (1 / 100 + Rpower 10 (3 / 2)))).
  { destruct (V2 1%nat ltac:(lia)) as (D & _ & _ & G). cbn [m_fs one] in G. rewrite D, G.
    - change (in_channel one 0) with small_first. cbn [nth]. rewrite small_first_dft by lia. cbn [Nat.eqb].
      assert (Q : 0 < Rpower 10 (3 / 2)) by apply exp_pos. unfold cinv, rc, cmulr, cabs2. apply c_ext; simpl; field; lra.
    - right. unfold bin_freq. simpl. lra. }
  split; [|auto]. intros ->. rewrite D1 in D2. apply (f_equal fst) in D2. simpl in D2. assert (Q : 0 < Rpower 10 (3 / 2)) by apply exp_pos.
  assert (1 / 100 + Rpower 10 (3 / 2) = 1 / 100). { apply Rmult_eq_reg_r with (/ (1 / 100 + Rpower 10 (3 / 2))); [|apply Rinv_neq_0_compat; lra]. rewrite Rinv_r by lra. exact D2. } lra.
Qed.
Print Assumptions C73_first_channel_range_refuted.
(** The theorems of the regularised deconvolution apply to it. *)
Example C73_regularised_example :
  let s := mkMeas [small_first] 4 FFTBackward true in
  fits s s 4 4 /\ (forall k, (k <= 4 / 2)%nat -> dft 4 (in_channel s 0) k <> rc 0) /\ (0 <= 1 <= m_fs s / 2).
Proof.
  split. { constructor; simpl; auto; try lra; try discriminate; intros x [<-|[]]; reflexivity. }
  split. { intros k Hk. change (in_channel _ 0) with small_first. change (4 / 2)%nat with 2%nat in Hk. rewrite small_first_dft by auto. intros Q. apply (f_equal fst) in Q. simpl in Q. destruct (k =? 0)%nat; lra. }
  simpl. lra.
Qed.
