(** C62: frequency-weighted segmental signal-to-noise ratio. *)
From Coq Require Import List Arith Lia ZArith Bool Reals Lra Psatz.
From Verif Require Import Alg Spec Dft M_arrays M_latency M_dynamics M_level P_realtime P_ar Claims_level M_distances Claims_distances Claims_room P_distances.
Import ListNotations.
Local Open Scope R_scope.

(** ** Specification *)
(** Magnitude of bin k in frame i of a band signal, and the sum over the bins. *)
Definition frame (win : list R) (step : nat) (b : list R) (i : nat) : list R := mk (length win) (fun t => get b (i * step + t) * get win t).
Definition bin (win : list R) (step : nat) (b : list R) (i k : nat) : R := sqrt (cabs2 (dft (length win) (frame win step b i) k)).
Definition bins (win : list R) : nat := (length win / 2 + 1)%nat.
Definition whole (win : list R) (step : nat) (b : list R) (i : nat) : R := rsum (bins win) (bin win step b i).
(** Bands of the same length; frames i with i * step < len are analysed. *)
Definition bands (len : nat) (x : list (list R)) : Prop := x <> [] /\ forall b, In b x -> length b = len.
Definition is_frame (step len i : nat) : Prop := (i * step < len)%nat.
Definition silent (win : list R) (step : nat) (b : list R) (i : nat) : Prop := forall t, (t < length win)%nat -> get b (i * step + t) = 0.

(** ** Lemmas *)
Lemma xsum_nan l : In NaN l -> xsum l = NaN.
Proof. induction l as [|a l IH]; [easy|]. intros [->|H]; simpl. reflexivity. unfold xsum in *. rewrite IH by auto. now destruct a. Qed.
Lemma xsum_range lo hi l : Forall (fun e => e = NaN \/ exists v, e = Fin v /\ lo <= v <= hi) l -> xsum l = NaN \/ exists v, xsum l = Fin v /\ INR (length l) * lo <= v <= INR (length l) * hi.
Proof.
  induction 1 as [|a l Ha _ IH]. right. exists 0. split; [reflexivity|]. simpl. lra.
  change (xsum (a :: l)) with (xadd a (xsum l)). destruct Ha as [->|(u & -> & Hu)]; [now left|]. destruct IH as [->|(v & -> & Hv)]; [now left|]. right. exists (u + v). split; [reflexivity|].
  cbn [length]. rewrite S_INR. lra.
Qed.
Lemma xsum_fin (f : nat -> R) n g : (forall j, (j < n)%nat -> g j = Fin (f j)) -> xsum (mk n g) = Fin (rsum n f).
Proof.
  revert f g. induction n as [|n IH]; intros f g H. reflexivity. unfold mk. rewrite <- cons_seq. cbn [map]. rewrite <- seq_shift, map_map. change (xadd (g 0%nat) (xsum (mk n (fun j => g (S j)))) = Fin (rsum (S n) f)).
  rewrite (IH (fun j => f (S j))) by (intros; apply H; lia). rewrite H by lia. rewrite (sum_S_front (HA := CRing_R)). reflexivity.
Qed.
Lemma xsum_scale k l : xsum (map (xscale k) l) = xscale k (xsum l).
Proof. induction l as [|a l IH]. cbn. f_equal. ring. cbn [map]. change (xadd (xscale k a) (xsum (map (xscale k) l)) = xscale k (xadd a (xsum l))). rewrite IH. destruct a, (xsum l); simpl; try reflexivity. f_equal. ring. Qed.
Lemma fold_sum l : fold_right Rplus 0 l = rsum (length l) (get l).
Proof. induction l as [|a l IH]. reflexivity. cbn [length fold_right]. rewrite (sum_S_front (HA := CRing_R)), IH. reflexivity. Qed.
Lemma in_mk {T} n (f : nat -> T) i : (i < n)%nat -> In (f i) (mk n f).
Proof. intros H. unfold mk. apply in_map. apply in_seq. lia. Qed.

Lemma in_mk_eq {T} n (f : nat -> T) i v : (i < n)%nat -> f i = v -> In v (mk n f).
Proof. intros H <-. now apply in_mk. Qed.

Lemma frames_count step len i : (0 < step)%nat -> ((i < (len + (step - 1)) / step)%nat <-> is_frame step len i).
Proof.
  intros Hs. unfold is_frame. pose proof (Nat.div_mod (len + (step - 1)) step ltac:(lia)) as D. pose proof (Nat.mod_upper_bound (len + (step - 1)) step ltac:(lia)) as M. set (n := ((len + (step - 1)) / step)%nat) in *. split; intros H; nia.
Qed.
Lemma seg_frame win step len b i : (0 < step)%nat -> length b = len -> is_frame step len i -> vwin win (seg win step len b i) = frame win step b i.
Proof.
  intros Hs Lb Hi. unfold vwin, frame. unfold mk. apply map_ext_in. intros t Ht. apply in_seq in Ht. f_equal. unfold seg. rewrite get_first, get_skip by lia.
  unfold pad_trim_col. rewrite Lb. destruct (Nat.eqb_spec len (len + (length win - len mod step))); [reflexivity|]. destruct (Nat.ltb_spec len (len + (length win - len mod step))); [|lia].
  destruct (Nat.lt_ge_cases (i * step + t) len). now rewrite (get_app_l (HA := CRing_R)) by lia.
  rewrite (get_app_r (HA := CRing_R)) by lia. rewrite (get_repeat0 (HA := CRing_R)). symmetry. apply (get_out (HA := CRing_R)). lia.
Qed.
Lemma mag_bin win step len b i k : (0 < step)%nat -> length b = len -> is_frame step len i -> (k < bins win)%nat -> get (mag (length win) (vwin win (seg win step len b i))) k = bin win step b i k.
Proof. intros Hs Lb Hi Hk. rewrite (seg_frame win step len b i) by auto. unfold mag. rewrite get_mk by exact Hk. reflexivity. Qed.
Lemma mag_whole win step len b i : (0 < step)%nat -> length b = len -> is_frame step len i -> fold_right Rplus 0 (mag (length win) (vwin win (seg win step len b i))) = whole win step b i.
Proof.
  intros Hs Lb Hi. rewrite fold_sum. replace (length (mag _ _)) with (bins win) by (unfold mag; now rewrite mk_length). apply sum_ext. intros k Hk. now apply (mag_bin win step len).
Qed.
Lemma bin_nonneg win step b i k : 0 <= bin win step b i k.
Proof. apply sqrt_pos. Qed.
Lemma whole_nonneg win step b i : 0 <= whole win step b i.
Proof. apply rsum_nonneg. intros. apply bin_nonneg. Qed.
(** One band in one bin, in terms of the specification. *)
Definition term (gamma X sx Y sy : R) : ext :=
  if Req_EM_T sx 0 then NaN else if Req_EM_T sy 0 then NaN else
  if Rlt_dec 0 X then xscale (rpowg X gamma) (xlog10 (xdiv ((X / sx) ^ 2) ((X / sx - Y / sy + eps30) ^ 2))) else NaN.
Definition frame_value (lo hi : R) (n : nat) (e : ext) : ext :=
  match e with
  | Fin v => let m := v / INR n in let m := if Rlt_dec m lo then lo else m in Fin (if Rlt_dec hi m then hi else m)
  | PInf => Fin hi | NInf => Fin (if Rlt_dec hi lo then hi else lo) | NaN => NaN
  end.
Lemma fw_frame_eq win step len gamma lo hi x y i : (0 < step)%nat -> (forall b, In b x -> length b = len) -> (forall b, In b y -> length b = len) -> is_frame step len i ->
  fw_frame win gamma lo hi (map (fun b => seg win step len b i) x) (map (fun b => seg win step len b i) y) =
  frame_value lo hi (bins win) (xsum (mk (bins win) (fun j =>
    match xsum (map (fun p => term gamma (bin win step (fst p) i j) (whole win step (fst p) i) (bin win step (snd p) i j) (whole win step (snd p) i)) (combine x y)) with
    | Fin v => xdiv (10 * v) (fold_right Rplus 0 (map (fun b => rpowg (bin win step b i j) gamma) x)) | e => e end))).
Proof.
  intros Hs Lx Ly Hi. unfold fw_frame, frame_value. fold (bins win).
  match goal with |- match xsum ?a with _ => _ end = match xsum ?b with _ => _ end => replace a with b; [reflexivity|] end.
  unfold mk. apply map_ext_in. intros j Hj. apply in_seq in Hj.
  rewrite (map_map (fun b => seg win step len b i)).
  match goal with |- match xsum ?a with _ => _ end = match xsum ?b with _ => _ end => replace a with b end.
  - match goal with |- match ?e with _ => _ end = _ => destruct e end; try reflexivity. f_equal. f_equal. apply map_ext_in. intros b Hb. now rewrite (mag_bin win step len) by (auto; lia).
  - symmetry. assert (Hk : (j < bins win)%nat) by lia. clear Hj. revert y Ly. induction x as [|b x IH]; intros y Ly; [reflexivity|]. destruct y as [|c y]; [reflexivity|].
    cbn [map combine]. rewrite IH; [|intros; apply Lx; now right|intros; apply Ly; now right]. f_equal. pose proof (Lx b (or_introl eq_refl)) as Lb. pose proof (Ly c (or_introl eq_refl)) as Lc.
    unfold fw_bin, term. cbn [fst snd]. rewrite !(mag_whole win step len) by auto. now rewrite !(mag_bin win step len) by auto.
Qed.
Lemma fw_eq win step len gamma lo hi x y : (0 < step)%nat -> (0 < len)%nat -> bands len x -> bands len y ->
  let n := ((len + (step - 1)) / step)%nat in
  (0 < n)%nat /\ fw_snr_seg win step gamma lo hi x y =
  Ok (match xsum (mk n (fun i => frame_value lo hi (bins win) (xsum (mk (bins win) (fun j =>
    match xsum (map (fun p => term gamma (bin win step (fst p) i j) (whole win step (fst p) i) (bin win step (snd p) i j) (whole win step (snd p) i)) (combine x y)) with
    | Fin v => xdiv (10 * v) (fold_right Rplus 0 (map (fun b => rpowg (bin win step b i j) gamma) x)) | e => e end))))) with Fin v => Fin (v / INR n) | e => e end).
Proof.
  intros Hs Hl [Nx Lx] [Ny Ly] n. assert (Hn : (0 < n)%nat) by (apply frames_count; auto; unfold is_frame; lia). split; auto.
  unfold fw_snr_seg. assert (E : rows x = len). { unfold rows. destruct x as [|b x]; [congruence|]. apply Lx. now left. } rewrite E. fold n. destruct (Nat.eqb_spec n 0); [lia|].
  match goal with |- Ok match xsum ?a with _ => _ end = Ok match xsum ?b with _ => _ end => replace a with b; [reflexivity|] end.
  unfold mk. apply map_ext_in. intros i Hi. apply in_seq in Hi. symmetry. apply (fw_frame_eq win step len); auto. apply frames_count; auto. fold n. lia.
Qed.
Lemma frame_value_range lo hi n e : lo <= hi -> frame_value lo hi n e = NaN \/ exists v, frame_value lo hi n e = Fin v /\ lo <= v <= hi.
Proof.
  intros H. destruct e as [v| | |]; simpl; [| | |now left]; right; eexists; (split; [reflexivity|]); repeat destruct (Rlt_dec _ _); lra.
Qed.

(** ** Theorems *)
(** A number inside the requested range, or nan. *)
Theorem C62_range win step len gamma lo hi x y : (0 < step)%nat -> (0 < len)%nat -> bands len x -> bands len y -> lo <= hi ->
  fw_snr_seg win step gamma lo hi x y = Ok NaN \/ exists v, fw_snr_seg win step gamma lo hi x y = Ok (Fin v) /\ lo <= v <= hi.
Proof.
  intros Hs Hl Bx By H. destruct (fw_eq win step len gamma lo hi x y Hs Hl Bx By) as [Hn E]. rewrite E. set (n := ((len + (step - 1)) / step)%nat) in *.
  match goal with |- Ok match xsum ?l with _ => _ end = _ \/ _ => set (L := l); destruct (xsum_range lo hi L) as [R|(v & R & Hv)] end.
  - apply Forall_forall. intros e He. unfold L, mk in He. apply in_map_iff in He. destruct He as (i & <- & _). now apply frame_value_range.
  - rewrite R. now left.
  - rewrite R. right. exists (v / INR n). split; [reflexivity|]. replace (length L) with n in Hv by (unfold L; now rewrite mk_length). assert (0 < INR n) by (apply lt_0_INR; lia).
    split; apply (Rmult_le_reg_r (INR n)); auto; unfold Rdiv; rewrite ?Rmult_assoc, ?Rinv_l by lra; lra.
Qed.
Print Assumptions C62_range.

(** One silent frame in one band of either signal, and the value is nan. *)
Lemma dft_zero n l k : (forall t, (t < n)%nat -> get l t = 0) -> dft n l k = (0, 0).
Proof. intros H. unfold dft. apply (sum_zero' (HA := CRing_C)). intros t Ht. rewrite H by auto. unfold rc. apply c_ext; simpl; ring. Qed.
Lemma silent_bin win step b i k : silent win step b i -> bin win step b i k = 0.
Proof.
  intros H. unfold bin. rewrite dft_zero. unfold cabs2. simpl. replace (0 * 0 + 0 * 0) with 0 by ring. apply sqrt_0.
  intros t Ht. unfold frame. rewrite get_mk by auto. rewrite H by auto. ring.
Qed.
Lemma silent_whole win step b i : silent win step b i -> whole win step b i = 0.
Proof. intros H. apply (sum_zero' (HA := CRing_R)). intros. now apply silent_bin. Qed.
Theorem C62_silence_refuted win step len gamma lo hi x y m i : (0 < step)%nat -> (0 < len)%nat -> bands len x -> bands len y -> length y = length x -> (m < length x)%nat -> is_frame step len i ->
  silent win step (nth m x []) i \/ silent win step (nth m y []) i -> fw_snr_seg win step gamma lo hi x y = Ok NaN.
Proof.
  intros Hs Hl Bx By Ll Hm Hi S. destruct (fw_eq win step len gamma lo hi x y Hs Hl Bx By) as [Hn E]. rewrite E. rewrite xsum_nan; [reflexivity|].
  apply (in_mk_eq _ _ i); [now apply frames_count|]. cbv beta.
  rewrite xsum_nan; [reflexivity|].
  apply (in_mk_eq _ _ 0%nat); [unfold bins; lia|]. cbv beta. rewrite xsum_nan; [reflexivity|].
  assert (I : In (nth m x [], nth m y []) (combine x y)) by (rewrite <- combine_nth by auto; apply nth_In; rewrite combine_length; lia).
  apply in_map_iff. exists (nth m x [], nth m y []). split; auto. cbn [fst snd]. unfold term. destruct S as [S|S]; rewrite (silent_whole _ _ _ _ S); repeat destruct (Req_EM_T _ _); auto; congruence.
Qed.
Print Assumptions C62_silence_refuted.

(** Neither the gain of the reference nor any gain of the bands of the other signal matters: a wrong balance of the bands is not noticed. *)
Lemma dft_amp n l g k : dft n (map (fun v => v * g) l) k = cmul (rc g) (dft n l k).
Proof. unfold dft. rewrite <- (sum_scal_l (HA := CRing_C)). apply sum_ext. intros t Ht. rewrite get_amp. apply c_ext; unfold rc; simpl; ring. Qed.
Lemma bin_gain win step b g i k : bin win step (map (fun v => v * g) b) i k = Rabs g * bin win step b i k.
Proof.
  unfold bin. replace (frame win step (map (fun v => v * g) b) i) with (map (fun v => v * g) (frame win step b i)).
  rewrite dft_amp. rewrite <- sqrt_Rsqr_abs, <- sqrt_mult_alt by apply Rle_0_sqr. f_equal. unfold cabs2, rc, Rsqr. simpl. ring.
  unfold frame, mk. rewrite map_map. apply map_ext. intros t. rewrite get_amp. ring.
Qed.
Lemma whole_gain win step b g i : whole win step (map (fun v => v * g) b) i = Rabs g * whole win step b i.
Proof. unfold whole. rewrite <- (sum_scal_l (HA := CRing_R)). apply sum_ext. intros. apply bin_gain. Qed.
Lemma rpowg_mult g x a : 0 < g -> 0 <= x -> rpowg (g * x) a = Rpower g a * rpowg x a.
Proof.
  intros Hg Hx. unfold rpowg. destruct (Rlt_dec 0 x) as [P|P].
  - destruct (Rlt_dec 0 (g * x)) as [Q|Q]. symmetry. now apply Rpower_mult_distr. destruct Q. now apply Rmult_lt_0_compat.
  - replace x with 0 by lra. rewrite Rmult_0_r. destruct (Rlt_dec 0 0); lra.
Qed.
Lemma term_gain gamma g h X sx Y sy : 0 < g -> 0 < h -> 0 <= X -> term gamma (g * X) (g * sx) (h * Y) (h * sy) = xscale (Rpower g gamma) (term gamma X sx Y sy).
Proof.
  intros Hg Hh HX. unfold term. destruct (Req_EM_T sx 0) as [->|N1]. { destruct (Req_EM_T (g * 0) 0); [reflexivity|lra]. }
  destruct (Req_EM_T (g * sx) 0) as [Z|_]. { apply Rmult_integral in Z. lra. }
  destruct (Req_EM_T sy 0) as [->|N2]. { destruct (Req_EM_T (h * 0) 0); [reflexivity|lra]. }
  destruct (Req_EM_T (h * sy) 0) as [Z|_]. { apply Rmult_integral in Z. lra. }
  replace (g * X / (g * sx)) with (X / sx) by (field; lra). replace (h * Y / (h * sy)) with (Y / sy) by (field; lra). rewrite rpowg_mult by auto.
  destruct (Rlt_dec 0 X) as [P|P]; destruct (Rlt_dec 0 (g * X)) as [Q|Q].
  - destruct (xlog10 _); simpl; try reflexivity. f_equal. ring.
  - destruct Q. now apply Rmult_lt_0_compat.
  - exfalso. assert (X = 0) as -> by lra. lra.
  - reflexivity.
Qed.
Theorem C62_gains win step len gamma lo hi x y a c : (0 < step)%nat -> (0 < len)%nat -> bands len x -> bands len y -> length y = length x -> length c = length y -> a <> 0 -> (forall m, (m < length y)%nat -> get c m <> 0) ->
  fw_snr_seg win step gamma lo hi (map (map (fun v => v * a)) x) (mk (length y) (fun m => map (fun v => v * get c m) (nth m y []))) = fw_snr_seg win step gamma lo hi x y.
Proof.
  intros Hs Hl Bx By Ll Lc Ha Hc. set (x' := map (map (fun v => v * a)) x). set (y' := mk (length y) (fun m => map (fun v => v * get c m) (nth m y []))).
  assert (Bx' : bands len x'). { destruct Bx as [N L]. split. unfold x'. destruct x; [congruence|discriminate]. intros b Hb. unfold x' in Hb. apply in_map_iff in Hb. destruct Hb as (u & <- & Hu). rewrite map_length. now apply L. }
  assert (By' : bands len y'). { destruct By as [N L]. split. intros E. apply (f_equal (@length _)) in E. unfold y' in E. rewrite mk_length in E. destruct y; [congruence|discriminate].
    intros b Hb. unfold y', mk in Hb. apply in_map_iff in Hb. destruct Hb as (u & <- & Hu). apply in_seq in Hu. rewrite map_length. apply L. apply nth_In. lia. }
  destruct (fw_eq win step len gamma lo hi x y Hs Hl Bx By) as [_ E]. destruct (fw_eq win step len gamma lo hi x' y' Hs Hl Bx' By') as [_ E']. rewrite E, E'.
  match goal with |- Ok match xsum ?a with _ => _ end = Ok match xsum ?b with _ => _ end => replace a with b; [reflexivity|] end.
  unfold mk at 1 3. apply map_ext. intros i. f_equal. f_equal. unfold mk at 1 2. apply map_ext. intros j.
  assert (Pa : 0 < Rabs a) by now apply Rabs_pos_lt. assert (PP : 0 < Rpower (Rabs a) gamma) by apply exp_pos.
  match goal with |- match xsum ?u with _ => _ end = match xsum ?v with _ => _ end => assert (EX : v = map (xscale (Rpower (Rabs a) gamma)) u) end.
  { rewrite map_map. assert (L1 : length (combine x' y') = length (combine x y)) by (rewrite !combine_length; unfold x', y'; rewrite map_length, mk_length; reflexivity).
    apply nth_ext with (d := NaN) (d' := NaN). now rewrite !map_length. intros m Hm. rewrite map_length in Hm. rewrite !(nth_map' _ _ m ([], [])) by lia. 
    assert (Hm' : (m < length x)%nat) by (rewrite L1, combine_length, Ll in Hm; lia).
    rewrite !combine_nth by (unfold x', y'; rewrite ?map_length, ?mk_length; auto). cbn [fst snd]. unfold x', y'. rewrite (nth_mk (length y)) by lia. rewrite (nth_map' _ _ m []) by auto.
    rewrite !bin_gain, !whole_gain. apply term_gain; auto. apply Rabs_pos_lt, Hc. lia. apply bin_nonneg. }
  rewrite EX, xsum_scale. match goal with |- match ?u with _ => _ end = _ => destruct u as [v| | |] end; try reflexivity. cbn [xscale].
  replace (fold_right Rplus 0 (map (fun b => rpowg (bin win step b i j) gamma) x')) with (Rpower (Rabs a) gamma * fold_right Rplus 0 (map (fun b => rpowg (bin win step b i j) gamma) x)).
  2:{ unfold x'. clear -Pa. induction x as [|b x IH]; simpl. ring. rewrite <- IH, bin_gain, rpowg_mult by (auto; apply bin_nonneg). ring. }
  set (w := fold_right Rplus 0 _). set (P := Rpower _ _) in *. unfold xdiv. destruct (Req_EM_T w 0) as [->|N].
  - destruct (Req_EM_T (P * 0) 0); [|lra]. destruct (Rlt_dec 0 (10 * v)), (Rlt_dec 0 (10 * (P * v))); try reflexivity; try nra. destruct (Rlt_dec (10 * v) 0), (Rlt_dec (10 * (P * v)) 0); try reflexivity; nra.
  - destruct (Req_EM_T (P * w) 0) as [Z|_]. apply Rmult_integral in Z. lra. f_equal. field. lra.
Qed.
Print Assumptions C62_gains.

(** A signal compared with itself, or with any rescaled copy of its bands, has the highest value of the range, provided no bin is more
    than 600 - hi dB below its frame. *)
Theorem C62_copy win step len gamma lo hi x c : (0 < step)%nat -> (0 < len)%nat -> bands len x -> length c = length x -> lo <= hi -> (forall m, (m < length x)%nat -> get c m <> 0) ->
  (forall m i k, (m < length x)%nat -> is_frame step len i -> (k < bins win)%nat -> 0 < whole win step (nth m x []) i /\ Rpower 10 (hi / 20 - 30) <= bin win step (nth m x []) i k / whole win step (nth m x []) i) ->
  fw_snr_seg win step gamma lo hi x (mk (length x) (fun m => map (fun v => v * get c m) (nth m x []))) = Ok (Fin hi).
Proof.
  intros Hs Hl Bx Lc Hlh Hc Hb.
  replace x with (map (map (fun v => v * 1)) x) at 1 by (rewrite <- (map_id x) at 2; apply map_ext; intros b; rewrite <- (map_id b) at 2; apply map_ext; intros; ring).
  rewrite (C62_gains win step len) by (auto; lra). destruct (fw_eq win step len gamma lo hi x x Hs Hl Bx Bx) as [Hn E]. rewrite E. set (n := ((len + (step - 1)) / step)%nat) in *.
  pose proof ln10_pos as L10.
  assert (T : forall m i k, (m < length x)%nat -> is_frame step len i -> (k < bins win)%nat -> exists l, hi / 10 <= l /\ 0 < bin win step (nth m x []) i k /\ term gamma (bin win step (nth m x []) i k) (whole win step (nth m x []) i) (bin win step (nth m x []) i k) (whole win step (nth m x []) i) = Fin (rpowg (bin win step (nth m x []) i k) gamma * l)).
  { intros m i k Hm Hi Hk. destruct (Hb m i k Hm Hi Hk) as [W B]. set (X := bin _ _ _ _ _) in *. set (sx := whole _ _ _ _) in *. pose proof (exp_pos ((hi / 20 - 30) * ln 10)) as P. fold (Rpower 10 (hi / 20 - 30)) in P.
    assert (PX : 0 < X). { apply (Rmult_lt_reg_r (/ sx)). now apply Rinv_0_lt_compat. unfold Rdiv in B. lra. }
    assert (A : 0 < X / sx) by lra. assert (Pe : 0 < eps30) by (unfold eps30; apply Rinv_0_lt_compat, pow_lt; lra).
    unfold term. destruct (Req_EM_T sx 0); [lra|]. destruct (Rlt_dec 0 X); [|lra]. replace (X / sx - X / sx + eps30) with eps30 by ring. unfold xdiv. destruct (Req_EM_T (eps30 ^ 2) 0) as [Z|_]. { exfalso. pose proof (pow_lt eps30 2 Pe). lra. }
    unfold xlog10. assert (Q : 0 < (X / sx) ^ 2 / eps30 ^ 2) by (apply Rdiv_lt_0_compat; apply pow_lt; auto). destruct (Rlt_dec 0 ((X / sx) ^ 2 / eps30 ^ 2)); [|lra]. cbn [xscale]. exists (ln ((X / sx) ^ 2 / eps30 ^ 2) / ln 10). split; [|split; auto].
    assert (V : ln ((X / sx) ^ 2 / eps30 ^ 2) = 2 * ln (X / sx) + 60 * ln 10).
    { rewrite ln_quot by (apply pow_lt; auto). replace (ln ((X / sx) ^ 2)) with (2 * ln (X / sx)) by (simpl; rewrite Rmult_1_r, ln_mult by auto; ring).
      replace (ln (eps30 ^ 2)) with (2 * ln eps30) by (simpl; rewrite Rmult_1_r, ln_mult by auto; ring). unfold eps30. rewrite ln_Rinv by (apply pow_lt; lra). rewrite ln_pow by lra. replace (INR 30) with 30 by (simpl; ring). ring. }
    rewrite V. assert (G : (hi / 20 - 30) * ln 10 <= ln (X / sx)). { destruct B as [B|B]. left. rewrite <- (ln_exp ((hi / 20 - 30) * ln 10)). apply ln_increasing; auto. right. rewrite <- (ln_exp ((hi / 20 - 30) * ln 10)). unfold Rpower in B. now rewrite B. }
    apply (Rmult_le_reg_r (ln 10)); auto. unfold Rdiv at 2. rewrite Rmult_assoc, Rinv_l by lra. lra. }
  assert (F : forall i, is_frame step len i -> frame_value lo hi (bins win) (xsum (mk (bins win) (fun j =>
    match xsum (map (fun p => term gamma (bin win step (fst p) i j) (whole win step (fst p) i) (bin win step (snd p) i j) (whole win step (snd p) i)) (combine x x)) with
    | Fin v => xdiv (10 * v) (fold_right Rplus 0 (map (fun b => rpowg (bin win step b i j) gamma) x)) | e => e end))) = Fin hi).
  { intros i Hi.
    assert (J : forall j, (j < bins win)%nat -> exists v, hi <= v /\ match xsum (map (fun p => term gamma (bin win step (fst p) i j) (whole win step (fst p) i) (bin win step (snd p) i j) (whole win step (snd p) i)) (combine x x)) with
      | Fin v => xdiv (10 * v) (fold_right Rplus 0 (map (fun b => rpowg (bin win step b i j) gamma) x)) | e => e end = Fin v).
    { intros j Hj.
      assert (G : forall z, (forall b, In b z -> In b x) -> exists s, xsum (map (fun p => term gamma (bin win step (fst p) i j) (whole win step (fst p) i) (bin win step (snd p) i j) (whole win step (snd p) i)) (combine z z)) = Fin s /\ hi / 10 * fold_right Rplus 0 (map (fun b => rpowg (bin win step b i j) gamma) z) <= s /\ 0 <= fold_right Rplus 0 (map (fun b => rpowg (bin win step b i j) gamma) z) /\ (z <> [] -> 0 < fold_right Rplus 0 (map (fun b => rpowg (bin win step b i j) gamma) z))).
      { induction z as [|b z IH]; intros Hz. exists 0. split; [reflexivity|]. simpl. split; [lra|]. split; [lra|congruence].
        destruct IH as (s & E1 & E2 & E3 & _). { intros; apply Hz; now right. }
        destruct (In_nth x b [] ltac:(apply Hz; now left)) as (m & Hm & Eb). destruct (T m i j Hm Hi Hj) as (l & Hlev & PX & ET). rewrite Eb in *. cbn [combine map fst snd fold_right].
        match goal with |- exists s, xsum (?u :: ?v) = _ /\ _ => change (xsum (u :: v)) with (xadd u (xsum v)) end. rewrite ET, E1. cbn [xadd]. eexists. split; [reflexivity|].
        assert (PR : 0 < rpowg (bin win step b i j) gamma). { unfold rpowg. destruct (Rlt_dec 0 (bin win step b i j)); [apply exp_pos|contradiction]. }
        split; [|split; [lra|intros _; lra]]. assert (hi / 10 * rpowg (bin win step b i j) gamma <= rpowg (bin win step b i j) gamma * l) by (rewrite (Rmult_comm (hi / 10)); apply Rmult_le_compat_l; lra). lra. }
      destruct (G x (fun b H => H)) as (s & E1 & E2 & _ & E4). rewrite E1. specialize (E4 (proj1 Bx)). set (w := fold_right Rplus 0 _) in *. exists (10 * s / w). unfold xdiv. destruct (Req_EM_T w 0); [lra|]. split; [|reflexivity].
      apply (Rmult_le_reg_r w); auto. unfold Rdiv. rewrite Rmult_assoc, Rinv_l by lra. lra. }
    match goal with |- context [mk (bins win) ?f] => set (g := f) in * end. assert (J' : forall j, (j < bins win)%nat -> g j = Fin (match g j with Fin v => v | _ => 0 end) /\ hi <= match g j with Fin v => v | _ => 0 end) by (intros j Hj; destruct (J j Hj) as (v & H1 & H2); change (g j = Fin v) in H2; rewrite H2; auto).
    rewrite (xsum_fin (fun j => match g j with Fin v => v | _ => 0 end)) by (intros; now apply J'). cbn [frame_value].
    assert (PB : 0 < INR (bins win)) by (apply lt_0_INR; unfold bins; lia).
    assert (M : hi <= rsum (bins win) (fun j => match g j with Fin v => v | _ => 0 end) / INR (bins win)).
    { apply (Rmult_le_reg_r (INR (bins win))); auto. unfold Rdiv. rewrite Rmult_assoc, Rinv_l by lra. rewrite Rmult_1_r.
      replace (hi * INR (bins win)) with (rsum (bins win) (fun _ => hi)). apply rsum_le. intros j Hj. now apply J'.
      clear. induction (bins win) as [|k IH]. simpl. ring. cbn [sum]. rewrite IH, S_INR. simpl. ring. }
    f_equal. destruct (Rlt_dec _ lo); [lra|]. destruct (Rlt_dec hi _); lra. }
  rewrite (xsum_fin (fun _ => hi)) by (intros i Hi; apply F; apply frames_count; auto).
  do 2 f_equal. assert (PN : 0 < INR n) by (apply lt_0_INR; lia). replace (rsum n (fun _ => hi)) with (hi * INR n). field. lra.
  clear. induction n as [|k IH]. simpl. ring. cbn [sum]. rewrite <- IH, S_INR. simpl. ring.
Qed.
Print Assumptions C62_copy.

(** A frame (3, 1): magnitudes 4 and 2, a rectangular window of two samples. *)
Lemma dft2 l : dft 2 l 0 = rc (get l 0 + get l 1) /\ dft 2 l 1 = rc (get l 0 - get l 1).
Proof.
  assert (R0 : root 2 0 = rc 1) by (unfold root; replace (2 * PI * 0 / INR 2) with 0 by (simpl; field); apply cis_0).
  assert (R1 : root 2 (-1) = rc (-1)). { unfold root, cis, rc. replace (2 * PI * -1 / INR 2) with (- PI) by (simpl; field). rewrite cos_neg, sin_neg, cos_PI, sin_PI. f_equal. ring. }
  unfold dft. split; cbn [sum].
  - change (- (Z.of_nat 0 * Z.of_nat 0))%Z with 0%Z. change (- (Z.of_nat 1 * Z.of_nat 0))%Z with 0%Z. rewrite R0. apply c_ext; simpl; ring.
  - change (- (Z.of_nat 0 * Z.of_nat 1))%Z with 0%Z. change (- (Z.of_nat 1 * Z.of_nat 1))%Z with (-1)%Z. rewrite R0, R1. apply c_ext; simpl; ring.
Qed.
Example C62_copy_case : fw_snr_seg [1; 1] 2 1 (-10) 35 [[3; 1]] [[-6; -2]] = Ok (Fin 35).
Proof.
  assert (SQ : forall v, 0 <= v -> sqrt (cabs2 (rc v)) = v) by (intros v Hv; unfold cabs2, rc; simpl; replace (v * v + 0 * 0) with (v * v) by ring; now apply sqrt_square).
  assert (B0 : bin [1; 1] 2 [3; 1] 0 0 = 4). { unfold bin. cbn [length]. rewrite (proj1 (dft2 _)). unfold frame, get. simpl. rewrite SQ; lra. }
  assert (B1 : bin [1; 1] 2 [3; 1] 0 1 = 2). { unfold bin. cbn [length]. rewrite (proj2 (dft2 _)). unfold frame, get. simpl. rewrite SQ; lra. }
  assert (W : whole [1; 1] 2 [3; 1] 0 = 6). { unfold whole. change (bins [1; 1]) with 2%nat. cbn [sum]. rewrite B0, B1. simpl. lra. }
  replace [[-6; -2]] with (mk (length [[3; 1]]) (fun m => map (fun v => v * get [-2] m) (nth m [[3; 1]] []))) by (unfold mk, get; simpl; repeat f_equal; ring).
  apply (C62_copy [1; 1] 2 2); try lia; try reflexivity; try lra.
  - split; [discriminate|]. intros b [<-|[]]. reflexivity.
  - intros [|m] Hm; [unfold get; simpl; lra|simpl in Hm; lia].
  - intros [|m] i k Hm Hi Hk; [|simpl in Hm; lia]. assert (i = 0)%nat as -> by (unfold is_frame in Hi; lia). cbn [nth]. rewrite W. split; [lra|].
    assert (G : Rpower 10 (35 / 20 - 30) <= / 10).
    { rewrite <- (exp_ln (/ 10)) by lra. rewrite ln_Rinv by lra. unfold Rpower. pose proof ln10_pos. left. apply exp_increasing. nra. }
    unfold bins in Hk. simpl in Hk. assert (k = 0 \/ k = 1)%nat as [-> | ->] by lia. rewrite B0. lra. rewrite B1. lra.
Qed.
Example C62_silence_case : fw_snr_seg [1; 1] 2 1 (-10) 35 [[3; 1; 0; 0]] [[3; 1; 1; 1]] = Ok NaN.
Proof.
  apply (C62_silence_refuted [1; 1] 2 4) with (m := 0%nat) (i := 1%nat); try lia; try (unfold is_frame; lia); try reflexivity; try (simpl; lia).
  1, 2 : split; [discriminate|]; intros b [<-|[]]; reflexivity.
  left. intros t Ht. simpl in Ht. destruct t as [|[|t]]; try reflexivity. lia.
Qed.
(** Two bands, the second of the test signal 60 dB too loud: the same value. *)
Example C62_gains_case (x1 x2 y1 y2 : R) : fw_snr_seg [1] 1 1 (-10) 35 [[x1]; [x2]] [[y1]; [y2 * 1000]] = fw_snr_seg [1] 1 1 (-10) 35 [[x1]; [x2]] [[y1]; [y2]].
Proof.
  rewrite <- (C62_gains [1] 1 1 1 (-10) 35 [[x1]; [x2]] [[y1]; [y2]] 1 [1; 1000]); try lia; try reflexivity; try lra.
  - unfold mk, get. simpl. rewrite !Rmult_1_r. reflexivity.
  - split; [discriminate|]. intros b [<-|[<-|[]]]; reflexivity.
  - split; [discriminate|]. intros b [<-|[<-|[]]]; reflexivity.
  - intros [|[|m]] Hm; unfold get; simpl in *; try lra. lia.
Qed.
