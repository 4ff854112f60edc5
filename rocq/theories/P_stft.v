(** Lemmas on the short-time Fourier transform and its inverse. *)
From Coq Require Import List Arith Lia ZArith Bool Reals Lra Psatz.
From Verif Require Import Alg Spec M_arrays M_frames P_realtime P_arrays P_arrays2 P_frames Dft M_scaling M_welch P_welch Claims_fade M_stft.
Import ListNotations.
Local Open Scope R_scope.

(** ** Overlap-add of arbitrary frames *)
Lemma reconstruct_gen s window thr frames total :
  (forall f, In f frames -> length f = length window) ->
  (forall i, (i < length frames)%nat -> (i * s + length window <= total)%nat) ->
  exists fr win, reconstruct_windowed s window thr frames total =
    Ok (mk total (fun k => rsum (length frames) (fun i => if covers s (length window) k i then get window (k - i * s)%nat * get (nth i frames []) (k - i * s)%nat else 0)
          / Rmax (envelope s (length frames) window k) thr), fr, win).
Proof.
  intros HF Ht. unfold reconstruct_windowed.
  rewrite overlap_add_eq by (rewrite map_length; auto). cbn [bind].
  rewrite overlap_add_eq by (rewrite repeat_length; auto). cbn [bind].
  eexists _, _. do 3 f_equal. apply mk_eq. intros k Hk. rewrite get_mk by auto.
  unfold get at 2. rewrite (nth_map' _ _ k 0) by (rewrite mk_length; auto). rewrite nth_mk by auto.
  rewrite map_length, repeat_length. f_equal.
  - apply sum_ext. intros i Hi. destruct (covers _ _ _ _) eqn:E; auto.
    unfold covers in E. apply andb_true_iff in E. rewrite Nat.leb_le, Nat.ltb_lt in E.
    rewrite (nth_map' _ frames i []) by lia. rewrite get_vmul; auto. rewrite (HF (nth i frames [])) by (apply nth_In; auto). lia.
  - f_equal. unfold envelope. apply sum_ext. intros i Hi. unfold covers. destruct (_ && _) eqn:E; auto.
    apply andb_true_iff in E. rewrite Nat.leb_le, Nat.ltb_lt in E.
    rewrite nth_repeat_lt by auto. unfold get at 1. now rewrite (nth_map' _ _ _ 0%R) by lia.
Qed.

(** ** The squared window summed over all the frames with one phase *)
Definition phase_energy (st : nat) (window : list R) (j : nat) : R :=
  rsum (length window) (fun m => get window (j + m * st)%nat * get window (j + m * st)%nat).
Lemma envelope_phase st n window k : (0 < st)%nat -> (length window <= k + st)%nat -> (k < n * st)%nat ->
  envelope st n window k = phase_energy st window (k mod st).
Proof.
  intros Hs Hk Hn. pose proof (Nat.div_mod k st ltac:(lia)) as D. pose proof (Nat.mod_upper_bound k st ltac:(lia)) as B.
  set (q := (k / st)%nat) in *. set (j := (k mod st)%nat) in *. set (w := length window) in *.
  assert (Hq : (q < n)%nat) by (apply Nat.div_lt_upper_bound; lia).
  unfold envelope, phase_energy. fold w.
  rewrite (sum_trunc (HA := CRing_R) (q + 1) n) by (try lia; intros i Hi; destruct (Nat.leb_spec (i * st) k); auto; nia).
  rewrite (sum_rev (HA := CRing_R)).
  assert (E : forall m, (m < q + 1)%nat -> (if ((q + 1 - 1 - m) * st <=? k)%nat && (k <? (q + 1 - 1 - m) * st + w)%nat
     then get window (k - (q + 1 - 1 - m) * st)%nat * get window (k - (q + 1 - 1 - m) * st)%nat else 0) = get window (j + m * st)%nat * get window (j + m * st)%nat).
  { intros m Hm. replace (q + 1 - 1 - m)%nat with (q - m)%nat by lia.
    assert (P : ((q - m) * st + m * st = q * st)%nat) by nia.
    replace (k - (q - m) * st)%nat with (j + m * st)%nat by lia.
    destruct (Nat.leb_spec ((q - m) * st) k); [|lia]. cbn [andb].
    destruct (Nat.ltb_spec k ((q - m) * st + w)); auto. rewrite (get_out window (j + m * st)) by (fold w; lia). simpl. ring. }
  rewrite (sum_ext (HA := CRing_R) _ _ _ E).
  destruct (Nat.le_ge_cases (q + 1) w).
  - symmetry. apply sum_trunc; auto. intros i Hi. rewrite get_out by (fold w; nia). simpl. ring.
  - apply sum_trunc; auto. intros i Hi. rewrite get_out by (fold w; nia). simpl. ring.
Qed.

(** ** One frame there and back *)
Lemma irfft_n_map_div n X c t : (t < n)%nat -> c <> 0 -> get (irfft_n n (map (fun z => cdivr z c) X)) t = get (irfft_n n X) t / c.
Proof.
  intros Ht Hc. unfold irfft_n. rewrite !get_mk by auto.
  assert (Z : cdivr (rc 0) c = rc 0) by (apply c_ext; simpl; field; auto).
  assert (G : forall k, nth k (map (fun z => cdivr z c) X) (rc 0) = cdivr (nth k X (rc 0)) c) by (intros; rewrite <- Z at 1; apply (map_nth (fun z => cdivr z c))).
  rewrite !csum_fst. rewrite (sum_ext (HA := CRing_R) n _ (fun k => / c * fst (herm n X k *! root n (Z.of_nat k * Z.of_nat t)))).
  - rewrite (sum_scal_l (HA := CRing_R)). simpl. field. split; auto. apply not_0_INR. lia.
  - intros k Hk. unfold herm. destruct (Nat.leb k (n / 2)); rewrite G; simpl; field; auto.
Qed.
Lemma irfft_n_length n X : length (irfft_n n X) = n.
Proof. apply mk_length. Qed.
Lemma irfft_scaled_length s n X : length (irfft_scaled s n X) = n.
Proof. destruct s; cbn [irfft_scaled]; rewrite ?map_length; apply irfft_n_length. Qed.
Lemma scaled_back s n f t : has_units s = false -> (t < n)%nat -> get (irfft_scaled s n (rfft_scaled s n f)) t = get f t.
Proof.
  intros Hs Ht. assert (Hn : INR n <> 0) by (apply not_0_INR; lia).
  assert (Hq : sqrt (INR n) <> 0) by (apply Rgt_not_eq, sqrt_lt_R0, lt_0_INR; lia).
  destruct s; try discriminate Hs; cbn [irfft_scaled rfft_scaled].
  - apply irfft_rfft; lia.
  - unfold get at 1. rewrite (nth_map' (fun v => v * INR n) _ t 0) by (rewrite irfft_n_length; auto). change (get (irfft_n n (map (fun z => cdivr z (INR n)) (rfft n f))) t * INR n = get f t).
    rewrite irfft_n_map_div, irfft_rfft by (auto; lia). field. auto.
  - unfold get at 1. rewrite (nth_map' (fun v => v * sqrt (INR n)) _ t 0) by (rewrite irfft_n_length; auto). change (get (irfft_n n (map (fun z => cdivr z (sqrt (INR n))) (rfft n f))) t * sqrt (INR n) = get f t).
    rewrite irfft_n_map_div, irfft_rfft by (auto; lia). field. auto.
Qed.
Lemma frame_back s n w fs window f : has_units s = false -> (w <= n)%nat -> length f = w ->
  istft_frame s n w fs window (stft_scale s n fs window (rfft_scaled s n f)) = f.
Proof.
  intros Hs Hn Hf. unfold istft_frame, stft_scale. rewrite Hs.
  apply (get_ext (HA := CRing_R)). rewrite firstn_length, irfft_scaled_length. lia.
  intros t Ht. rewrite firstn_length, irfft_scaled_length in Ht. rewrite get_firstn. destruct (Nat.ltb_spec t w); [|lia]. apply scaled_back; auto. lia.
Qed.
Lemma stft_scale_length s n fs window X : length (stft_scale s n fs window X) = length X.
Proof. unfold stft_scale. destruct (has_units s); auto. rewrite map_length. destruct (is_amplitude s); rewrite ?map_length; destruct (n mod 2 =? 0)%nat; now rewrite !upd_length. Qed.
Lemma rfft_scaled_length s n f : length (rfft_scaled s n f) = (n / 2 + 1)%nat.
Proof. destruct s; cbn [rfft_scaled]; rewrite ?map_length; apply rfft_length. Qed.

(** ** Accepted arguments *)
Lemma stft_size_spec w : stft_size w = true <-> exists e, (4 <= e <= 16)%nat /\ w = (2 ^ e)%nat.
Proof.
  unfold stft_size. rewrite existsb_exists. split; intros (e & H).
  - exists e. destruct H as [H E]. apply in_seq in H. split; [lia|]. apply Z.eqb_eq in E. apply Nat2Z.inj. rewrite E. change 2%Z with (Z.of_nat 2). now rewrite Nat2Z.inj_pow.
  - exists e. destruct H as [H ->]. split. apply in_seq. lia. apply Z.eqb_eq. now rewrite Nat2Z.inj_pow.
Qed.
Lemma stft_size_even w : stft_size w = true -> (0 < w)%nat /\ (2 * (w / 2 + 1 - 1) = w)%nat.
Proof.
  intros H. apply stft_size_spec in H. destruct H as (e & He & ->). split. apply Nat.neq_0_lt_0, Nat.pow_nonzero; lia.
  replace e with (S (e - 1)) by lia. rewrite Nat.pow_succ_r'. rewrite (Nat.mul_comm 2 (2 ^ (e - 1))), Nat.div_mul by lia. lia.
Qed.
(** The transform, as frames. *)
Definition padded (padding : bool) (o : nat) (x : list R) : list R := if padding then repeat 0 o ++ x ++ repeat 0 o else x.
Lemma padded_length padding o x : length (padded padding o x) = (length x + (if padding then 2 * o else 0))%nat.
Proof. destruct padding; simpl; rewrite ?app_length, ?repeat_length; lia. Qed.
Lemma padded_get padding o x k : get (padded padding o x) k = if padding then (if (k <? o)%nat then 0 else get x (k - o)%nat) else get x k.
Proof.
  destruct padding; auto. unfold padded. destruct (Nat.ltb_spec k o).
  - rewrite get_app_l by (rewrite repeat_length; auto). apply (get_repeat0 (HA := CRing_R)).
  - rewrite get_app_r by (rewrite repeat_length; auto). rewrite repeat_length. destruct (Nat.lt_ge_cases (k - o) (length x)).
    + rewrite get_app_l by auto. reflexivity.
    + rewrite get_app_r by auto. rewrite (get_out x) by auto. apply (get_repeat0 (HA := CRing_R)).
Qed.
Definition fft_len (fft : option nat) (w : nat) : nat := match fft with Some n => n | None => w end.
Definition stft_val (x : list R) (fs : R) (window : list R) (w o n : nat) (detrend padding : bool) (s : scaling) : list (list C) :=
  map (fun f => stft_scale s n fs window (rfft_scaled s n f)) (wframes w (w - o) window detrend (padded padding o x)).
Lemma stft_eq x fs window w ov fft detrend padding s : stft_size w = true -> 0 <= ov < 100 -> (stft_overlap w ov < w)%nat ->
  stft x fs window w ov fft detrend padding s = Ok (stft_val x fs window w (stft_overlap w ov) (fft_len fft w) detrend padding s).
Proof.
  intros Hw Hov Ho. unfold stft. rewrite Hw. cbn [negb]. destruct (Rle_dec 0 ov); [|lra]. destruct (Rlt_dec ov 100); [|lra]. cbn [negb].
  destruct (Nat.leb_spec w (stft_overlap w ov)); [lia|]. rewrite welch_frames_eq by auto. reflexivity.
Qed.
Lemma wframes_nth w s window x i : (i < nframes s (length x))%nat -> nth i (wframes w s window false x) [] = mk w (fun t => get window t * get x (i * s + t)%nat).
Proof. intros H. unfold wframes. now rewrite nth_mk. Qed.
Lemma wframes_in w s window x f : In f (wframes w s window false x) -> length f = w.
Proof. intros H. unfold wframes, mk in H. apply in_map_iff in H. destruct H as (i & <- & _). apply mk_length. Qed.
Lemma nframes_cover s len : (0 < s)%nat -> (len <= s * nframes s len)%nat.
Proof. intros H. unfold nframes. pose proof (Nat.div_mod (len + (s - 1)) s ltac:(lia)). pose proof (Nat.mod_upper_bound (len + (s - 1)) s ltac:(lia)). lia. Qed.
Lemma nframes_pos s len : (0 < s)%nat -> (0 < len)%nat -> (0 < nframes s len)%nat.
Proof. intros. pose proof (nframes_cover s len ltac:(auto)). nia. Qed.
Lemma frames_back s n w fs window o x padding : has_units s = false -> (w <= n)%nat ->
  map (istft_frame s n w fs window) (stft_val x fs window w o n false padding s) = wframes w (w - o) window false (padded padding o x).
Proof.
  intros Hs Hn. unfold stft_val. rewrite map_map. rewrite <- map_id. apply map_ext_in. intros f Hf. apply frame_back; auto. eapply wframes_in; eauto.
Qed.
Lemma stft_val_n s n w fs window o x detrend padding : (0 < length (padded padding o x))%nat -> (o < w)%nat ->
  length (hd [] (stft_val x fs window w o n detrend padding s)) = (n / 2 + 1)%nat.
Proof.
  intros H Ho. pose proof (nframes_pos (w - o) _ ltac:(lia) H) as P. unfold stft_val.
  pose proof (wframes_length w (w - o) window detrend (padded padding o x)) as L.
  destruct (wframes w (w - o) window detrend (padded padding o x)) as [|f r]; simpl in *. lia. now rewrite stft_scale_length, rfft_scaled_length.
Qed.
Lemma istft_n fft w (X : list (list C)) : stft_size w = true -> (fft = None -> length (hd [] X) = w / 2 + 1)%nat ->
  match fft with Some n => n | None => (2 * (length (hd [] X) - 1))%nat end = fft_len fft w.
Proof. intros Hw H. destruct fft; auto. rewrite H by auto. now apply stft_size_even. Qed.

(** The rounded overlap of the two functions. *)
Lemma overlap_exact w ov o : ov / 100 * INR w = INR o -> stft_overlap w ov = o.
Proof. intros H. unfold stft_overlap. apply floor_nat. lra. Qed.
Lemma step_exact w ov o : ov / 100 * INR w = INR o -> (o <= w)%nat -> Z.to_nat (Int_part ((1 - ov / 100) * INR w)) = (w - o)%nat.
Proof. intros H Ho. apply floor_nat. rewrite minus_INR by auto. lra. Qed.

(** ** The two ways to put the frames together *)
Definition trim_to (original : option nat) (td : list R) : list R := match original with Some l => pad_trim_col l true td | None => td end.
Lemma cut_mk c total (f : nat -> R) : (0 < c)%nat ->
  (if (c =? 0)%nat then [] else firstn (length (mk total f) - c - c) (skipn c (mk total f))) = mk (total - c - c) (fun k => f (c + k)%nat).
Proof.
  intros Hc. destruct (Nat.eqb_spec c 0); [lia|]. apply (get_ext (HA := CRing_R)).
  - rewrite firstn_length, skipn_length, !mk_length. lia.
  - intros k Hk. rewrite firstn_length, skipn_length, mk_length in Hk. rewrite get_firstn, get_skipn, mk_length.
    destruct (Nat.ltb_spec k (total - c - c)); [|lia]. now rewrite !get_mk by lia.
Qed.
(** What the frame sum gives when the frames of the signal v are put down with another step. *)
Definition drifted (s st nf : nat) (window v : list R) (k : nat) : R :=
  rsum nf (fun i => if covers st (length window) k i then get window (k - i * st)%nat * (get window (k - i * st)%nat * get v (i * s + (k - i * st))%nat) else 0)
  / Rmax (envelope st nf window k) (1 / 10000).
Lemma istft_padded x fs window w ov o fft s original st c :
  stft_size w = true -> (0 < o < w)%nat -> length window = w -> (w <= fft_len fft w)%nat -> has_units s = false ->
  Z.to_nat (Int_part ((1 - ov / 100) * INR w)) = st -> (st <= w)%nat -> Z.to_nat (Int_part (ov / 100 * INR w)) = c -> (0 < c)%nat ->
  let nf := nframes (w - o) (length x + 2 * o) in
  istft (stft_val x fs window w o (fft_len fft w) false true s) fs window w ov fft true s original =
    Ok (trim_to original (mk (st * nf + (w - st) - c - c) (fun k => drifted (w - o) st nf window (padded true o x) (c + k)))).
Proof.
  intros Hw Ho Hl Hn Hs Est Hst Ec Hc nf. unfold istft.
  assert (Hpl : length (padded true o x) = (length x + 2 * o)%nat) by apply padded_length.
  rewrite (istft_n fft w) by (auto; intros ->; apply stft_val_n; lia).
  destruct (Nat.ltb_spec (fft_len fft w) w); [lia|]. rewrite frames_back by auto. cbn beta zeta. rewrite Est, Ec.
  destruct (reconstruct_gen st window (1 / 10000) (wframes w (w - o) window false (padded true o x)) (st * length (wframes w (w - o) window false (padded true o x)) + (w - st))) as (fr & win & E).
  { rewrite Hl. apply wframes_in. }
  { intros i Hi. rewrite Hl. nia. }
  rewrite E. cbn [bind fst]. rewrite cut_mk by auto. unfold trim_to. rewrite wframes_length, Hpl. fold nf.
  assert (E2 : mk (st * nf + (w - st) - c - c) (fun k => rsum nf (fun i => if covers st (length window) (c + k) i then get window (c + k - i * st)%nat * get (nth i (wframes w (w - o) window false (padded true o x)) []) (c + k - i * st)%nat else 0) / Rmax (envelope st nf window (c + k)) (1 / 10000))
    = mk (st * nf + (w - st) - c - c) (fun k => drifted (w - o) st nf window (padded true o x) (c + k))).
  2:{ rewrite E2. reflexivity. }
  apply mk_eq. intros k Hk. unfold drifted. f_equal. apply sum_ext. intros i Hi. destruct (covers _ _ _ _) eqn:Ev; auto.
  unfold covers in Ev. apply andb_true_iff in Ev. rewrite Nat.leb_le, Nat.ltb_lt in Ev.
  rewrite wframes_nth by (rewrite Hpl; auto). now rewrite get_mk by lia.
Qed.
(** With the step of the transform every frame is put down where it was taken. *)
Lemma drifted_same st nf window v k : drifted st st nf window v k = get v k * envelope st nf window k / Rmax (envelope st nf window k) (1 / 10000).
Proof.
  unfold drifted. f_equal. unfold envelope. rewrite <- (sum_scal_l (HA := CRing_R) nf (get v k)). apply sum_ext. intros i Hi. unfold covers.
  destruct (_ && _) eqn:E; [|simpl; ring]. apply andb_true_iff in E. rewrite Nat.leb_le, Nat.ltb_lt in E. replace (i * st + (k - i * st))%nat with k by lia. simpl. ring.
Qed.
(** Unpadded: one empty frame before and one after. *)
Lemma istft_unpadded x fs window w ov o fft s original :
  stft_size w = true -> (o < w)%nat -> length window = w -> (w <= fft_len fft w)%nat -> has_units s = false -> x <> [] -> ov / 100 * INR w = INR o ->
  let nf := nframes (w - o) (length x) in
  let gain k := envelope (w - o) nf window k / Rmax (envelope (w - o) nf window k + (if (k <? o)%nat then get window (k + (w - o))%nat * get window (k + (w - o))%nat else 0)) (1 / 10000) in
  exists td, istft (stft_val x fs window w o (fft_len fft w) false false s) fs window w ov fft false s original = Ok (trim_to original td) /\
    length td = ((w - o) * nf + o)%nat /\ forall k, (k < (w - o) * nf)%nat -> get td k = get x k * gain k.
Proof.
  intros Hw Ho Hl Hn Hs Hx Eov nf gain. unfold istft. set (st := (w - o)%nat) in *.
  assert (Hlx : (0 < length x)%nat) by (destruct x; [easy|simpl; lia]).
  rewrite (istft_n fft w) by (auto; intros ->; apply stft_val_n; auto).
  destruct (Nat.ltb_spec (fft_len fft w) w); [lia|]. rewrite frames_back by auto. cbn beta zeta. rewrite (step_exact w ov o) by (auto; lia). fold st.
  pose proof (wframes_length w st window false (padded false o x)) as HL. cbn [padded] in HL |- *. fold nf in HL.
  assert (Hnf : (0 < nf)%nat) by (apply nframes_pos; lia).
  destruct (wframes w st window false x) as [|f0 fr0] eqn:EF; [simpl in HL; lia|]. rewrite <- EF in *. clear f0 fr0 EF.
  set (frs := repeat 0 w :: wframes w st window false x ++ [repeat 0 w]).
  assert (HLf : length frs = (nf + 2)%nat) by (unfold frs; cbn [length]; rewrite app_length, HL; simpl; lia).
  destruct (reconstruct_gen st window (1 / 10000) frs (st * length frs + (w - st))) as (fr & win & E).
  { intros f [<-|Hf]. rewrite repeat_length; auto. apply in_app_iff in Hf. destruct Hf as [Hf|[<-|[]]]. rewrite Hl. eapply wframes_in; eauto. rewrite repeat_length; auto. }
  { intros i Hi. rewrite Hl. nia. }
  rewrite E. cbn [bind fst]. rewrite cut_mk by lia. unfold trim_to. eexists. split; [reflexivity|]. rewrite HLf. split; [rewrite mk_length; nia|].
  intros k Hk. rewrite get_mk by nia. unfold gain. rewrite Hl. unfold Rdiv. rewrite <- Rmult_assoc.
  replace (nf + 2)%nat with (S (nf + 1)) by lia. f_equal; [|f_equal; f_equal].
  - rewrite (sum_S_front (HA := CRing_R)), (sum_split (HA := CRing_R) nf 1). cbn [sum]. unfold frs.
    assert (Z1 : (if covers st w (st + k) 0 then get window (st + k - 0 * st)%nat * get (nth 0 (repeat 0 w :: wframes w st window false x ++ [repeat 0 w]) []) (st + k - 0 * st)%nat else 0) = 0).
    { destruct (covers _ _ _ _); auto. cbn [nth]. rewrite (get_repeat0 (HA := CRing_R)). simpl. ring. }
    rewrite Z1. clear Z1. unfold covers at 2. destruct (Nat.leb_spec (S (nf + 0) * st) (st + k)); [nia|]. cbn [andb].
    transitivity (rsum nf (fun i => get x k * (if (i * st <=? k)%nat && (k <? i * st + length window)%nat then get window (k - i * st)%nat * get window (k - i * st)%nat else 0))).
    2:{ rewrite (sum_scal_l (HA := CRing_R)). reflexivity. }
    etransitivity; [|apply (sum_ext (HA := CRing_R) nf (fun i => if covers st w (st + k) (S i) then get window (st + k - S i * st)%nat * get (nth (S i) (repeat 0 w :: wframes w st window false x ++ [repeat 0 w]) []) (st + k - S i * st)%nat else 0))].
    simpl. ring. intros i Hi. unfold covers. rewrite Hl.
    replace (S i * st <=? st + k)%nat with (i * st <=? k)%nat by (apply eq_true_iff_eq; rewrite !Nat.leb_le; lia).
    replace (st + k <? S i * st + w)%nat with (k <? i * st + w)%nat by (apply eq_true_iff_eq; rewrite !Nat.ltb_lt; lia).
    destruct (_ && _) eqn:Ev; [|simpl; ring]. apply andb_true_iff in Ev. rewrite Nat.leb_le, Nat.ltb_lt in Ev. cbn [nth]. rewrite app_nth1 by lia.
    rewrite wframes_nth by (fold nf; auto). replace (st + k - S i * st)%nat with (k - i * st)%nat by lia. rewrite get_mk by lia.
    replace (i * st + (k - i * st))%nat with k by lia. simpl. ring.
  - unfold envelope. rewrite (sum_S_front (HA := CRing_R)), (sum_split (HA := CRing_R) nf 1). cbn [sum]. rewrite Hl.
    destruct (Nat.leb_spec (S (nf + 0) * st) (st + k)); [nia|]. cbn [andb].
    rewrite (sum_ext (HA := CRing_R) nf (fun i => if (S i * st <=? st + k)%nat && (st + k <? S i * st + w)%nat then get window (st + k - S i * st)%nat * get window (st + k - S i * st)%nat else 0)
       (fun i => if (i * st <=? k)%nat && (k <? i * st + w)%nat then get window (k - i * st)%nat * get window (k - i * st)%nat else 0)).
    2:{ intros i Hi. replace (S i * st <=? st + k)%nat with (i * st <=? k)%nat by (apply eq_true_iff_eq; rewrite !Nat.leb_le; lia).
        replace (st + k <? S i * st + w)%nat with (k <? i * st + w)%nat by (apply eq_true_iff_eq; rewrite !Nat.ltb_lt; lia).
        destruct (_ && _) eqn:Ev; auto. replace (st + k - S i * st)%nat with (k - i * st)%nat by lia. reflexivity. }
    destruct (Nat.leb_spec (0 * st) (st + k)); [|lia]. cbn [andb]. replace (st + k - 0 * st)%nat with (k + st)%nat by lia.
    replace (st + k <? 0 * st + w)%nat with (k <? o)%nat by (apply eq_true_iff_eq; rewrite !Nat.ltb_lt; lia).
    simpl. ring.
Qed.
