(** Properties C19, C20, C24-C27: Signal objects, channel editing, padding, delay, appending, trimming. *)
From Coq Require Import List Arith Lia ZArith Bool Reals Lra.
From Verif Require Import Alg Spec M_arrays M_signal P_realtime P_arrays P_arrays2 P_signal.
Import ListNotations.
Local Open Scope nat_scope.

(** ** C19 *)
(** A successful assignment of an n x k array stores max(n,k) samples in min(n,k) channels; every stored real and
    imaginary value is the assigned one times the reported scale factor, which is 1 unless the signal is constrained and
    the largest magnitude p exceeds 1, and then it is 1/p. *)
Theorem C19_stored_data :
  forall (constr : bool) (fs : Z) (x : input) (n k : nat) (p : R),
  in_shape x n k -> 0 < n -> 0 < k -> n * k <> 1 -> is_peak x n k p ->
  (constr = true -> (1 < p)%R -> i_int x = false) ->
  exists s, set_time_data constr fs x = Ok s /\
    s_constr s = constr /\ s_fs s = fs /\
    s_scale s = (if constr then if Rlt_dec 1 p then 1 / p else 1 else 1)%R /\
    shape (s_re s) (max n k) (min n k) /\
    (forall i c, i < max n k -> c < min n k ->
       entry (s_re s) i c = (s_scale s * (if n <? k then entry (i_re x) c i else entry (i_re x) i c))%R) /\
    match i_im x with
    | None => s_im s = None
    | Some im => exists im', s_im s = Some im' /\ shape im' (max n k) (min n k) /\
        forall i c, i < max n k -> c < min n k ->
          entry im' i c = (s_scale s * (if n <? k then entry im c i else entry im i c))%R
    end.
Proof. intros. now apply set_time_data_spec. Qed.
Print Assumptions C19_stored_data.

(** Any sequence of assignments and channel operations keeps the object well formed: equal channel lengths, same shape of
    real and imaginary part, not more channels than samples, and all magnitudes at most 1 when constrained. *)
Theorem C19_invariant :
  forall (ops : list sig_op) (s : signal), (exists n k, sig_ok s n k) -> Forall op_shaped ops ->
  exists n k, 1 <= k <= n /\ shape (s_re (fold_left sig_step ops s)) n k /\
    (forall im, s_im (fold_left sig_step ops s) = Some im -> shape im n k) /\
    (s_constr (fold_left sig_step ops s) = true ->
      (forall i c, i < n -> c < k -> (Rabs (entry (s_re (fold_left sig_step ops s)) i c) <= 1)%R) /\
      (forall im, s_im (fold_left sig_step ops s) = Some im ->
         forall i c, i < n -> c < k -> (Rabs (entry im i c) <= 1)%R)).
Proof.
  intros ops s H HF. destruct (sig_run_ok ops s H HF) as [n [k [h1 h2 h3 h4 h5 h6 h7]]].
  exists n, k. split; [lia|]. split; auto. split; auto. intros Hc. split.
  - now apply h6.
  - intros im E. now apply (h7 Hc im).
Qed.
Print Assumptions C19_invariant.

(** Every object that the constructor returns satisfies the hypothesis of C19_invariant. *)
Theorem C19_constructor :
  forall (constr : bool) (fs : Z) (x : input) (n k : nat) s,
  in_shape x n k -> 0 < n -> 0 < k -> set_time_data constr fs x = Ok s -> exists n k, sig_ok s n k.
Proof. intros. eapply set_ok in H2; eauto. destruct H2 as [G _]. eauto. Qed.
Print Assumptions C19_constructor.

(** A single sample, and integer data above full scale on a constrained signal, cannot be assigned. *)
Theorem C19_single_sample_refuted :
  forall constr fs v, set_time_data constr fs (mkIn [[v]] None false) = Err IndexError.
Proof. reflexivity. Qed.
Print Assumptions C19_single_sample_refuted.
Theorem C19_integer_data_refuted :
  forall fs, set_time_data true fs (mkIn [[100; 3]] None true)%R = Err TypeError.
Proof.
  intros. unfold set_time_data. simpl. unfold vpeak. simpl. destruct (Rlt_dec 1 _) as [|H]; auto.
  exfalso. apply H. eapply Rlt_le_trans; [|apply Rmax_l]. eapply Rlt_le_trans; [|apply Rmax_l].
  rewrite Rabs_pos_eq; lra.
Qed.
Print Assumptions C19_integer_data_refuted.
(** Switching the constraint on for a complex signal throws its imaginary part away and forgets the scale factor. *)
Theorem C19_constrain_drops_imaginary_refuted :
  forall s s', set_constrain true s = Ok s' -> s_im s' = None.
Proof.
  intros s s' H. unfold set_constrain, set_time_data in H. simpl in H.
  destruct (_ && _); [discriminate|]. destruct (Rlt_dec _ _); inversion H; reflexivity.
Qed.
Print Assumptions C19_constrain_drops_imaginary_refuted.

(** 2 x 3 complex data, constrained, largest magnitude 4. *)
Example C19_example :
  exists s, set_time_data true 48000 (mkIn [[1;2];[3;-4];[0;0]] (Some [[0;0];[2;0];[0;1]]) false)%R = Ok s /\
    s_scale s = (1/4)%R /\ shape (s_re s) 3 2 /\ entry (s_re s) 1 1 = (-1)%R /\
    exists im, s_im s = Some im /\ entry im 2 1 = (1/4)%R.
Proof.
  set (x := mkIn [[1;2];[3;-4];[0;0]]%R (Some [[0;0];[2;0];[0;1]]%R) false).
  assert (Hsh : in_shape x 2 3).
  { split; [|intros im E; inversion E]; (split; [reflexivity|repeat constructor]). }
  assert (Hp : is_peak x 2 3 4%R).
  { split.
    - intros i c Hi Hc. split; [|intros im E; inversion E; subst; clear E];
        (destruct i as [|[|]]; try lia; destruct c as [|[|[|]]]; try lia; unfold entry; simpl;
         apply Rabs_le; lra).
    - exists 1, 1. split; [lia|]. split; [lia|]. left. unfold entry. simpl. rewrite Rabs_left; lra. }
  destruct (C19_stored_data true 48000 x 2 3 4%R) as [s [E [_ [_ [Sc [Sh [Hre Him]]]]]]]; auto; try lia.
  destruct (Rlt_dec 1 4) as [_|]; [|lra].
  simpl in Him. destruct Him as [im [E2 [_ E3]]].
  exists s. split; auto. split; auto. split; auto. split.
  - rewrite Hre by (simpl; lia). rewrite Sc. unfold entry. simpl. lra.
  - exists im. split; auto. rewrite E3 by (simpl; lia). rewrite Sc. unfold entry. simpl. lra.
Qed.

(** ** C20 *)
(** Operations on a well-formed signal with n samples and k channels. Each result is given channel by channel; the
    reported scale factor becomes 1. *)
Theorem C20_remove_channel :
  forall s n k ch, sig_ok s n k -> 2 <= k -> (- Z.of_nat k <= ch < Z.of_nat k)%Z ->
  let q := Z.to_nat (if (ch <? 0)%Z then Z.of_nat k + ch else ch) in
  exists s', remove_channel ch s = Ok s' /\ length (s_re s') = k - 1 /\ s_scale s' = 1%R /\
    (forall c, nth c (s_re s') [] = nth (if c <? q then c else S c) (s_re s) []) /\
    match s_im s with None => s_im s' = None | Some im => exists im', s_im s' = Some im' /\
      forall c, nth c im' [] = nth (if c <? q then c else S c) im [] end.
Proof.
  intros s n k ch Hok Hk Hch q.
  assert (E : py_index k ch = Some q).
  { unfold py_index, q. destruct (Z.leb_spec 0 ch), (Z.ltb_spec ch 0); try lia.
    - destruct (Z.ltb_spec ch (Z.of_nat k)); try lia. reflexivity.
    - destruct (Z.leb_spec (- Z.of_nat k) ch); try lia. reflexivity. }
  pose proof (py_index_lt _ _ _ E) as Hq.
  rewrite (remove_eq s n k Hok ch q) by auto. eexists. split; [reflexivity|]. simpl.
  destruct Hok as [h1 h2 h3 h4 h5 h6 h7].
  split. rewrite delete_at_length; destruct h4; lia. split; auto.
  split. intros c. apply nth_delete_at. destruct h4; lia.
  destruct (s_im s) as [im|] eqn:Ei; simpl; auto. eexists. split; [reflexivity|].
  intros c. apply nth_delete_at. destruct (h5 im eq_refl). lia.
Qed.
Print Assumptions C20_remove_channel.

Theorem C20_remove_rejects :
  forall s n k ch, sig_ok s n k -> (k = 1 \/ (Z.of_nat k <= ch)%Z \/ (ch < - Z.of_nat k)%Z) ->
  exists e, remove_channel ch s = Err e /\ sig_step s (RemoveCh ch) = s.
Proof.
  intros s n k ch Hok H. unfold sig_step. simpl.
  assert (G : exists e, remove_channel ch s = Err e).
  { unfold remove_channel. rewrite (nc s n k Hok).
    destruct (Nat.ltb_spec 1 k); cbn [negb]; [|eauto].
    destruct H as [->|[H|H]]; [lia| |].
    - destruct (Z.eqb_spec ch (-1)); try lia. destruct (Z.leb_spec ch (Z.of_nat k - 1)); try lia. cbn [negb]. eauto.
    - destruct (Z.eqb_spec ch (-1)); try lia. destruct (Z.leb_spec ch (Z.of_nat k - 1)); try lia. cbn [negb].
      unfold py_index. destruct (Z.leb_spec 0 ch); try lia. destruct (Z.leb_spec (- Z.of_nat k) ch); try lia. eauto. }
  destruct G as [e E]. exists e. now rewrite E.
Qed.
Print Assumptions C20_remove_rejects.

Theorem C20_swap_channels :
  forall s n k order, sig_ok s n k ->
  length order = k -> NoDup order -> (forall z, In z order -> (0 <= z < Z.of_nat k)%Z) ->
  exists s', swap_channels order s = Ok s' /\ length (s_re s') = k /\
    (forall c, c < k -> nth c (s_re s') [] = nth (Z.to_nat (nth c order 0%Z)) (s_re s) []) /\
    match s_im s with None => s_im s' = None | Some im => exists im', s_im s' = Some im' /\
      forall c, c < k -> nth c im' [] = nth (Z.to_nat (nth c order 0%Z)) im [] end.
Proof.
  intros s n k order Hok HL HN HR. rewrite (swap_eq s n k Hok) by auto. eexists. split; [reflexivity|]. simpl.
  assert (G : forall m : mat, forall c, c < k -> nth c (select (map Z.to_nat order) [] m) [] = nth (Z.to_nat (nth c order 0%Z)) m []).
  { intros m c Hc. unfold select. rewrite (nth_map' _ _ c 0) by (rewrite map_length; lia).
    now rewrite (nth_map' _ order c 0%Z) by lia. }
  split. unfold select. now rewrite !map_length. split; auto.
  destruct (s_im s) as [im|]; simpl; auto. eexists. split; [reflexivity|]. auto.
Qed.
Print Assumptions C20_swap_channels.

Theorem C20_swap_rejects :
  forall s n k order, sig_ok s n k ->
  (length order <> k \/ ~ NoDup order \/ exists z, In z order /\ ~ (0 <= z < Z.of_nat k)%Z) ->
  swap_channels order s = Err AssertionError /\ sig_step s (SwapCh order) = s.
Proof.
  intros s n k order Hok H. unfold sig_step. simpl. now rewrite (swap_err s n k Hok).
Qed.
Print Assumptions C20_swap_rejects.

Theorem C20_get_channels :
  forall s n k chs, sig_ok s n k -> chs <> [] -> length chs <= n ->
  (forall z, In z chs -> (- Z.of_nat k <= z < Z.of_nat k)%Z) ->
  let at_ z := Z.to_nat (if (z <? 0)%Z then Z.of_nat k + z else z) in
  exists s', get_channels chs s = Ok s' /\
    s_re s' = map (fun z => nth (at_ z) (s_re s) []) chs /\
    s_im s' = option_map (fun im => map (fun z => nth (at_ z) im []) chs) (s_im s).
Proof.
  intros s n k chs Hok Hne Hl HR at_.
  assert (HF : Forall2 (fun z q => py_index k z = Some q) chs (map at_ chs)).
  { clear Hne Hl. induction chs as [|z zs IH]; simpl; constructor.
    - assert (-Z.of_nat k <= z < Z.of_nat k)%Z by (apply HR; now left).
      unfold py_index, at_. destruct (Z.leb_spec 0 z), (Z.ltb_spec z 0); try lia.
      + destruct (Z.ltb_spec z (Z.of_nat k)); try lia. reflexivity.
      + destruct (Z.leb_spec (- Z.of_nat k) z); try lia. reflexivity.
    - apply IH. intros; apply HR; now right. }
  rewrite (get_channels_eq s n k Hok chs (map at_ chs)) by auto. eexists. split; [reflexivity|]. simpl.
  unfold select. rewrite map_map. split; auto. destruct (s_im s); simpl; auto. now rewrite map_map.
Qed.
Print Assumptions C20_get_channels.

Theorem C20_get_rejects :
  forall s n k chs, sig_ok s n k -> (chs = [] \/ exists z, In z chs /\ (z < - Z.of_nat k \/ Z.of_nat k <= z)%Z) ->
  get_channels chs s = Err IndexError.
Proof.
  intros s n k chs Hok [->|[z [Hz H]]]; auto. apply (get_channels_err s n k Hok). exists z. split; auto.
  unfold py_index. destruct (Z.leb_spec 0 z).
  - destruct (Z.ltb_spec z (Z.of_nat k)); [lia|auto].
  - destruct (Z.leb_spec (- Z.of_nat k) z); [lia|auto].
Qed.
Print Assumptions C20_get_rejects.

(** Asking for more channels (with repetitions) than there are samples turns the result around: samples and channels are
    exchanged. *)
Theorem C20_get_many_channels_refuted :
  exists s chs s', sig_ok s 2 1 /\ chs = [0;0;0]%Z /\ get_channels chs s = Ok s' /\
    s_re s' = [[1;1;1];[2;2;2]]%R.
Proof.
  exists (mkSig [[1;2]]%R None 1%R false 48000), [0;0;0]%Z.
  eexists. split.
  { constructor; simpl; auto; try discriminate. split; [reflexivity|repeat constructor]. }
  split; [reflexivity|]. split; reflexivity.
Qed.
Print Assumptions C20_get_many_channels_refuted.

Theorem C20_sum_channels :
  forall s n k, sig_ok s n k ->
  exists s', sum_channels s = Ok s' /\ shape (s_re s') n 1 /\
    (s_constr s = false -> s_scale s' = 1%R) /\
    (forall i, i < n -> entry (s_re s') i 0 = (s_scale s' * sum k (fun c => entry (s_re s) i c))%R) /\
    match s_im s with None => s_im s' = None | Some im => exists im', s_im s' = Some im' /\
      forall i, i < n -> entry im' i 0 = (s_scale s' * sum k (fun c => entry im i c))%R end.
Proof.
  intros s n k Hok. pose proof Hok as [h1 h2 h3 h4 h5 h6 h7].
  unfold sum_channels, set_data.
  set (x := map_data sum_cols (get_data s)).
  assert (Hsh : in_shape x n 1).
  { split; simpl. apply (shape_sum_cols s n k); auto.
    intros im Ei. destruct (s_im s) eqn:Em; [|discriminate]. inversion Ei. apply (shape_sum_cols s n k); auto. }
  destruct (is_peak_exists x n 1 Hsh) as [p Hp]; try lia.
  destruct (set_time_data_spec (s_constr s) (s_fs s) x n 1 p) as [s' [E [_ [_ [Sc [Sh [Hre Him]]]]]]]; auto; try lia.
  rewrite Nat.max_l, Nat.min_r in * by lia. unfold oriented in *.
  destruct (Nat.ltb_spec n 1); try lia.
  exists s'. split; auto. split; auto. split. { intros C. rewrite Sc, C. reflexivity. }
  split. { intros i Hi. rewrite Hre by lia. simpl. now rewrite (entry_sum_cols s n k). }
  simpl in Him. destruct (s_im s) as [im|] eqn:Ei; simpl in Him; auto.
  destruct Him as [im' [E1 [_ E2]]]. exists im'. split; auto. intros i Hi. rewrite E2 by lia.
  now rewrite (entry_sum_cols s n k) by auto.
Qed.
Print Assumptions C20_sum_channels.

Theorem C20_add_channel :
  forall s n k new k' allow, sig_ok s n k -> shape new n k' -> 0 < k' -> k + k' <= n ->
  (s_constr s = true -> forall i c, i < n -> c < k' -> (Rabs (entry new i c) <= 1)%R) ->
  exists s', add_channel new (s_fs s) allow s = Ok s' /\ s_re s' = s_re s ++ new /\ s_im s' = None.
Proof.
  intros s n k new k' allow Hok Hn Hk Hle Hb. pose proof (shape_ncols _ _ _ Hn) as En.
  rewrite (add_eq s n k Hok); auto.
  - eexists. split; [reflexivity|]. auto.
  - right. exists k'. split; auto. lia.
  - lia.
  - rewrite En. exact Hb.
Qed.
Print Assumptions C20_add_channel.

(** Adding channels until there are more channels than samples turns the signal around. *)
Theorem C20_add_channel_turns_refuted :
  exists s s', sig_ok s 2 2 /\ add_channel [[5;6]]%R 48000 true s = Ok s' /\
    s_re s = [[1;2];[3;4]]%R /\ s_re s' = [[1;3;5];[2;4;6]]%R.
Proof.
  exists (mkSig [[1;2];[3;4]]%R None 1%R false 48000). eexists. split.
  { constructor; simpl; auto; try discriminate. split; [reflexivity|repeat constructor]. }
  split; [reflexivity|]. split; reflexivity.
Qed.
Print Assumptions C20_add_channel_turns_refuted.

Example C20_example :
  let s := mkSig [[1;2;3];[4;5;6];[7;8;9]]%R None 1%R false 48000 in
  sig_ok s 3 3 /\
  option_map s_re (match remove_channel (-2) s with Ok v => Some v | _ => None end) = Some [[1;2;3];[7;8;9]]%R /\
  option_map s_re (match swap_channels [2;0;1]%Z s with Ok v => Some v | _ => None end) = Some [[7;8;9];[1;2;3];[4;5;6]]%R /\
  option_map s_re (match get_channels [-1;1]%Z s with Ok v => Some v | _ => None end) = Some [[7;8;9];[4;5;6]]%R.
Proof.
  split. { constructor; simpl; auto; try discriminate; try lia. split; [reflexivity|repeat constructor]. }
  repeat split; reflexivity.
Qed.

(** ** C24 *)
Theorem C24_pad_trim :
  forall s n k N in_end, sig_ok s n k -> k <= N -> 2 <= N ->
  exists s', pad_trim N in_end s = Ok s' /\ shape (s_re s') N k /\
    forall i c, i < N -> c < k ->
      entry (s_re s') i c =
        if in_end then (if i <? n then entry (s_re s) i c else 0%R)
        else (if N <=? i + n then entry (s_re s) (i + n - N) c else 0%R).
Proof.
  intros s n k N e Hok Hk HN. pose proof Hok as [h1 h2 h3 h4 h5 h6 h7].
  assert (Hent : forall i c, i < N -> c < k -> entry (map (pad_trim_col N e) (s_re s)) i c =
        if e then (if i <? n then entry (s_re s) i c else 0%R)
        else (if N <=? i + n then entry (s_re s) (i + n - N) c else 0%R)).
  { intros i c Hi Hc. unfold entry. rewrite (nth_map' _ _ c []) by (destruct h4; lia).
    pose proof (shape_col _ _ _ c h4 Hc) as Hl. set (col := nth c (s_re s) []) in *. destruct e.
    - pose proof (pad_trim_end N col i Hi) as G. unfold get in G. cbn in G. rewrite G.
      destruct (Nat.ltb_spec i n); auto. apply nth_overflow. lia.
    - destruct (Nat.le_ge_cases n N).
      + rewrite pad_trim_start_pad by lia. rewrite Hl. destruct (Nat.leb_spec N (i + n)).
        * rewrite app_nth2 by (rewrite repeat_length; lia). rewrite repeat_length. f_equal. lia.
        * rewrite app_nth1 by (rewrite repeat_length; lia). apply nth_repeat_any.
      + rewrite pad_trim_start_trim by lia. rewrite Hl, nth_skipn.
        destruct (Nat.leb_spec N (i + n)); try lia. f_equal. lia. }
  assert (Hsh : shape (map (pad_trim_col N e) (s_re s)) N k).
  { split. rewrite map_length. apply h4. apply Forall_map, Forall_forall. intros. apply pad_trim_length. }
  unfold pad_trim, set_data. rewrite (set_identity _ _ _ N k).
  - eexists. split; [reflexivity|]. simpl. auto.
  - split; auto. discriminate.
  - auto.
  - auto.
  - auto.
  - intros Hc. split; [|discriminate]. intros i c Hi Hcc. simpl. rewrite Hent by auto.
    assert (B0 : (Rabs 0 <= 1)%R) by (rewrite Rabs_R0; lra).
    destruct e.
    + destruct (Nat.ltb_spec i n); auto. now apply h6.
    + destruct (Nat.leb_spec N (i + n)); auto. apply h6; auto. lia.
Qed.
Print Assumptions C24_pad_trim.

(** Padding (at either end) and trimming back at the same end is the identity on the samples. *)
Theorem C24_pad_then_trim :
  forall s n k N in_end, sig_ok s n k -> n <= N ->
  exists s1 s2, pad_trim N in_end s = Ok s1 /\ pad_trim n in_end s1 = Ok s2 /\ s_re s2 = s_re s.
Proof.
  intros s n k N e Hok HN. pose proof Hok as [h1 h2 h3 h4 h5 h6 h7].
  destruct (C24_pad_trim s n k N e Hok) as [s1 [E1 [S1 G1]]]; try lia.
  assert (Hok1 : sig_ok s1 N k).
  { assert (Hsh : shape (map (pad_trim_col N e) (s_re s)) N k).
    { split. rewrite map_length. apply h4. apply Forall_map, Forall_forall. intros. apply pad_trim_length. }
    unfold pad_trim, set_data in E1. apply (set_ok _ _ _ N k) in E1; try lia.
    - destruct E1 as [G _]. now rewrite Nat.max_l, Nat.min_r in G by lia.
    - split; auto. discriminate. }
  destruct (C24_pad_trim s1 N k n e Hok1) as [s2 [E2 [S2 G2]]]; try lia.
  exists s1, s2. split; auto. split; auto. apply (mat_ext _ _ n k); auto.
  intros i c Hi Hc. rewrite G2 by auto. destruct e.
  - destruct (Nat.ltb_spec i N); try lia. rewrite G1 by lia. destruct (Nat.ltb_spec i n); auto. lia.
  - destruct (Nat.leb_spec n (i + N)); try lia. rewrite G1 by lia.
    destruct (Nat.leb_spec N (i + N - n + n)); try lia. f_equal. lia.
Qed.
Print Assumptions C24_pad_then_trim.

(** Trimming below the number of channels exchanges samples and channels; trimming a one-channel signal to one sample
    raises; the imaginary part is lost. *)
Theorem C24_trim_below_channels_refuted :
  exists s s', sig_ok s 3 3 /\ pad_trim 2 true s = Ok s' /\
    s_re s = [[1;2;3];[4;5;6];[7;8;9]]%R /\ s_re s' = [[1;4;7];[2;5;8]]%R.
Proof.
  exists (mkSig [[1;2;3];[4;5;6];[7;8;9]]%R None 1%R false 48000). eexists. split.
  { constructor; simpl; auto; try discriminate; try lia. split; [reflexivity|repeat constructor]. }
  split; [reflexivity|]. split; reflexivity.
Qed.
Print Assumptions C24_trim_below_channels_refuted.
Theorem C24_imaginary_lost_refuted :
  forall s s' N e, pad_trim N e s = Ok s' -> s_im s' = None.
Proof.
  intros s s' N e H. unfold pad_trim, set_data, set_time_data in H. simpl in H.
  destruct (_ && _); [discriminate|]. destruct (s_constr s); [destruct (Rlt_dec _ _)|]; inversion H; reflexivity.
Qed.
Print Assumptions C24_imaginary_lost_refuted.

Example C24_example :
  let s := mkSig [[1;2;3];[4;5;6]]%R None 1%R false 48000 in
  sig_ok s 3 2 /\
  option_map s_re (match pad_trim 4 false s with Ok v => Some v | _ => None end) = Some [[0;1;2;3];[0;4;5;6]]%R /\
  option_map s_re (match pad_trim 2 false s with Ok v => Some v | _ => None end) = Some [[2;3];[5;6]]%R.
Proof.
  split. { constructor; simpl; auto; try discriminate; try lia. split; [reflexivity|repeat constructor]. }
  repeat split; reflexivity.
Qed.

(** ** C25 *)
Theorem C25_delay_samples :
  forall (A : Type) (HA : CRing A) (d : nat) (chs : option (list Z)) (keep : bool) (td : list (list A)) (len : nat),
  0 < d -> td <> [] -> Forall (fun col => length col = len) td -> (keep = true -> d < len) ->
  let k := length td in
  let sel := match chs with None => map Z.of_nat (seq 0 k) | Some l => l end in
  sel <> [] -> NoDup sel -> (forall z, In z sel -> (- Z.of_nat k <= z < Z.of_nat k)%Z) ->
  exists out, delay_td d chs keep td = Ok out /\ length out = k /\
    forall c, c < k ->
      length (nth c out []) = (if keep then len else len + d) /\
      forall i, i < (if keep then len else len + d) ->
        get (nth c out []) i =
          if existsb (fun z => (z =? Z.of_nat c)%Z || (z + Z.of_nat k =? Z.of_nat c)%Z) sel
          then (if i <? d then r0 else get (nth c td []) (i - d))
          else get (nth c td []) i.
Proof.
  intros A HA d chs keep td len Hd Hne HF Hk k sel Hs HN HR.
  destruct (delay_eq d chs keep td len Hd HF Hne Hk Hs HN HR) as [out [E [HL HC]]].
  exists out. split; auto. split; auto. intros c Hc. rewrite HC by auto.
  pose proof (nth_default_in td c len HF Hc) as Hl. set (col := nth c td []) in *.
  change (length td) with k. fold sel. cbv zeta.
  set (b := existsb _ sel).
  assert (G : forall i, i < len + d -> get (if b then repeat r0 d ++ col else col ++ repeat r0 d) i =
             if b then (if i <? d then r0 else get col (i - d)) else get col i).
  { intros i Hi. destruct b.
    - destruct (Nat.ltb_spec i d).
      + rewrite get_app_l by (rewrite repeat_length; lia). apply get_repeat0.
      + rewrite get_app_r by (rewrite repeat_length; lia). now rewrite repeat_length.
    - destruct (Nat.lt_ge_cases i len).
      + now rewrite get_app_l by lia.
      + rewrite get_app_r by lia. rewrite get_repeat0. now rewrite get_out by lia. }
  assert (GL : length (if b then repeat r0 d ++ col else col ++ repeat r0 d) = len + d).
  { destruct b; rewrite app_length, repeat_length; lia. }
  destruct keep.
  - split. rewrite firstn_length. lia. intros i Hi. rewrite get_firstn.
    destruct (Nat.ltb_spec i len); try lia. apply G. lia.
  - split; auto.
Qed.
Print Assumptions C25_delay_samples.

Theorem C25_rejects :
  forall (A : Type) (HA : CRing A) (d : nat) (l : list Z) (keep : bool) (td : list (list A)), 0 < d ->
  (exists z, In z l /\ (Z.of_nat (length td) <= z)%Z) \/ ~ NoDup l \/ (keep = true /\ length (hd [] td) <= d) ->
  delay_td d (Some l) keep td = Err AssertionError.
Proof.
  intros A HA d l keep td Hd H. unfold delay_td. destruct (Nat.eqb_spec d 0); try lia.
  destruct (keep && negb (d <? length (hd [] td))) eqn:E; auto.
  destruct (forallb _ l && znodup l) eqn:E2; auto. exfalso. apply andb_true_iff in E2. destruct E2 as [E2 E3].
  destruct H as [[z [Hz H]]|[H|[-> H]]].
  - rewrite forallb_forall in E2. apply E2, Z.ltb_lt in Hz. lia.
  - apply H. now apply znodup_spec.
  - simpl in E. apply negb_false_iff, Nat.ltb_lt in E. lia.
Qed.
Print Assumptions C25_rejects.

(** Delaying all channels twice is delaying them once by the sum. *)
Theorem C25_delays_add :
  forall (A : Type) (HA : CRing A) (d1 d2 : nat) (td : list (list A)) (len : nat),
  td <> [] -> Forall (fun col => length col = len) td ->
  bind (delay_td d1 None false td) (delay_td d2 None false) = delay_td (d1 + d2) None false td.
Proof.
  intros A HA d1 d2 td len Hne HF.
  assert (G : forall d t, t <> [] -> (exists l, Forall (fun col => length col = l) t) ->
     delay_td d None false t = Ok (map (fun col => repeat r0 d ++ col) t)).
  { clear. intros d t Hne [l HF]. destruct (Nat.eq_dec d 0) as [->|Hd].
    - unfold delay_td. simpl. f_equal. symmetry. apply map_id.
    - destruct (delay_eq d None false t l) as [out [E [HL HC]]]; auto; try lia.
      + destruct t; easy.
      + apply FinFun.Injective_map_NoDup. intros a b Hab. lia. apply seq_NoDup.
      + intros z Hz. apply in_map_iff in Hz. destruct Hz as [q [<- Hq]]. apply in_seq in Hq. lia.
      + rewrite E. f_equal. apply (list_eq_nth []). rewrite map_length. lia.
        intros c Hc. rewrite HC by lia. rewrite (nth_map' _ t c []) by lia. cbv zeta.
        assert (Ex : existsb (fun z => (z =? Z.of_nat c)%Z || (z + Z.of_nat (length t) =? Z.of_nat c)%Z) (map Z.of_nat (seq 0 (length t))) = true).
        { apply existsb_exists. exists (Z.of_nat c). split. apply in_map, in_seq. lia. now rewrite Z.eqb_refl. }
        now rewrite Ex. }
  rewrite (G d1 td) by eauto. cbn [bind]. rewrite (G d2), (G (d1 + d2)).
  - f_equal. rewrite map_map. apply map_ext. intros col. rewrite app_assoc, <- repeat_app. f_equal. f_equal. lia.
  - auto.
  - eauto.
  - destruct td; easy.
  - exists (d1 + len). apply Forall_map. eapply Forall_impl; [|exact HF]. intros. simpl. rewrite app_length, repeat_length. simpl in *. lia.
Qed.
Print Assumptions C25_delays_add.

(** On Signal objects a non-zero delay drops the imaginary part (a zero delay keeps it). *)
Theorem C25_imaginary_lost_refuted :
  forall s s' d chs keep, 0 < d -> delay d chs keep s = Ok s' -> s_im s' = None.
Proof.
  intros s s' d chs keep Hd H. unfold delay in H. destruct (Nat.eqb_spec d 0); try lia.
  destruct (delay_td d chs keep (s_re s)); cbn [bind] in H; [|discriminate].
  unfold set_data, set_time_data in H. simpl in H.
  destruct (_ && _); [discriminate|]. destruct (s_constr s); [destruct (Rlt_dec _ _)|]; inversion H; reflexivity.
Qed.
Print Assumptions C25_imaginary_lost_refuted.

Example C25_example :
  delay_td 2 (Some [-1])%Z false [[1;2;3];[4;5;6]]%Z = Ok [[1;2;3;0;0];[0;0;4;5;6]]%Z /\
  delay_td 2 None true [[1;2;3];[4;5;6]]%Z = Ok [[0;0;1];[0;0;4]]%Z /\
  delay_td 1 (Some [2])%Z true [[1;2;3];[4;5;6]]%Z = Err AssertionError.
Proof. repeat split; reflexivity. Qed.

(** ** C26 *)
Lemma pad_trim_placed (A : Type) (HA : CRing A) n e (v : list A) : pad_trim_col n e v = placed n e v.
Proof.
  apply (list_eq_nth r0). unfold placed. now rewrite pad_trim_length, map_length, seq_length.
  intros i Hi. rewrite pad_trim_length in Hi. unfold placed. rewrite (nth_map' _ _ i 0) by (rewrite seq_length; lia).
  rewrite seq_nth by lia. cbn [Nat.add]. change (nth i (pad_trim_col n e v) r0) with (get (pad_trim_col n e v) i). destruct e.
  - now apply pad_trim_end.
  - destruct (Nat.le_ge_cases (length v) n).
    + rewrite pad_trim_start_pad by lia. destruct (Nat.leb_spec n (i + length v)).
      * rewrite get_app_r by (rewrite repeat_length; lia). rewrite repeat_length. f_equal. lia.
      * rewrite get_app_l by (rewrite repeat_length; lia). apply get_repeat0.
    + rewrite pad_trim_start_trim by lia. rewrite get_skipn.
      destruct (Nat.leb_spec n (i + length v)); try lia. f_equal. lia.
Qed.
Lemma placed_length (A : Type) (HA : CRing A) n e (v : list A) : length (placed n e v) = n.
Proof. unfold placed. now rewrite map_length, seq_length. Qed.
Lemma placed_bounded n e (v : list R) : (forall x, In x v -> (Rabs x <= 1)%R) ->
  forall x, In x (placed (HA := CRing_R) n e v) -> (Rabs x <= 1)%R.
Proof.
  intros H x Hx. unfold placed in Hx. apply in_map_iff in Hx. destruct Hx as [i [<- _]].
  assert (G : forall j, (Rabs (get (HA := CRing_R) v j) <= 1)%R).
  { intros j. destruct (Nat.lt_ge_cases j (length v)). apply H, nth_In; auto.
    rewrite get_out by auto. cbn. rewrite Rabs_R0. lra. }
  destruct e; auto. destruct (_ <=? _); auto. cbn. rewrite Rabs_R0. lra.
Qed.
Definition im_or_zero (s : signal) : mat :=
  match s_im s with Some im => im | None => map (fun col => map (fun _ => 0%R) col) (s_re s) end.
Lemma im_or_zero_eq s : match s_im s with Some i => i | None => zeros_like (s_re s) end = im_or_zero s.
Proof.
  unfold im_or_zero, zeros_like. destruct (s_im s); auto. apply map_ext. intros col.
  induction col; simpl; congruence.
Qed.

(** The channels of all signals in order, each brought to the length of the first signal. When any of the signals is
    complex the others contribute zero imaginary parts. *)
Theorem C26_append :
  forall (allow at_end : bool) (s0 : signal) (rest : list signal) (n k : nat),
  sig_ok s0 n k -> rest <> [] ->
  (forall s, In s rest -> exists ns ks, sig_ok s ns ks /\ s_fs s = s_fs s0 /\ (allow = false -> ns = n) /\
                          (s_constr s0 = true -> s_constr s = true)) ->
  let all := s0 :: rest in
  length (concat (map s_re all)) <= n ->
  exists s', append_signals allow at_end s0 rest = Ok s' /\
    s_re s' = map (placed (HA := CRing_R) n at_end) (concat (map s_re all)) /\
    s_im s' = (if existsb (fun s => match s_im s with Some _ => true | None => false end) all
               then Some (map (placed (HA := CRing_R) n at_end) (concat (map im_or_zero all))) else None) /\
    s_fs s' = s_fs s0 /\ s_constr s' = s_constr s0 /\ sig_ok s' n (length (concat (map s_re all))).
Proof.
  intros allow e s0 rest n k Hok Hne HR all Hlen.
  assert (HA : forall s, In s all -> exists ns ks, sig_ok s ns ks /\ s_fs s = s_fs s0 /\ (allow = false -> ns = n) /\
                          (s_constr s0 = true -> s_constr s = true)).
  { intros s [<-|Hs]; eauto. exists n, k. auto. }
  pose proof Hok as [h1 h2 h3 h4 h5 h6 h7].
  unfold append_signals. destruct rest as [|r rs]; [easy|]. set (rest := r :: rs) in *.
  rewrite (shape_nrows _ n k) by auto. fold all.
  assert (EC : forallb (fun s => (s_fs s =? s_fs s0)%Z && (allow || (nrows (s_re s) =? n))) all = true).
  { apply forallb_forall. intros s Hs. destruct (HA s Hs) as [ns [ks [O [E1 [E2 _]]]]].
    rewrite E1, Z.eqb_refl. cbn. destruct allow; auto. cbn. apply Nat.eqb_eq.
    rewrite (shape_nrows _ ns ks); try apply O. auto. }
  rewrite EC. cbn [negb]. cbv zeta.
  assert (FM : forall f : signal -> mat, flat_map (fun s => map (pad_trim_col (HA := CRing_R) n e) (f s)) all =
     map (placed (HA := CRing_R) n e) (concat (map f all))).
  { intros f. generalize all. induction all0 as [|a l IH]; auto. simpl. rewrite map_app, IH. f_equal. apply map_ext. intros. apply pad_trim_placed. }
  rewrite (FM s_re).
  match goal with |- context [flat_map ?g all] => replace (flat_map g all) with
    (map (placed (HA := CRing_R) n e) (concat (map im_or_zero all)))
    by (rewrite <- (FM im_or_zero); apply flat_map_ext; intros s; now rewrite <- im_or_zero_eq) end.
  assert (EX : existsb (fun s => is_some (s_im s)) all = existsb (fun s => match s_im s with Some _ => true | None => false end) all)
    by reflexivity.
  rewrite EX. set (b := existsb _ all). unfold set_data.
  assert (Lim : length (concat (map im_or_zero all)) = length (concat (map s_re all))).
  { clear - HA. clearbody all. induction all as [|a l IH]; simpl; auto. rewrite !app_length, IH by (intros; apply HA; now right). f_equal.
    destruct (HA a (or_introl eq_refl)) as [ns [ks [[_ _ _ g4 g5 _ _] _]]]. unfold im_or_zero.
    destruct (s_im a) eqn:E. destruct (g5 m eq_refl), g4. lia. apply map_length. }
  set (K := length (concat (map s_re all))) in *.
  assert (HK : 0 < K). { unfold K, all. simpl. rewrite app_length. destruct h4. lia. }
  assert (Sh : forall f : signal -> mat, length (concat (map f all)) = K -> shape (map (placed (HA := CRing_R) n e) (concat (map f all))) n K).
  { intros f Hf. split. now rewrite map_length. apply Forall_map, Forall_forall. intros. apply placed_length. }
  assert (Bd : forall f : signal -> mat, length (concat (map f all)) = K -> (forall s col x, In s all -> In col (f s) -> In x col -> (Rabs x <= 1)%R) ->
     bounded (map (placed (HA := CRing_R) n e) (concat (map f all))) n K).
  { intros f Hf Hb i c Hi Hc. unfold entry. rewrite (nth_map' _ _ c []) by lia.
    set (col := nth c (concat (map f all)) []).
    assert (Hcol : In col (concat (map f all))) by (apply nth_In; lia).
    apply in_concat in Hcol. destruct Hcol as [m [Hm Hcol]]. apply in_map_iff in Hm. destruct Hm as [s [<- Hs]].
    apply (placed_bounded n e col).
    - intros x Hx. apply (Hb s col x); auto.
    - apply nth_In. now rewrite placed_length. }
  assert (InB : forall m a q col x, shape m a q -> bounded m a q -> In col m -> In x col -> (Rabs x <= 1)%R).
  { intros m a q col x [S1 S2] B Hc Hx. destruct (In_nth _ _ [] Hc) as [c [Lc Ec]]. destruct (In_nth _ _ 0%R Hx) as [i [Li Ei]].
    rewrite <- Ei, <- Ec. apply B; try lia. rewrite Forall_forall in S2. now rewrite <- (S2 col Hc). }
  set (x := mkIn _ _ _).
  assert (X1 : in_shape x n K).
  { unfold x. split; simpl. apply Sh; auto. intros im E. destruct b; inversion E. apply Sh; auto. }
  assert (X2 : s_constr s0 = true -> bounded (i_re x) n K /\ forall im, i_im x = Some im -> bounded im n K).
  2: { rewrite (set_identity _ _ _ n K); auto. eexists. split; [reflexivity|]. simpl. split; auto. split; auto. split; auto. split; auto.
       destruct X1 as [X1 X1']. unfold x in *. simpl in *. constructor; simpl; auto. apply X2. intros Hc; apply X2; auto. }
  unfold x. clear x X1.
  - intros Hc. simpl. split.
    + apply Bd; auto. intros s col x Hs. destruct (HA s Hs) as [ns [ks [[_ _ _ g4 g5 g6 g7] [_ [_ E4]]]]].
      apply (InB _ ns ks); auto.
    + intros im E. destruct b; inversion E. apply Bd; auto. intros s col x Hs Hcol Hx.
      destruct (HA s Hs) as [ns [ks [[_ _ _ g4 g5 g6 g7] [_ [_ E4]]]]].
      unfold im_or_zero in Hcol. destruct (s_im s) as [im'|] eqn:Ei.
      * apply (InB im' ns ks col); auto.
      * apply in_map_iff in Hcol. destruct Hcol as [c0 [<- _]]. apply in_map_iff in Hx. destruct Hx as [? [<- _]].
        rewrite Rabs_R0. lra.
Qed.
Print Assumptions C26_append.

Theorem C26_rejects :
  forall allow at_end s0 rest,
  (rest = [] \/ (exists s, In s rest /\ s_fs s <> s_fs s0) \/
   (allow = false /\ exists s, In s rest /\ length (hd [] (s_re s)) <> length (hd [] (s_re s0)))) ->
  append_signals allow at_end s0 rest = Err AssertionError.
Proof.
  intros allow e s0 rest [->|H]; auto. unfold append_signals. destruct rest as [|r rs]; auto.
  set (rest := r :: rs) in *.
  destruct (forallb _ (s0 :: rest)) eqn:E; auto. exfalso. rewrite forallb_forall in E.
  destruct H as [[s [Hs H]]|[-> [s [Hs H]]]].
  - specialize (E s (or_intror Hs)). apply andb_true_iff in E. destruct E as [E _]. apply Z.eqb_eq in E. easy.
  - specialize (E s (or_intror Hs)). apply andb_true_iff in E. destruct E as [_ E]. apply Nat.eqb_eq in E. easy.
Qed.
Print Assumptions C26_rejects.

Definition mono (a b : R) : signal := mkSig [[a;b]]%R None 1%R false 48000.
(** Multi-band signals, in general: output band [j] holds the channels of band 0 of the first signal followed by the
    channels of band [j] of each other signal. With one band per signal this is the intended result. *)
Lemma append_chain_ok allow e l : forall acc n k,
  sig_ok acc n k ->
  (forall s, In s l -> exists ns ks, sig_ok s ns ks /\ s_fs s = s_fs acc /\ (allow = false -> ns = n) /\
                          (s_constr acc = true -> s_constr s = true)) ->
  length (s_re acc ++ concat (map s_re l)) <= n ->
  exists s', append_chain allow e acc l = Ok s' /\
    s_re s' = s_re acc ++ map (placed (HA := CRing_R) n e) (concat (map s_re l)).
Proof.
  assert (PI : forall n (m : mat), Forall (fun c => length c = n) m -> map (placed (HA := CRing_R) n e) m = m).
  { intros n m H. rewrite <- (map_id m) at 2. apply map_ext_in. intros c Hc. rewrite Forall_forall in H. specialize (H c Hc).
    rewrite <- pad_trim_placed. unfold pad_trim_col. rewrite H. now rewrite Nat.ltb_irrefl, Nat.eqb_refl || rewrite <- H; try reflexivity. }
  induction l as [|s t IH]; intros acc n k Hok HR Hlen.
  - exists acc. simpl. now rewrite app_nil_r.
  - destruct (C26_append allow e acc [s] n k Hok ltac:(discriminate)) as [a [Ea [Ra [_ [Fa [Ca Oa]]]]]].
    { intros s' [<-|[]]. apply HR. now left. }
    { simpl in *. rewrite app_nil_r, !app_length in *. lia. }
    cbn [append_chain]. rewrite Ea. cbn [bind].
    assert (Ra' : s_re a = s_re acc ++ map (placed (HA := CRing_R) n e) (s_re s)).
    { rewrite Ra. simpl. rewrite app_nil_r, map_app. f_equal. apply PI. apply Hok. }
    destruct (IH a n _ Oa) as [s' [Es Rs]].
    { intros s' Hs. rewrite Fa, Ca. apply HR. now right. }
    { rewrite Ra'. simpl in Hlen. rewrite !app_length, map_length in *. lia. }
    exists s'. split; auto. rewrite Rs, Ra'. simpl. now rewrite map_app, app_assoc.
Qed.
Lemma seq_result_ok T (l : list (result T)) (vs : list T) : l = map Ok vs -> seq_result l = Ok vs.
Proof. intros ->. induction vs as [|v vs IH]; simpl; auto. now rewrite IH. Qed.
Theorem C26_multiband :
  forall (allow at_end : bool) (b0 : signal) (bs : list signal) (rest : list (list signal)) (n k : nat),
  sig_ok b0 n k -> rest <> [] ->
  (forall m, In m rest -> length m = S (length bs)) ->
  (forall m s, In m rest -> In s m -> exists ns ks, sig_ok s ns ks /\ s_fs s = s_fs b0 /\ (allow = false -> ns = n) /\
                          (s_constr b0 = true -> s_constr s = true)) ->
  (forall j, j <= length bs -> length (s_re b0 ++ concat (map (fun m => s_re (nth j m b0)) rest)) <= n) ->
  exists out, append_multiband allow at_end (b0 :: bs) rest = Ok out /\ length out = S (length bs) /\
    forall j, j <= length bs -> s_re (nth j out b0) =
      s_re b0 ++ map (placed (HA := CRing_R) n at_end) (concat (map (fun m => s_re (nth j m b0)) rest)).
Proof.
  intros allow e b0 bs rest n k Hok Hne HL HR Hlen.
  set (ch := fun j => append_chain allow e b0 (map (fun m => nth j m b0) rest)).
  assert (HC : forall j, j <= length bs -> exists s', ch j = Ok s' /\
     s_re s' = s_re b0 ++ map (placed (HA := CRing_R) n e) (concat (map (fun m => s_re (nth j m b0)) rest))).
  { intros j Hj. destruct (append_chain_ok allow e (map (fun m => nth j m b0) rest) b0 n k Hok) as [s' [E1 E2]].
    - intros s Hs. apply in_map_iff in Hs. destruct Hs as [m [<- Hm]]. apply (HR m); auto. apply nth_In. rewrite HL by auto. lia.
    - rewrite map_map. now apply Hlen.
    - exists s'. split; auto. now rewrite E2, map_map. }
  set (dflt := fun j => match ch j with Ok s => s | Err _ => b0 end).
  exists (map dflt (seq 0 (S (length bs)))). split; [|split].
  - unfold append_multiband. destruct rest as [|r rs]; [easy|]. set (rest := r :: rs) in *.
    replace (forallb _ rest) with true.
    + cbn [negb]. apply seq_result_ok. rewrite map_map. apply map_ext_in. intros j Hj. apply in_seq in Hj. simpl in Hj.
      destruct (HC j ltac:(lia)) as [s' [E1 _]]. unfold dflt. fold (ch j). now rewrite E1.
    + symmetry. apply forallb_forall. intros m Hm. apply Nat.eqb_eq. rewrite HL; auto.
  - now rewrite map_length, seq_length.
  - intros j Hj. rewrite (nth_map' _ _ j 0) by (rewrite seq_length; lia). rewrite seq_nth by lia. cbn [Nat.add].
    destruct (HC j Hj) as [s' [E1 E2]]. unfold dflt. now rewrite E1.
Qed.
Print Assumptions C26_multiband.
Example C26_multiband_example :
  let m0 := [mono (1/2) (1/4)] in let m1 := [mono 1 0] in
  append_multiband false true m0 [m1] = Ok [mkSig [[1/2;1/4];[1;0]]%R None 1%R false 48000].
Proof. reflexivity. Qed.

(** Multi-band signals: output band 1 starts with the channel of band 0 of the first signal instead of band 1. *)
Theorem C26_multiband_first_band_refuted :
  exists m0 m1 b0 b1, append_multiband false true m0 [m1] = Ok [b0; b1] /\
    map s_re m0 = [[[1;2]]; [[3;4]]]%R /\ map s_re m1 = [[[5;6]]; [[7;8]]]%R /\
    s_re b0 = [[1;2];[5;6]]%R /\ s_re b1 = [[1;2];[7;8]]%R.
Proof.
  exists [mono 1 2; mono 3 4], [mono 5 6; mono 7 8]. do 2 eexists. split; [reflexivity|]. repeat split; reflexivity.
Qed.
Print Assumptions C26_multiband_first_band_refuted.

(** More channels in total than samples: samples and channels exchanged. *)
Theorem C26_many_channels_refuted :
  exists s', append_signals false true (mono 1 2) [mono 3 4; mono 5 6] = Ok s' /\
    s_re s' = [[1;3;5];[2;4;6]]%R.
Proof. eexists. split; reflexivity. Qed.
Print Assumptions C26_many_channels_refuted.

Example C26_example :
  let s0 := mkSig [[1;2;3]]%R None 1%R false 48000 in
  let s1 := mkSig [[4;5];[6;7]]%R (Some [[8;0];[0;9]]%R) 1%R false 48000 in
  sig_ok s0 3 1 /\ sig_ok s1 2 2 /\
  exists s', append_signals true false s0 [s1] = Ok s' /\
    s_re s' = [[1;2;3];[0;4;5];[0;6;7]]%R /\ s_im s' = Some [[0;0;0];[0;8;0];[0;0;9]]%R.
Proof.
  split. { constructor; simpl; auto; try discriminate; try lia. split; [reflexivity|repeat constructor]. }
  split. { constructor; simpl; auto; try discriminate; try lia. split; [reflexivity|repeat constructor].
    intros im E; inversion E. split; [reflexivity|repeat constructor]. }
  eexists. split; [reflexivity|]. split; reflexivity.
Qed.

(** ** C27 *)
Theorem C27_trim_keeps_loud_span :
  forall (T : Type) (above : T -> bool) (at_start at_end : bool) (td : list (list T)) (len : nat),
  td <> [] -> Forall (fun col => length col = len) td -> at_start || at_end = true ->
  let loud r := exists col x, In col td /\ nth_error col r = Some x /\ above x = true in
  (exists r, loud r) ->
  exists start stop,
    trim_level above at_start at_end td = Ok (map (fun col => firstn (stop - start) (skipn start col)) td, start, stop) /\
    start < stop <= len /\
    (if at_start then loud start /\ (forall r, r < start -> ~ loud r) else start = 0) /\
    (if at_end then loud (stop - 1) /\ (forall r, stop <= r -> ~ loud r) else stop = len).
Proof. intros. now apply trim_level_eq. Qed.
Print Assumptions C27_trim_keeps_loud_span.

Theorem C27_silence_raises :
  forall (T : Type) (above : T -> bool) (at_start at_end : bool) (td : list (list T)),
  at_start || at_end = true ->
  (forall r col x, In col td -> nth_error col r = Some x -> above x = false) ->
  trim_level above at_start at_end td = Err ValueError.
Proof.
  intros T above s e td H Hn. apply trim_level_none; auto. intros r [col [x [H1 [H2 H3]]]].
  rewrite (Hn r col x) in H3; auto. discriminate.
Qed.
Print Assumptions C27_silence_raises.

(** When fewer samples than channels remain, the Signal that is returned has its axes exchanged. *)
Theorem C27_short_result_turned_refuted :
  exists (above : R -> bool) s s', sig_ok s 3 2 /\ trim_signal above true true s = Ok (s', 1, 2) /\
    s_re s = [[0;5;0];[0;6;0]]%R /\ s_re s' = [[5;6]]%R.
Proof.
  exists (fun x => if Rle_dec 1 x then true else false), (mkSig [[0;5;0];[0;6;0]]%R None 1%R false 48000).
  exists (mkSig [[5;6]]%R None 1%R false 48000). split.
  { constructor; simpl; auto; try discriminate; try lia. split; [reflexivity|repeat constructor]. }
  split; [|split; reflexivity].
  unfold trim_signal, trim_level, above_rows. simpl.
  destruct (Rle_dec 1 0); [lra|]. destruct (Rle_dec 1 5); [|lra]. destruct (Rle_dec 1 6); [|lra]. reflexivity.
Qed.
Print Assumptions C27_short_result_turned_refuted.

Example C27_example :
  trim_level (fun x => (3 <=? x)%Z) true true [[0;1;3;0;0];[0;0;0;4;0]]%Z = Ok ([[3;0];[0;4]]%Z, 2, 4) /\
  trim_level (fun x => (3 <=? x)%Z) false true [[0;1;3;0;0];[0;0;0;4;0]]%Z = Ok ([[0;1;3;0];[0;0;0;4]]%Z, 0, 4) /\
  trim_level (fun x => (5 <=? x)%Z) true true [[0;1;3;0;0];[0;0;0;4;0]]%Z = Err ValueError.
Proof. repeat split; reflexivity. Qed.
