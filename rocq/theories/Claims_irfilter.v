(** Property C86: conversions between impulse responses and FIR filters. *)
From Coq Require Import List Arith Lia ZArith Bool Reals Lra Psatz.
From Verif Require Import Alg Spec Dft M_arrays M_signal P_arrays P_signal M_filter P_filter M_irfilter Claims_fade Claims_signal.
Import ListNotations.
Local Open Scope R_scope.

(** ** Specification *)
(** the FIR filter with the taps [b] *)
Definition fir (b : list R) (fs : Z) : cfilter := mkCF b [1] fs.
(** x filtered from rest with the filter *)
Definition filtered (f : cfilter) (x : list R) : list R := fst (lfilter (c_b f) (c_a f) x (repeat 0 (taps f - 1))).
(** all values lie within [-1, 1] *)
Definition within (b : list R) : Prop := forall i, Rabs (nth i b 0) <= 1.
(** the largest absolute value of all the lists is p *)
Definition top (bs : list (list R)) (p : R) : Prop :=
  (forall b i, In b bs -> Rabs (nth i b 0) <= p) /\ exists b i, In b bs /\ (i < length b)%nat /\ Rabs (nth i b 0) = p.
(** the number of samples of the longest list is n *)
Definition longest (bs : list (list R)) (n : nat) : Prop := (forall b, In b bs -> (length b <= n)%nat) /\ exists b, In b bs /\ length b = n.

(** ** Auxiliary facts *)
Lemma from_ba_fir b fs : from_ba b [1] fs = fir b fs.
Proof.
  unfold from_ba. cbn [trim_back]. destruct (Req_EM_T 1 0); [lra|]. unfold fir. f_equal. { rewrite <- (map_id b) at 2. apply map_ext. intros; field. } f_equal. field.
Qed.
Lemma fir_not_iir b fs : is_iir (FBa (fir b fs)) = false.
Proof. simpl. destruct (Req_EM_T 1 1); auto. lra. Qed.
Lemma resolve_one n (ch : Z) k : py_index n ch = Some k -> resolve_all n [ch] = Some [k].
Proof. intros H. simpl. now rewrite H. Qed.
Lemma entry_zero m i c n k : shape m n k -> (n <= i)%nat -> entry m i c = 0.
Proof.
  intros (A & B) H. unfold entry. destruct (Nat.lt_ge_cases c (length m)).
  - rewrite Forall_forall in B. apply nth_overflow. rewrite B; [lia|]. now apply nth_In.
  - rewrite (nth_overflow m) by lia. now destruct i.
Qed.
Lemma ir_set (m : mat) fs n k p : shape m n k -> (0 < n)%nat -> (0 < k)%nat -> (n * k <> 1)%nat -> is_peak (mkIn m None false) n k p ->
  exists s, ir_from_time_data m fs = Ok s /\ s_constr s = true /\ s_fs s = fs /\ s_scale s = 1 /\ s_im s = None /\ shape (s_re s) (max n k) (min n k) /\
    forall i c, (i < max n k)%nat -> (c < min n k)%nat -> entry (s_re s) i c = (if Rlt_dec 1 p then / p else 1) * oriented m n k i c.
Proof.
  intros Sh Hn Hk H1 Hp.
  destruct (set_time_data_spec true fs (mkIn m None false) n k p) as (s & E & A & B & D & F & G & I); auto. { split; auto. discriminate. }
  unfold ir_from_time_data. rewrite E. cbn [bind]. cbn [i_re i_im] in *.
  assert (Bd : bounded (s_re s) (max n k) (min n k)).
  { intros i c Hi Hc. rewrite G by auto. rewrite D. destruct Hp as (P1 & P2).
    assert (Rabs (oriented m n k i c) <= p). { unfold oriented. destruct (Nat.ltb_spec n k). destruct (P1 c i); auto; lia. destruct (P1 i c); auto; lia. }
    assert (0 <= p) by (eapply Rle_trans; [apply Rabs_pos|exact H]).
    rewrite Rabs_mult. destruct (Rlt_dec 1 p).
    - rewrite Rabs_pos_eq by (left; apply Rdiv_lt_0_compat; lra). apply (Rmult_le_reg_l p); [lra|]. replace (p * (1 / p * Rabs (oriented m n k i c))) with (Rabs (oriented m n k i c)) by (field; lra). lra.
    - rewrite Rabs_R1. lra. }
  rewrite (set_identity true fs (mkIn (s_re s) None false) (max n k) (min n k)); try lia.
  2:{ split; auto. discriminate. }
  2:{ destruct n as [|[|n]], k as [|[|k]]; lia. }
  2:{ intros _. split; [exact Bd|discriminate]. }
  eexists. split; [reflexivity|]. cbn [s_constr s_fs s_scale s_im s_re i_re i_im]. repeat (split; [reflexivity|]). split; auto.
  intros i c Hi Hc. rewrite G by auto. rewrite D. destruct (Rlt_dec 1 p); f_equal. field. lra.
Qed.
Lemma nth_all b n : length b = n -> b = mk n (fun i => nth i b 0).
Proof. intros <-. apply (nth_ext _ _ 0 0). now rewrite mk_length. intros i Hi. symmetry. apply (nth_mk (length b) (fun i => nth i b 0) i 0 Hi). Qed.
Lemma mat_ext (m1 m2 : mat) n k : shape m1 n k -> shape m2 n k -> (forall i c, (i < n)%nat -> (c < k)%nat -> entry m1 i c = entry m2 i c) -> m1 = m2.
Proof.
  intros (A1 & B1) (A2 & B2) H. rewrite Forall_forall in *. apply (nth_ext _ _ [] []). lia. intros c Hc. rewrite A1 in Hc.
  assert (L1 : length (nth c m1 []) = n) by (apply B1; apply nth_In; lia). assert (L2 : length (nth c m2 []) = n) by (apply B2; apply nth_In; lia).
  apply (nth_ext _ _ 0 0). lia. intros i Hi. rewrite L1 in Hi. apply (H i c); auto.
Qed.
Lemma oriented_tall m n k i c : (k <= n)%nat -> oriented m n k i c = entry m i c.
Proof. intros H. unfold oriented. destruct (Nat.ltb_spec n k); [lia|reflexivity]. Qed.
Lemma shape_list (m : mat) n : Forall (fun b => length b = n) m -> shape m n (length m).
Proof. intros H. now split. Qed.
Lemma top_peak m n p : (0 < n)%nat -> m <> [] -> Forall (fun b => length b = n) m -> top m p -> is_peak (mkIn m None false) n (length m) p.
Proof.
  intros Hn Hm F (A & (b & i & Hb & Hi & E)). split; cbn [i_re i_im].
  - intros j c Hj Hc. split; [|discriminate]. unfold entry. apply A. now apply nth_In.
  - rewrite Forall_forall in F. apply In_nth with (d := []) in Hb as (c & Hc & Ec). exists i, c. split. { rewrite <- (F b). exact Hi. rewrite <- Ec. now apply nth_In. }
    split; auto. left. unfold entry. now rewrite Ec.
Qed.

(** ** C86 *)
(** A channel as a filter: its taps are the samples, and filtering with it is the convolution with the channel. Channels may be counted from the end. *)
Theorem C86_channel_filter : forall (s : signal) (n k c : nat) (ch : Z), sig_ok s n k -> py_index k ch = Some c ->
  let h := nth c (s_re s) [] in let f := fir h (s_fs s) in
  ir_to_filter Ok (Some ch) s = Ok (inl f) /\ forall x, length (filtered f x) = length x /\ forall t, (t < length x)%nat -> nth t (filtered f x) 0 = conv h x t.
Proof.
  intros s n k c ch OK Hc h f. pose proof (py_index_lt _ _ _ Hc) as Lc. destruct (ok_re _ _ _ OK) as (L1 & L2). pose proof L2 as L3. rewrite Forall_forall in L3.
  assert (Lh : length h = n) by (apply L3; apply nth_In; lia). pose proof (ok_n _ _ _ OK).
  split.
  - unfold ir_to_filter, get_channels. unfold ncols. rewrite L1, (resolve_one _ _ _ Hc). unfold set_data.
    rewrite (set_identity (s_constr s) (s_fs s) _ n 1); try lia.
    + cbn [bind s_re map_data get_data i_re select map]. fold h. rewrite from_ba_fir. reflexivity.
    + split. { cbn [map_data get_data i_re select map]. split; [reflexivity|]. repeat constructor. exact Lh. }
      intros im E. cbn [map_data get_data i_im option_map] in E. destruct (s_im s) as [im0|] eqn:Ei; [|discriminate]. inversion E; subst im. clear E.
      destruct (ok_im _ _ _ OK im0 Ei) as (M1 & M2). rewrite Forall_forall in M2. split; [reflexivity|]. repeat constructor. apply M2. apply nth_In. lia.
    + intros Hb. split.
      * intros i c' Hi Hc'. assert (c' = 0)%nat by lia. subst. unfold entry. cbn [map_data get_data i_re select map nth]. apply (ok_bre _ _ _ OK Hb i c); lia.
      * intros im E. cbn [map_data get_data i_im option_map] in E. destruct (s_im s) as [im0|] eqn:Ei; [|discriminate]. inversion E; subst im.
        intros i c' Hi Hc'. assert (c' = 0)%nat by lia. subst. unfold entry. cbn [select map nth]. apply (ok_bim _ _ _ OK Hb im0 Ei i c); lia.
  - intros x. unfold filtered, f, taps, fir. cbn [c_b c_a length]. rewrite Lh.
    split; [apply lfilter_length|]. intros t Ht.
    destruct (lfilter_diff h [1] x (repeat 0 (Nat.max n 1 - 1))) as (_ & D); [reflexivity|rewrite repeat_length; lia|rewrite repeat_length; simpl; lia|].
    specialize (D t Ht). set (y := fst (lfilter h [1] x _)) in *.
    assert (C1 : conv [1] y t = nth t y 0).
    { unfold conv. rewrite (sum_single (S t) 0%nat); [|lia|]. { cbn [get nth]. rewrite Nat.sub_0_r. unfold get. simpl. ring. }
      intros j Hj N. destruct j; [lia|]. unfold get. destruct j; simpl; ring. }
    rewrite C1 in D. rewrite D. unfold get. rewrite nth_repeat. simpl. ring.
Qed.
Print Assumptions C86_channel_filter.
(** All channels: one filter each *)
Theorem C86_bank_of_channels : forall (s : signal), ir_to_filter Ok None s = Ok (inr (map (fun h => fir h (s_fs s)) (s_re s))).
Proof. intros s. unfold ir_to_filter. cbn [bind]. do 2 f_equal. apply map_ext. intros h. apply from_ba_fir. Qed.
Print Assumptions C86_bank_of_channels.
Theorem C86_no_such_channel : forall (s : signal) (n k : nat) (ch : Z), sig_ok s n k -> (ch < - Z.of_nat k \/ Z.of_nat k <= ch)%Z -> ir_to_filter Ok (Some ch) s = Err IndexError.
Proof.
  intros s n k ch OK H. destruct (ok_re _ _ _ OK) as (L1 & _). unfold ir_to_filter, get_channels, ncols. rewrite L1. cbn [resolve_all].
  assert (E : py_index k ch = None). { unfold py_index. destruct (Z.leb_spec 0 ch), (Z.ltb_spec ch (Z.of_nat k)), (Z.leb_spec (- Z.of_nat k) ch), (Z.ltb_spec ch 0); simpl; auto; lia. }
  rewrite E. reflexivity.
Qed.
Print Assumptions C86_no_such_channel.
Definition ir4 : signal := mkSig [[1; 1 / 2; 0; - (1 / 4)]; [0; 1; 1 / 3; 0]] None 1 true 48000.
Lemma ir4_ok : sig_ok ir4 4 2.
Proof.
  constructor; simpl s_re; simpl s_im; try lia; try discriminate.
  - split; [reflexivity|]. repeat constructor.
  - intros _ i c Hi Hc. assert (c = 0 \/ c = 1)%nat as [->| ->] by lia; assert (i = 0 \/ i = 1 \/ i = 2 \/ i = 3)%nat as [->|[->|[->| ->]]] by lia; unfold entry; simpl; apply Rabs_le; lra.
Qed.
Example C86_channel_filter_case : sig_ok ir4 4 2 /\ py_index 2 (-1) = Some 1%nat.
Proof. split; [apply ir4_ok|reflexivity]. Qed.

(** A filter as a response: the taps, which are divided by the largest of them when it exceeds one; that factor is not reported. *)
Theorem C86_response_of_filter : forall (b : list R) (fs : Z) (p : R), (2 <= length b)%nat -> top [b] p ->
  filter_to_ir (FBa (fir b fs)) = Ok (mkSig [map (fun v => (if Rlt_dec 1 p then / p else 1) * v) b] None 1 true fs).
Proof.
  intros b fs p Lb Tp. unfold filter_to_ir. rewrite fir_not_iir. cbn [fir c_b c_fs]. destruct b as [|v t] eqn:Eb; [simpl in Lb; lia|]. rewrite <- Eb in *.
  assert (F : Forall (fun u => length u = length b) [b]) by repeat constructor.
  destruct (ir_set [b] fs (length b) 1 p) as (s & E & A & B & D & G & Sh & V); try lia. { apply (shape_list [b] _ F). } { apply (top_peak [b] (length b) p); auto; try lia. discriminate. }
  rewrite E. f_equal. destruct s as [re im sc co f']. cbn [s_constr s_fs s_scale s_im s_re] in *. subst. f_equal.
  rewrite Nat.max_l, Nat.min_r in * by lia. apply (mat_ext _ _ (length (v :: t)) 1); auto.
  { split; [reflexivity|]. repeat constructor. now rewrite map_length. }
  intros i c Hi Hc. rewrite V by auto. rewrite oriented_tall by lia. assert (c = 0)%nat by lia. subst. unfold entry. cbn [nth].
  rewrite (nth_map' (fun u => (if Rlt_dec 1 p then / p else 1) * u) (v :: t) i 0) by auto. reflexivity.
Qed.
Print Assumptions C86_response_of_filter.
Definition b3 : list R := [1 / 2; -3; 2].
Lemma b3_top : top [b3] 3.
Proof.
  split.
  - intros b i [<-|[]]. destruct i as [|[|[|i]]]; simpl; try (apply Rabs_le; lra). destruct i; rewrite Rabs_R0; lra.
  - exists b3, 1%nat. simpl. split; auto. split; [lia|]. rewrite Rabs_left; lra.
Qed.
Example C86_response_of_filter_case : filter_to_ir (FBa (fir b3 8)) = Ok (mkSig [[1 / 6; -1; 2 / 3]] None 1 true 8).
Proof. rewrite (C86_response_of_filter b3 8 3); [|simpl; lia|apply b3_top]. destruct (Rlt_dec 1 3); [|lra]. simpl. do 2 f_equal. f_equal. f_equal; [field|]. f_equal; [field|]. f_equal. field. Qed.

(** Filter to response and back, response to filter and back: nothing changes when no value exceeds one. *)
Theorem C86_round_trip_filter : forall (b : list R) (fs : Z), (2 <= length b)%nat -> within b ->
  bind (filter_to_ir (FBa (fir b fs))) (ir_to_filter Ok (Some 0%Z)) = Ok (inl (fir b fs)).
Proof.
  intros b fs Lb Wb.
  assert (E : exists p, top [b] p).
  { destruct (is_peak_exists (mkIn [b] None false) (length b) 1) as (p & P1 & (i & c & Hi & Hc & [P2|(im & Q & _)])); try lia; [split; [apply (shape_list [b]); repeat constructor|discriminate]| |discriminate].
    cbn [i_re i_im] in *. assert (c = 0)%nat by lia. subst c. exists p. split.
    - intros b' j [<-|[]]. destruct (Nat.lt_ge_cases j (length b)). destruct (P1 j 0%nat); auto. rewrite nth_overflow by auto. rewrite Rabs_R0, P2. apply Rabs_pos.
    - exists b, i. split; [left; auto|]. split; auto. }
  destruct E as (p & Tp). assert (p <= 1). { destruct Tp as (_ & (b' & i & [<-|[]] & _ & <-)). apply Wb. }
  rewrite (C86_response_of_filter b fs p Lb Tp). destruct (Rlt_dec 1 p); [lra|]. cbn [bind]. rewrite (map_ext _ (fun v => v)) by (intros; ring). rewrite map_id.
  assert (OK : sig_ok (mkSig [b] None 1 true fs) (length b) 1).
  { constructor; cbn [s_re s_im s_constr]; try lia; try discriminate. apply (shape_list [b]); repeat constructor. intros _ i c Hi Hc. assert (c = 0)%nat by lia. subst. apply Wb. }
  destruct (C86_channel_filter _ _ _ 0%nat 0%Z OK eq_refl) as (A & _). exact A.
Qed.
Print Assumptions C86_round_trip_filter.
Theorem C86_round_trip_response : forall (s : signal) (n k c : nat) (ch : Z), sig_ok s n k -> py_index k ch = Some c -> within (nth c (s_re s) []) ->
  bind (ir_to_filter Ok (Some ch) s) (fun f => match f with inl f => filter_to_ir (FBa f) | inr _ => Err TypeError end) = Ok (mkSig [nth c (s_re s) []] None 1 true (s_fs s)).
Proof.
  intros s n k c ch OK Hc W. destruct (C86_channel_filter s n k c ch OK Hc) as (A & _). rewrite A. cbn [bind]. set (b := nth c (s_re s) []) in *.
  assert (Lb : length b = n). { destruct (ok_re _ _ _ OK) as (L1 & L2). rewrite Forall_forall in L2. apply L2. apply nth_In. rewrite L1. now apply (py_index_lt _ ch). }
  pose proof (ok_n _ _ _ OK). pose proof (C86_round_trip_filter b (s_fs s) ltac:(lia) W) as E.
  unfold filter_to_ir in *. rewrite fir_not_iir in *. cbn [fir c_b c_fs] in *. destruct b as [|v t] eqn:Eb; [simpl in Lb; lia|]. rewrite <- Eb in *.
  unfold ir_from_time_data. rewrite !(set_identity true (s_fs s) (mkIn [b] None false) n 1); try lia. { cbn [bind s_re i_re i_im]. rewrite (set_identity true (s_fs s) (mkIn [b] None false) n 1); try lia. reflexivity.
    split; [rewrite <- Lb; apply (shape_list [b]); repeat constructor|discriminate]. intros _. split; [|discriminate]. intros i c' Hi Hc'. assert (c' = 0)%nat by lia. subst. apply W. }
  split; [rewrite <- Lb; apply (shape_list [b]); repeat constructor|discriminate]. intros _. split; [|discriminate]. intros i c' Hi Hc'. assert (c' = 0)%nat by lia. subst. apply W.
Qed.
Print Assumptions C86_round_trip_response.
Example C86_round_trip_case : within [1 / 2; -1; 2 / 3] /\ within (nth 1 (s_re ir4) []).
Proof. split; intros [|[|[|[|i]]]]; simpl; try (apply Rabs_le; lra); destruct i; rewrite Rabs_R0; lra. Qed.
(** The gain of a filter with a tap above one is lost on the way; a filter with one tap has no response. *)
Theorem C86_gain_lost_refuted : forall (b : list R) (fs : Z) (p : R), (2 <= length b)%nat -> top [b] p -> 1 < p ->
  bind (filter_to_ir (FBa (fir b fs))) (ir_to_filter Ok (Some 0%Z)) = Ok (inl (fir (map (fun v => / p * v) b) fs)) /\ map (fun v => / p * v) b <> b.
Proof.
  intros b fs p Lb Tp Hp. rewrite (C86_response_of_filter b fs p Lb Tp). destruct (Rlt_dec 1 p); [|lra]. cbn [bind]. set (b' := map _ b).
  assert (Lb' : length b' = length b) by apply map_length.
  assert (V : forall i, nth i b' 0 = / p * nth i b 0).
  { intros i. unfold b'. destruct (Nat.lt_ge_cases i (length b)). rewrite (nth_map' (fun v => / p * v) b i 0) by auto. reflexivity. rewrite !nth_overflow; try (rewrite map_length; lia); try lia. ring. }
  split.
  - assert (OK : sig_ok (mkSig [b'] None 1 true fs) (length b) 1).
    { constructor; cbn [s_re s_im s_constr]; try lia; try discriminate. rewrite <- Lb'. apply (shape_list [b']); repeat constructor. intros _ i c Hi Hc. assert (c = 0)%nat by lia. subst. unfold entry. cbn [nth]. rewrite V.
      rewrite Rabs_mult, Rabs_pos_eq by (left; apply Rinv_0_lt_compat; lra). destruct Tp as (T1 & _). specialize (T1 b i (or_introl eq_refl)).
      apply (Rmult_le_reg_l p); [lra|]. replace (p * (/ p * Rabs (nth i b 0))) with (Rabs (nth i b 0)) by (field; lra). lra. }
    destruct (C86_channel_filter _ _ _ 0%nat 0%Z OK eq_refl) as (A & _). exact A.
  - intros E. destruct Tp as (_ & (b0 & i & [<-|[]] & Hi & Ei)). assert (Q : nth i b' 0 = nth i b 0) by now rewrite E. rewrite V in Q.
    assert (nth i b 0 <> 0) by (intros Z0; rewrite Z0, Rabs_R0 in Ei; lra). assert (/ p = 1) by (apply (Rmult_eq_reg_r (nth i b 0)); lra).
    assert (p * / p = 1) by (field; lra). rewrite H0 in H1. lra.
Qed.
Print Assumptions C86_gain_lost_refuted.
Theorem C86_one_tap_refuted : forall (v : R) (fs : Z), filter_to_ir (FBa (fir [v] fs)) = Err IndexError.
Proof. intros. unfold filter_to_ir. rewrite fir_not_iir. reflexivity. Qed.
Print Assumptions C86_one_tap_refuted.
Example C86_gain_lost_case : (2 <= length b3)%nat /\ top [b3] 3 /\ 1 < 3.
Proof. split; [simpl; lia|]. split; [apply b3_top|lra]. Qed.

(** A filter bank: one channel per filter, all as long as the longest filter, the shorter ones followed by zeros; one common factor keeps the largest
    tap within one. It needs at least as many taps as filters. *)
Lemma padded_length n b : (length b <= n)%nat -> length (padded n b) = n.
Proof. intros H. unfold padded. rewrite app_length, repeat_length. lia. Qed.
Lemma padded_nth n b i : nth i (padded n b) 0 = nth i b 0.
Proof.
  unfold padded. destruct (Nat.lt_ge_cases i (length b)). now rewrite app_nth1. rewrite app_nth2 by lia. rewrite (nth_overflow b) by lia.
  destruct (Nat.lt_ge_cases (i - length b) (n - length b)). now rewrite nth_repeat. rewrite nth_overflow; auto. rewrite repeat_length. lia.
Qed.
Lemma longest_max bs n : Forall (fun b => (1 <= length b)%nat) bs -> longest bs n -> forall fs, fold_right max 0%nat (map taps (map (fun b => fir b fs) bs)) = n.
Proof.
  intros F (A & (b & Hb & E)) fs. rewrite map_map. apply Nat.le_antisymm.
  - clear b Hb E. induction bs as [|b bs IH]; simpl; [lia|]. unfold taps at 1. cbn [c_b c_a fir length]. inversion F; subst.
    specialize (A b (or_introl eq_refl)) as A0. assert (fold_right Nat.max 0%nat (map (fun x => taps (fir x fs)) bs) <= n)%nat by (apply IH; auto; intros; apply A; now right). lia.
  - rewrite <- E. clear A E n. induction bs as [|b' bs IH]; [destruct Hb|]. simpl. destruct Hb as [->|Hb].
    unfold taps at 1. cbn [c_b c_a fir length]. lia. inversion F; subst. specialize (IH H2 Hb). lia.
Qed.
Lemma bank_unfold bs fs n : bs <> [] -> Forall (fun b => (1 <= length b)%nat) bs -> longest bs n ->
  bank_to_ir true (map (fun b => FBa (fir b fs)) bs) = ir_from_time_data (map (padded n) bs) fs.
Proof.
  intros N F L. unfold bank_to_ir. assert (E1 : existsb is_iir (map (fun b => FBa (fir b fs)) bs) = false).
  { clear. induction bs; simpl; auto. destruct (Req_EM_T 1 1); auto. lra. }
  rewrite E1. cbn [negb]. rewrite (seq_result_ok _ _ (map (fun b => fir b fs) bs)). 2:{ rewrite !map_map. reflexivity. }
  pose proof (longest_max bs n F L fs) as Q. destruct bs as [|b bs]; [congruence|]. cbn [map] in *. rewrite Q. f_equal. cbn [map c_b fir]. f_equal. rewrite map_map. reflexivity.
Qed.
Lemma top_padded bs n p : top bs p -> top (map (padded n) bs) p.
Proof.
  intros (A & (b & i & Hb & Hi & E)). split.
  - intros b' j H. apply in_map_iff in H as (b0 & <- & H). rewrite padded_nth. now apply A.
  - exists (padded n b), i. split; [now apply in_map|]. split. { unfold padded. rewrite app_length. lia. } now rewrite padded_nth.
Qed.
Theorem C86_bank_responses : forall (bs : list (list R)) (fs : Z) (n : nat) (p : R), bs <> [] -> Forall (fun b => (1 <= length b)%nat) bs -> longest bs n -> top bs p ->
  (2 <= n)%nat -> (length bs <= n)%nat ->
  exists s, bank_to_ir true (map (fun b => FBa (fir b fs)) bs) = Ok s /\ s_constr s = true /\ s_fs s = fs /\ s_scale s = 1 /\ s_im s = None /\ shape (s_re s) n (length bs) /\
    forall i c, (i < n)%nat -> (c < length bs)%nat -> entry (s_re s) i c = (if Rlt_dec 1 p then / p else 1) * nth i (nth c bs []) 0.
Proof.
  intros bs fs n p N F L T Hn Hk. rewrite (bank_unfold bs fs n N F L). set (m := map (padded n) bs).
  assert (Fm : Forall (fun b => length b = n) m). { unfold m. rewrite Forall_forall. intros b H. apply in_map_iff in H as (b0 & <- & H). apply padded_length. now apply L. }
  assert (Lm : length m = length bs) by apply map_length. assert (Lk : (0 < length bs)%nat) by (destruct bs; [congruence|simpl; lia]).
  destruct (ir_set m fs n (length bs) p) as (s & E & A & B & D & G & Sh & V); try lia.
  { rewrite <- Lm. now apply shape_list. }
  { rewrite <- Lm. apply top_peak; auto; try lia. { intros Q. rewrite Q in Lm. simpl in Lm. lia. } now apply top_padded. }
  rewrite Nat.max_l, Nat.min_r in * by lia. exists s. repeat (split; [assumption|]). intros i c Hi Hc. rewrite V by auto. rewrite oriented_tall by auto. f_equal. unfold entry, m.
  rewrite (nth_indep _ [] (padded n [])) by (rewrite map_length; auto). rewrite map_nth. apply padded_nth.
Qed.
Print Assumptions C86_bank_responses.
(** With more filters than taps, filters and taps change places: channel i holds tap i of all the filters. *)
Theorem C86_many_filters_refuted : forall (bs : list (list R)) (fs : Z) (n : nat) (p : R), bs <> [] -> Forall (fun b => (1 <= length b)%nat) bs -> longest bs n -> top bs p ->
  (n < length bs)%nat ->
  exists s, bank_to_ir true (map (fun b => FBa (fir b fs)) bs) = Ok s /\ shape (s_re s) (length bs) n /\
    forall i c, (i < n)%nat -> (c < length bs)%nat -> entry (s_re s) c i = (if Rlt_dec 1 p then / p else 1) * nth i (nth c bs []) 0.
Proof.
  intros bs fs n p N F L T Hk. rewrite (bank_unfold bs fs n N F L). set (m := map (padded n) bs).
  assert (Fm : Forall (fun b => length b = n) m). { unfold m. rewrite Forall_forall. intros b H. apply in_map_iff in H as (b0 & <- & H). apply padded_length. now apply L. }
  assert (Lm : length m = length bs) by apply map_length.
  assert (Hn : (0 < n)%nat). { destruct L as (_ & (b & Hb & <-)). rewrite Forall_forall in F. specialize (F b Hb). lia. }
  destruct (ir_set m fs n (length bs) p) as (s & E & A & B & D & G & Sh & V); try lia.
  { rewrite <- Lm. now apply shape_list. } { intros Q. apply Nat.eq_mul_1 in Q. lia. }
  { rewrite <- Lm. apply top_peak; auto. { intros Q. rewrite Q in Lm. simpl in Lm. lia. } now apply top_padded. }
  rewrite Nat.max_r, Nat.min_l in * by lia. exists s. split; auto. split; auto. intros i c Hi Hc. rewrite V by auto. f_equal.
  unfold oriented. destruct (Nat.ltb_spec n (length bs)); [|lia]. unfold entry, m.
  rewrite (nth_indep _ [] (padded n [])) by (rewrite map_length; auto). rewrite map_nth. apply padded_nth.
Qed.
Print Assumptions C86_many_filters_refuted.
Definition bank3 : list (list R) := [[1; 1 / 2]; [1 / 3]; [0; 1 / 4]].
Lemma bank3_top : top bank3 1.
Proof.
  split.
  - intros b i [<-|[<-|[<-|[]]]]; destruct i as [|[|i]]; simpl; try (apply Rabs_le; lra); destruct i; rewrite Rabs_R0; lra.
  - exists [1; 1 / 2], 0%nat. simpl. split; auto. split; [lia|]. apply Rabs_R1.
Qed.
Lemma bank3_longest : longest bank3 2.
Proof. split. intros b [<-|[<-|[<-|[]]]]; simpl; lia. exists [1; 1 / 2]. simpl. auto. Qed.
Example C86_many_filters_case : bank3 <> [] /\ Forall (fun b => (1 <= length b)%nat) bank3 /\ longest bank3 2 /\ top bank3 1 /\ (2 < length bank3)%nat.
Proof. split; [discriminate|]. split; [repeat constructor|]. split; [apply bank3_longest|]. split; [apply bank3_top|simpl; lia]. Qed.
Definition bank2 : list (list R) := [[1; 1 / 2; 0]; [1 / 3]].
Example C86_bank_responses_case : bank2 <> [] /\ Forall (fun b => (1 <= length b)%nat) bank2 /\ longest bank2 3 /\ top bank2 1 /\ (length bank2 <= 3)%nat.
Proof.
  split; [discriminate|]. split; [repeat constructor|]. split. { split. intros b [<-|[<-|[]]]; simpl; lia. exists [1; 1 / 2; 0]. simpl. auto. } split; [|simpl; lia]. split.
  - intros b i [<-|[<-|[]]]; destruct i as [|[|[|i]]]; simpl; try (apply Rabs_le; lra); destruct i; rewrite Rabs_R0; lra.
  - exists [1; 1 / 2; 0], 0%nat. simpl. split; auto. split; [lia|]. apply Rabs_R1.
Qed.

(** What counts as FIR: one denominator coefficient besides trailing zeros, by which the taps are divided; anything else is refused *)
Lemma trim_zeros n : trim_back (repeat 0 n) = [].
Proof. induction n; simpl; auto. rewrite IHn. destruct (Req_EM_T 0 0); auto. lra. Qed.
Theorem C86_fir_coefficients : forall (b : list R) (a0 : R) (z : nat) (fs : Z), a0 <> 0 -> from_ba b (a0 :: repeat 0 z) fs = fir (map (fun v => v / a0) b) fs.
Proof. intros b a0 z fs H. unfold from_ba. cbn [trim_back]. rewrite trim_zeros. destruct (Req_EM_T a0 0); [contradiction|]. unfold fir. do 2 f_equal. field. auto. Qed.
Print Assumptions C86_fir_coefficients.
Lemma trim_back_last a i : nth i a 0 <> 0 -> (length (trim_back a) > i)%nat.
Proof.
  revert i. induction a as [|v t IH]; intros i H; [destruct i; simpl in H; lra|]. cbn [trim_back]. destruct i as [|i]; cbn [nth] in H.
  - destruct (trim_back t); simpl; [|lia]. destruct (Req_EM_T v 0); [contradiction|]. simpl. lia.
  - specialize (IH i H). destruct (trim_back t); simpl in *; lia.
Qed.
Theorem C86_refusals : forall (b a : list R) (i : nat) (fs : Z) (same : bool) (l : list afilter),
  ((0 < i)%nat -> nth i a 0 <> 0 -> filter_to_ir (FBa (from_ba b a fs)) = Err AssertionError) /\
  filter_to_ir (FSos fs) = Err AssertionError /\
  (In (FSos fs) l \/ same = false -> bank_to_ir same l = Err AssertionError) /\ bank_to_ir true [] = Err ValueError.
Proof.
  intros b a i fs same l. split; [|split; [reflexivity|split; [|reflexivity]]].
  - intros Hi Ha. pose proof (trim_back_last a i Ha) as T. unfold from_ba. destruct (trim_back a) as [|u [|w r]] eqn:E; simpl in T; try lia.
    unfold filter_to_ir. assert (Q : is_iir (FBa (mkCF b a fs)) = true); [|now rewrite Q]. simpl. destruct a as [|a0 [|a1 a']]; auto. destruct i as [|[|i]]; simpl in Ha; try lia; lra.
  - intros [H|H]; unfold bank_to_ir.
    + assert (Q : existsb is_iir l = true); [|now rewrite Q]. apply existsb_exists. exists (FSos fs). auto.
    + rewrite H. destruct (existsb is_iir l); reflexivity.
Qed.
Print Assumptions C86_refusals.
Example C86_refusals_case : nth 2 [1; 0; 1 / 2] 0 <> 0 /\ from_ba [2; 4] [2; 0; 0] 8 = fir [1; 2] 8.
Proof. split; [simpl; lra|]. change [2; 0; 0] with (2 :: repeat 0 2). rewrite (C86_fir_coefficients [2; 4] 2 2 8) by lra. unfold fir. simpl. f_equal. f_equal; [field|]. f_equal. field. Qed.
