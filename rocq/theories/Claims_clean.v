(** C70: CLEAN based on source coherence. *)
From Coq Require Import List Arith Lia ZArith Bool Reals Lra Psatz.
From Verif Require Import Alg Spec Dft M_arrays M_scaling M_latency M_distances P_ar P_biquad P_parseval P_welch Claims_room Claims_tf M_beam Claims_grid Claims_steering Claims_das Claims_beam2.
Import ListNotations.
Local Open Scope R_scope.
Add Ring crccl : (@rth C CRing_C).

(** ** Specification *)
(** The state after [j] rounds, the place and the height of the peak found in round [j]. *)
Definition after (hs : list (list C)) (rm : bool) (phi : R) (m : matrix) (j : nat) : clean :=
  Nat.iter j (fun s => clean_sub hs rm phi (clean_found phi s)) (clean_start hs (if rm then zero_diagonal m else m)).
Notation vec hs g := (@nth (list C) g hs []).
Definition place_of hs rm phi m j : nat := clean_peak (after hs rm phi m j).
Definition height hs rm phi m j : R := get (cl_map (after hs rm phi m j)) (place_of hs rm phi m j).
(** Steering vectors of length [n] and a Hermitian matrix of that size. *)
Definition proper (n : nat) (hs : list (list C)) (m : matrix) : Prop := hs <> [] /\ (forall h, In h hs -> length h = n) /\ length m = n /\ hermitian n (entry m).

(** ** Lemmas *)
Lemma entry_mk n (F : nat -> nat -> C) i j : (i < n)%nat -> (j < n)%nat -> entry (mk n (fun i => mk n (fun j => F i j))) i j = F i j.
Proof. intros Hi Hj. unfold entry. rewrite nth_mk by auto. unfold cnth. now rewrite nth_mk by auto. Qed.
Lemma form2_sub n v A B k : form2 n v (fun i j => csub (A i j) (cmulr (B i j) k)) = csub (form2 n v A) (cmulr (form2 n v B) k).
Proof.
  replace (cmulr (form2 n v B) k) with (cmul (rc k) (form2 n v B)) by (apply c_ext; cbn; ring). unfold form2. rewrite <- csum_scale, <- csum_sub. apply sum_ext. intros i Hi. rewrite <- csum_scale, <- csum_sub. apply sum_ext. intros j Hj.
  apply c_ext; cbn; ring.
Qed.
Lemma power_msub h a b k : length a = length h -> power h (msub a b k) = power h a - power h b * k.
Proof.
  intros L. unfold power. rewrite !quad_form2. unfold msub. rewrite L. rewrite (form2_ext _ _ _ (fun i j => csub (entry a i j) (cmulr (entry b i j) k))) by (intros; now rewrite entry_mk by auto).
  rewrite form2_sub. cbn. ring.
Qed.
Lemma cnth_mk n (F : nat -> C) i : (i < n)%nat -> cnth (mk n F) i = F i.
Proof. intros. unfold cnth. now rewrite nth_mk. Qed.
Lemma sc_at d w h i : (i < length w)%nat -> cnth (sc_step d w h) i = cdivr (cadd (cnth d i) (cmulr (cnth w i) (cabs2 (cnth h i)))) (sqrt (1 + rsum (length w) (fun i => cabs2 (cnth h i) * cabs2 (cnth w i)))).
Proof. intros. unfold sc_step. now rewrite cnth_mk. Qed.
Lemma sc_length k d w h : length h = length w -> length (Nat.iter k (sc_step d w) h) = length w.
Proof. induction k; intros; auto. cbn [Nat.iter]. unfold sc_step at 1. apply mk_length. Qed.
Lemma sc_matrix_hermitian rm p h n : length h = n -> hermitian n (entry (sc_matrix rm p h)).
Proof.
  intros Lh i j Hi Hj. unfold sc_matrix. rewrite Lh. rewrite !entry_mk by auto. rewrite (Nat.eqb_sym j i).
  destruct (rm && (i =? j)%nat)%bool; apply c_ext; cbn; ring.
Qed.
Lemma clean_G_hermitian hs rm s n : (length (nth (clean_peak s) hs []) = n) -> hermitian n (entry (clean_G hs rm s)).
Proof. intros L. unfold clean_G, sc_component. apply sc_matrix_hermitian. now rewrite sc_length. Qed.
Record good (n : nat) (hs : list (list C)) (s : clean) : Prop := {
  g_map : length (cl_map s) = length hs; g_out : length (cl_out s) = length hs; g_D : length (cl_D s) = n; g_herm : hermitian n (entry (cl_D s));
  g_power : forall g, (g < length hs)%nat -> get (cl_map s) g = power (nth g hs []) (cl_D s) }.
Lemma good_peak n hs s : hs <> [] -> good n hs s -> (clean_peak s < length hs)%nat.
Proof. intros N G. unfold clean_peak. destruct (argmax_spec (cl_map s)) as (A & _). intros E. destruct G as [L _ _ _ _]. rewrite E in L. destruct hs; [congruence|discriminate]. now rewrite <- (g_map _ _ _ G). Qed.
Lemma peak_max n hs s g : hs <> [] -> good n hs s -> (g < length hs)%nat -> get (cl_map s) g <= get (cl_map s) (clean_peak s).
Proof. intros N G Hg. unfold clean_peak. destruct (argmax_spec (cl_map s)) as (_ & B & _). intros E. destruct G as [L _ _ _ _]. rewrite E in L. destruct hs; [congruence|discriminate]. apply B. now rewrite (g_map _ _ _ G). Qed.
Lemma good_sub n hs phi s G : (forall h, In h hs -> length h = n) -> good n hs s -> hermitian n (entry G) ->
  good n hs (mkClean (mk (length (cl_map s)) (fun g => get (cl_map s) g - power (nth g hs []) G * phi)) (cl_D s) (msub (cl_D s) G phi) (cl_out s)).
Proof.
  intros Lh S HG. destruct S as [S1 S2 S3 S4 S5]. split; cbn [cl_map cl_out cl_D].
  - now rewrite mk_length.
  - auto.
  - unfold msub. now rewrite mk_length.
  - intros i j Hi Hj. unfold msub. rewrite S3. rewrite !entry_mk by auto. rewrite (S4 i j Hi Hj), (HG i j Hi Hj). apply c_ext; cbn; ring.
  - intros g Hg. rewrite get_mk by (rewrite S1; auto). rewrite S5 by auto. rewrite power_msub; auto. rewrite S3. symmetry. apply Lh, nth_In; auto.
Qed.
Lemma good_found n hs phi s : good n hs s -> good n hs (clean_found phi s).
Proof. intros [S1 S2 S3 S4 S5]. split; unfold clean_found; cbn [cl_map cl_out cl_D]; auto. now rewrite upd_length. Qed.
Lemma good_step n hs rm phi s : hs <> [] -> (forall h, In h hs -> length h = n) -> good n hs s -> good n hs (clean_sub hs rm phi (clean_found phi s)).
Proof.
  intros N Lh G. pose proof (good_found n hs phi s G) as G1. pose proof (good_peak n hs _ N G1) as Pk. unfold clean_sub. apply good_sub; auto. apply clean_G_hermitian. apply Lh, nth_In; auto.
Qed.
Lemma good_start n hs m : (forall h, In h hs -> length h = n) -> length m = n -> hermitian n (entry m) -> good n hs (clean_start hs m).
Proof.
  intros Lh Lm Hm. split; unfold clean_start; cbn [cl_map cl_out cl_D]; auto. apply map_length. apply repeat_length.
  intros g Hg. unfold get. rewrite (nth_indep _ _ (power [] m)) by now rewrite map_length. now rewrite (map_nth (fun h => power h m)).
Qed.
Lemma zero_diagonal_hermitian n m : length m = n -> hermitian n (entry m) -> length (zero_diagonal m) = n /\ hermitian n (entry (zero_diagonal m)).
Proof.
  intros L H. unfold zero_diagonal. rewrite L. split. apply mk_length. intros i j Hi Hj. rewrite !entry_mk by auto. rewrite (Nat.eqb_sym j i). destruct (i =? j)%nat; [apply c_ext; cbn; ring|auto].
Qed.
Lemma good_after n hs rm phi m j : proper n hs m -> good n hs (after hs rm phi m j).
Proof.
  intros (N & Lh & Lm & Hm). induction j; unfold after in *; cbn [Nat.iter]. destruct rm. destruct (zero_diagonal_hermitian n m Lm Hm). now apply good_start. now apply good_start. now apply good_step.
Qed.

(** ** The rounds *)
(** In every round the map is the delay-and-sum map of the degraded matrix, the peak is its largest value, and the peak is the value of that map. *)
Theorem C70_degraded_map :
  forall n hs rm phi m j g, proper n hs m -> (g < length hs)%nat ->
  let D := cl_D (after hs rm phi m j) in
  get (cl_map (after hs rm phi m j)) g = fst (form2 n (cnth (vec hs g)) (entry D)) /\ get (cl_map (after hs rm phi m j)) g <= height hs rm phi m j /\
  (place_of hs rm phi m j < length hs)%nat /\ height hs rm phi m j = fst (form2 n (cnth (vec hs (place_of hs rm phi m j))) (entry D)) /\ hermitian n (entry D).
Proof.
  intros n hs rm phi m j g P Hg D. pose proof (good_after n hs rm phi m j P) as G. destruct P as (N & Lh & Lm & Hm). pose proof (good_peak n hs _ N G) as Pk. repeat split; auto.
  - rewrite (g_power _ _ _ G) by auto. unfold power. rewrite quad_form2. rewrite Lh by (apply nth_In; auto). reflexivity.
  - apply (peak_max n hs); auto.
  - unfold height. rewrite (g_power _ _ _ G) by exact Pk. unfold power. rewrite quad_form2. rewrite Lh by (apply nth_In; auto). reflexivity.
  - apply G.
Qed.
Print Assumptions C70_degraded_map.
(** The result: every round adds its peak times the safety factor at its place. The rounds end after the given number, or with the first
    round in which the norm of the degraded matrix has not decreased; the peak of that round is still added. *)
Lemma iter_front {A} (f : A -> A) j s : Nat.iter j f (f s) = Nat.iter (S j) f s.
Proof. induction j; [reflexivity|]. simpl in *. now f_equal. Qed.
Lemma loop_result hs rm phi : let step s := clean_sub hs rm phi (clean_found phi s) in forall n s, exists j,
  (forall i, (i < j)%nat -> norm1 (cl_D (Nat.iter i step s)) < norm1 (cl_D0 (Nat.iter i step s))) /\
  ((j = n /\ clean_loop n hs rm phi s = Nat.iter n step s) \/
   ((j < n)%nat /\ norm1 (cl_D0 (Nat.iter j step s)) <= norm1 (cl_D (Nat.iter j step s)) /\ clean_loop n hs rm phi s = clean_found phi (Nat.iter j step s))).
Proof.
  intros step. induction n; intros s. { exists 0%nat. split; [intros; lia|]. now left. }
  cbn [clean_loop]. destruct (Rle_dec (norm1 (cl_D0 (clean_found phi s))) (norm1 (cl_D (clean_found phi s)))) as [L|L].
  - exists 0%nat. split; [intros; lia|]. right. split; [lia|]. split; [exact L|reflexivity].
  - destruct (IHn (step s)) as (j & A & B). exists (S j). split.
    + intros i Hi. destruct i as [|i]. cbn [Nat.iter]. apply Rnot_le_lt in L. exact L. rewrite <- iter_front. apply A. lia.
    + change (clean_sub hs rm phi (clean_found phi s)) with (step s). rewrite !iter_front in B. destruct B as [[-> E]|(J & Q & E)]; [left|right]. split; auto. split; [lia|]. auto.
Qed.
Lemma out_after n hs rm phi m j g : proper n hs m -> (g < length hs)%nat ->
  get (cl_out (after hs rm phi m j)) g = phi * rsum j (fun i => if (place_of hs rm phi m i =? g)%nat then height hs rm phi m i else 0).
Proof.
  intros P Hg. induction j.
  - cbn [sum]. change (cl_out (after hs rm phi m 0)) with (repeat (@r0 R CRing_R) (length hs)). rewrite (get_repeat0 (HA := CRing_R)). change (@r0 R CRing_R) with 0. ring.
  - pose proof (good_after n hs rm phi m j P) as G. assert (N : hs <> []) by apply P. change (after hs rm phi m (S j)) with (clean_sub hs rm phi (clean_found phi (after hs rm phi m j))).
    unfold clean_sub, clean_found. cbn [cl_out cl_map]. fold (place_of hs rm phi m j). fold (height hs rm phi m j). rewrite (get_upd (HA := CRing_R)) by (rewrite (g_out _ _ _ G); now apply (good_peak n)).
    cbn [sum]. change (@radd R CRing_R) with Rplus. rewrite (Nat.eqb_sym (place_of hs rm phi m j) g). destruct (Nat.eqb_spec g (place_of hs rm phi m j)) as [->|]; rewrite IHj; ring.
Qed.
Theorem C70_result :
  forall n hs m N rm phi, proper n hs m -> exists rounds, (rounds <= N)%nat /\
    (forall g, (g < length hs)%nat -> get (clean_bin hs m N rm phi) g = phi * rsum rounds (fun i => if (place_of hs rm phi m i =? g)%nat then height hs rm phi m i else 0)) /\
    (forall i, (S i < rounds)%nat -> norm1 (cl_D (after hs rm phi m i)) < norm1 (cl_D0 (after hs rm phi m i))) /\
    ((rounds < N)%nat -> exists last, rounds = S last /\ norm1 (cl_D0 (after hs rm phi m last)) <= norm1 (cl_D (after hs rm phi m last))).
Proof.
  intros n hs m N rm phi P. unfold clean_bin. set (s0 := clean_start hs (if rm then zero_diagonal m else m)). destruct (loop_result hs rm phi N s0) as (j & A & B). cbv zeta in A, B. fold s0 in A, B.
  destruct B as [[-> E]|(J & Q & E)].
  - exists N. split; auto. split; [|split].
    + intros g Hg. rewrite E. now apply (out_after n).
    + intros i Hi. apply A. lia.
    + intros; lia.
  - exists (S j). split; auto. split; [|split].
    + intros g Hg. rewrite E. pose proof (out_after n hs rm phi m (S j) g P Hg) as O. rewrite <- O. reflexivity.
    + intros i Hi. apply A. lia.
    + intros _. exists j. auto.
Qed.
Print Assumptions C70_result.
(** At most as many points as rounds have a value. *)
Theorem C70_sparse :
  forall n hs m N rm phi, proper n hs m -> (length (filter (fun g => if Req_EM_T (get (clean_bin hs m N rm phi) g) 0 then false else true) (seq 0 (length hs))) <= N)%nat.
Proof.
  intros n hs m N rm phi P. destruct (C70_result n hs m N rm phi P) as (r & Rn & V & _). transitivity (length (map (place_of hs rm phi m) (seq 0 r))); [|now rewrite map_length, seq_length].
  apply NoDup_incl_length. apply NoDup_filter, seq_NoDup. intros g Hg. apply filter_In in Hg as [Hg Pg]. apply in_seq in Hg. rewrite V in Pg by lia. destruct (Req_EM_T _ 0) as [E|E]; [discriminate|].
  destruct (in_dec Nat.eq_dec g (map (place_of hs rm phi m) (seq 0 r))) as [I|I]; auto. exfalso. apply E. rewrite (sum_zero' (HA := CRing_R)). change (@r0 R CRing_R) with 0. ring.
  intros i Hi. destruct (Nat.eqb_spec (place_of hs rm phi m i) g) as [Q|]; auto. exfalso. apply I. rewrite <- Q. apply in_map, in_seq. lia.
Qed.
Print Assumptions C70_sparse.
(** One round: the largest value of the delay-and-sum map times the safety factor, and nothing else. *)
Theorem C70_one_round :
  forall n hs m phi g, proper n hs m -> (g < length hs)%nat ->
  let das := map (fun h => das_value false h m) hs in get (clean_bin hs m 1 false phi) g = if (argmax das =? g)%nat then phi * get das g else 0.
Proof.
  intros n hs m phi g P Hg das. destruct (C70_result n hs m 1 false phi P) as (r & Rn & V & _ & St). assert (r = 1%nat). { destruct r as [|r]; [|lia]. destruct (St ltac:(lia)) as (l & E & _). discriminate. } subst r.
  rewrite V by auto. cbn [sum]. change (@radd R CRing_R) with Rplus. change (@r0 R CRing_R) with 0. change (place_of hs false phi m 0) with (argmax das). change (height hs false phi m 0) with (get das (argmax das)).
  destruct (Nat.eqb_spec (argmax das) g) as [->|]; ring.
Qed.
Print Assumptions C70_one_round.

(** ** What a round removes *)
(** The vectors of the coherence iteration of round [j] after [k] steps, and their weighted energy. *)
Definition coherent hs rm phi m j k : list C :=
  let s := after hs rm phi m j in let w := vec hs (place_of hs rm phi m j) in
  let d := mk (length w) (fun i => cdivr (csum (length w) (fun l => cmul (entry (cl_D s) i l) (cnth w l))) (height hs rm phi m j)) in Nat.iter k (sc_step d w) w.
Definition shared hs rm phi m j k : R := let w := vec hs (place_of hs rm phi m j) in rsum (length w) (fun i => cabs2 (cnth (coherent hs rm phi m j k) i) * cabs2 (cnth w i)).
Lemma shared_nonneg hs rm phi m j k : 0 <= shared hs rm phi m j k.
Proof. apply rsum_nonneg. intros. apply Rmult_le_pos; apply cabs2_pos. Qed.
Lemma hermitian_real n v M : hermitian n M -> snd (form2 n v M) = 0.
Proof. intros H. rewrite form2_bil. pose proof (bil_swap n v M v H) as S. apply (f_equal snd) in S. cbn in S. lra. Qed.
Lemma coherent_product n hs rm phi m j k : proper n hs m -> height hs rm phi m j <> 0 -> let w := vec hs (place_of hs rm phi m j) in
  Sxy n (cnth w) (cnth (coherent hs rm phi m j (S k))) = rc (sqrt (1 + shared hs rm phi m j k)).
Proof.
  intros P Hp w. destruct (C70_degraded_map n hs rm phi m j (place_of hs rm phi m j) P) as (_ & _ & Pl & Eh & Hd). { apply good_peak with (n := n); [apply P|now apply good_after]. }
  cbv zeta in Eh, Hd. set (p := place_of hs rm phi m j) in *. set (D := cl_D (after hs rm phi m j)) in *. assert (Lw : length w = n) by (apply P, nth_In; auto). set (q := shared hs rm phi m j k). assert (Q : 0 <= q) by apply shared_nonneg.
  assert (S0 : 0 < sqrt (1 + q)) by (apply sqrt_lt_R0; lra). unfold coherent. fold p w D. set (d := mk (length w) _). change (Nat.iter (S k) (sc_step d w) w) with (sc_step d w (Nat.iter k (sc_step d w) w)). set (h := Nat.iter k (sc_step d w) w).
  assert (Eq : q = rsum n (fun i => cabs2 (cnth h i) * cabs2 (cnth w i))). { unfold q, shared, coherent. fold p w D d h. now rewrite Lw. }
  transitivity (cmul (rc (/ sqrt (1 + q))) (cadd (csum n (fun i => cmul (cconj (cnth w i)) (cnth d i))) (csum n (fun i => rc (cabs2 (cnth h i) * cabs2 (cnth w i)))))).
  - unfold Sxy. rewrite <- csum_add, <- csum_scale. apply sum_ext. intros i Hi. rewrite sc_at by (rewrite Lw; auto). rewrite Lw, <- Eq. unfold cabs2. apply c_ext; unfold cdivr; cbn; field; lra.
  - rewrite csum_rc, <- Eq. replace (csum n (fun i => cmul (cconj (cnth w i)) (cnth d i))) with (rc 1).
    + rewrite <- rc_add, <- rc_mul. f_equal. rewrite <- (sqrt_sqrt (1 + q)) at 2 by lra. field. lra.
    + symmetry. transitivity (cmul (rc (/ height hs rm phi m j)) (form2 n (cnth w) (entry D))).
      * unfold form2. rewrite <- csum_scale. apply sum_ext. intros i Hi. unfold d. rewrite cnth_mk by (rewrite Lw; auto). rewrite Lw. set (x := csum n (fun l => cmul (entry D i l) (cnth w l))).
        transitivity (cmul (rc (/ height hs rm phi m j)) (cmul (cconj (cnth w i)) x)). unfold cdivr; apply c_ext; cbn; field; auto. unfold x. rewrite <- csum_scale. f_equal. apply sum_ext. intros. cring.
      * assert (Im : snd (form2 n (cnth w) (entry D)) = 0) by now apply hermitian_real. fold w in Eh. apply c_ext; cbn; rewrite <- Eh, ?Im; field; auto.
Qed.
Lemma G_eq hs rm phi m j : clean_G hs rm (clean_found phi (after hs rm phi m j)) = sc_matrix rm (height hs rm phi m j) (coherent hs rm phi m j 20).
Proof.
  unfold coherent, height, place_of. generalize (after hs rm phi m j). intros s. unfold clean_G, sc_component. change (clean_peak (clean_found phi s)) with (clean_peak s). change (cl_map (clean_found phi s)) with (cl_map s).
  change (cl_D (clean_found phi s)) with (cl_D s). cbv zeta. set (d := mk _ _). clearbody d. generalize 20%nat. reflexivity.
Qed.
Lemma after_map n hs rm phi m j g : proper n hs m -> (g < length hs)%nat ->
  get (cl_map (after hs rm phi m (S j))) g = get (cl_map (after hs rm phi m j)) g - power (vec hs g) (sc_matrix rm (height hs rm phi m j) (coherent hs rm phi m j 20)) * phi.
Proof.
  intros P Hg. pose proof (good_after n hs rm phi m j P) as G. rewrite <- G_eq. change (after hs rm phi m (S j)) with (clean_sub hs rm phi (clean_found phi (after hs rm phi m j))).
  revert G. generalize (after hs rm phi m j). intros s G. unfold clean_sub. cbn [cl_map]. generalize (clean_G hs rm (clean_found phi s)). intros M. change (cl_map (clean_found phi s)) with (cl_map s). rewrite get_mk by (rewrite (g_map _ _ _ G); auto). reflexivity.
Qed.
Lemma power_sc n rm H w h q : length w = n -> length h = n -> 0 <= q -> Sxy n (cnth w) (cnth h) = rc (sqrt (1 + q)) ->
  power w (sc_matrix rm H h) = H * (1 + q - (if rm then rsum n (fun i => cabs2 (cnth h i) * cabs2 (cnth w i)) else 0)).
Proof.
  intros Lw Lh Q0 Sx. unfold power. rewrite quad_form2, Lw. unfold sc_matrix. rewrite Lh. rewrite (form2_ext _ _ _ (fun i j => csub (cmulr (cmul (cnth h i) (cconj (cnth h j))) H) (cmulr (if (rm && (i =? j)%nat)%bool then cmulr (cmul (cnth h i) (cconj (cnth h j))) H else rc 0) 1))).
  2: { intros a b Ha Hb. rewrite entry_mk by auto. destruct (rm && (a =? b)%nat)%bool; apply c_ext; cbn; ring. }
  rewrite form2_sub. rewrite (form2_rank_one n (cnth w) (cnth h) H), Sx.
  assert (E2 : form2 n (cnth w) (fun i j => if (rm && (i =? j)%nat)%bool then cmulr (cmul (cnth h i) (cconj (cnth h j))) H else rc 0) = rc (H * (if rm then rsum n (fun i => cabs2 (cnth h i) * cabs2 (cnth w i)) else 0))).
  { destruct rm; cbn [andb].
    - unfold form2. rewrite <- rsum_mul_l, <- csum_rc. apply sum_ext. intros a Ha. rewrite (sum_single (HA := CRing_C) n a _ Ha). rewrite Nat.eqb_refl. unfold cabs2. apply c_ext; cbn; ring.
      intros b Hb Hn. destruct (Nat.eqb_spec a b); [lia|]. change (rc 0) with (@r0 C CRing_C). cring.
    - rewrite Rmult_0_r. change (rc 0) with (@r0 C CRing_C). apply (sum_zero' (HA := CRing_C)). intros. apply (sum_zero' (HA := CRing_C)). intros. cring. }
  rewrite E2. unfold cabs2. cbn [fst snd rc cmulr csub]. cbn. rewrite Rmult_0_l, Rplus_0_r. rewrite sqrt_sqrt by lra. ring.
Qed.
(** With the diagonal the value left at the peak is (1 - phi (1 + q)) times the peak with q >= 0, not (1 - phi) times the peak. Without
    it the energies of the last two steps are subtracted, so that the fixed point of the iteration leaves (1 - phi) times the peak. *)
Theorem C70_removed_from_peak :
  forall n hs rm phi m j, proper n hs m -> height hs rm phi m j <> 0 ->
  get (cl_map (after hs rm phi m (S j))) (place_of hs rm phi m j) =
    height hs rm phi m j * (1 - phi * (1 + shared hs rm phi m j 19 - (if rm then shared hs rm phi m j 20 else 0))) /\ 0 <= shared hs rm phi m j 19.
Proof.
  intros n hs rm phi m j P Hp. split; [|apply shared_nonneg]. pose proof (good_after n hs rm phi m j P) as G.
  assert (Pl : (place_of hs rm phi m j < length hs)%nat) by (apply good_peak with (n := n); [apply P|auto]). assert (Lw : length (vec hs (place_of hs rm phi m j)) = n) by (apply P, nth_In; auto).
  rewrite (after_map n) by auto. rewrite (power_sc n rm _ _ _ (shared hs rm phi m j 19)); auto using shared_nonneg.
  - unfold shared at 3. rewrite Lw. fold (height hs rm phi m j). destruct rm; ring.
  - unfold coherent. rewrite sc_length; auto.
  - apply (coherent_product n hs rm phi m j 19 P Hp).
Qed.
Print Assumptions C70_removed_from_peak.

(** *** Cases *)
Definition half : list C := [rc (1 / 2); rc (1 / 2)].
Lemma case_proper : proper 2 [half] (two 1 1).
Proof. split; [discriminate|]. split. intros h [<-|[]]; reflexivity. split; [reflexivity|]. apply case_hermitian. Qed.
Lemma case_height rm phi : rm = false -> height [half] rm phi (two 1 1) 0 = 1 / 2.
Proof.
  intros ->. destruct (C70_degraded_map 2 [half] false phi (two 1 1) 0 0 case_proper ltac:(simpl; lia)) as (_ & _ & Pl & E & _). cbv zeta in E. rewrite E. simpl in Pl. replace (place_of [half] false phi (two 1 1) 0) with 0%nat by lia.
  unfold form2. cbn [sum]. change (cl_D (after [half] false phi (two 1 1) 0)) with (two 1 1). rewrite !two_entry by lia. cbn. field.
Qed.
(** With real positive vectors the iteration stays positive. *)
Definition real_positive (n : nat) (h : list C) : Prop := forall i, (i < n)%nat -> 0 < fst (cnth h i) /\ snd (cnth h i) = 0.
Lemma sc_positive n d w k : length w = n -> real_positive n d -> real_positive n w -> real_positive n (Nat.iter k (sc_step d w) w).
Proof.
  intros L Pd Pw. induction k as [|k IH]; [exact Pw|]. change (Nat.iter (S k) (sc_step d w) w) with (sc_step d w (Nat.iter k (sc_step d w) w)). set (h := Nat.iter k (sc_step d w) w) in *. intros i Hi. rewrite sc_at by (rewrite L; auto). rewrite L. set (q := rsum n _).
  assert (Q : 0 <= q) by (apply rsum_nonneg; intros; apply Rmult_le_pos; apply cabs2_pos). assert (0 < sqrt (1 + q)) by (apply sqrt_lt_R0; lra). destruct (Pd i Hi) as [d1 d2]. destruct (Pw i Hi) as [w1 w2]. pose proof (cabs2_pos (cnth h i)).
  unfold cdivr. cbn. rewrite d2, w2. split; [|field; lra]. apply Rdiv_lt_0_compat; auto. nra.
Qed.
(** The degraded matrix can have negative power: with safety factor one, a case in which the value left is less than zero, although the
    matrix was positive semidefinite. *)
Theorem C70_overshoot_refuted :
  exists n hs m, proper n hs m /\ positive_matrix n (entry m) /\ forall phi, 0 < phi <= 1 ->
    get (cl_map (after hs false phi m 1)) (place_of hs false phi m 0) < (1 - phi) * height hs false phi m 0 /\
    (phi = 1 -> get (cl_map (after hs false phi m 1)) (place_of hs false phi m 0) < 0).
Proof.
  exists 2%nat, [half], (two 1 1). split; [apply case_proper|]. split; [apply case_positive; lra|]. intros phi Hp. destruct (C70_removed_from_peak 2 [half] false phi (two 1 1) 0 case_proper) as (E & _). rewrite case_height; auto; lra.
  assert (Q : 0 < shared [half] false phi (two 1 1) 0 19).
  { unfold shared. destruct (C70_degraded_map 2 [half] false phi (two 1 1) 0 0 case_proper ltac:(simpl; lia)) as (_ & _ & Pl & _). simpl in Pl. assert (Ep : place_of [half] false phi (two 1 1) 0 = 0%nat) by lia. rewrite Ep. cbn [nth]. change (length half) with 2%nat.
    assert (RP : real_positive 2 (coherent [half] false phi (two 1 1) 0 19)).
    { unfold coherent. rewrite Ep. cbn [nth]. rewrite case_height by auto. apply sc_positive; auto.
      - intros i Hi. change (length half) with 2%nat. rewrite cnth_mk by auto. cbn [sum]. change (cl_D (after [half] false phi (two 1 1) 0)) with (two 1 1). rewrite !two_entry by lia.
        destruct i as [|[|]]; try lia; unfold cdivr; cbn; split; lra.
      - intros i Hi. destruct i as [|[|]]; try lia; cbn; lra. }
    cbn [sum]. change (@radd R CRing_R) with Rplus. change (@r0 R CRing_R) with 0. destruct (RP 0%nat ltac:(lia)) as [P0 P1]. destruct (RP 1%nat ltac:(lia)) as [P2 P3].
    assert (0 < cabs2 (cnth (coherent [half] false phi (two 1 1) 0 19) 0)) by (unfold cabs2; nra). assert (0 < cabs2 (cnth (coherent [half] false phi (two 1 1) 0 19) 1)) by (unfold cabs2; nra).
    assert (W0 : cabs2 (cnth half 0) = 1 / 4) by (unfold cabs2; cbn; field). assert (W1 : cabs2 (cnth half 1) = 1 / 4) by (unfold cabs2; cbn; field). rewrite W0, W1. lra. }
  rewrite E, (case_height false phi) by auto. split; [nra|]. intros ->. lra.
Qed.
Print Assumptions C70_overshoot_refuted.
Example C70_one_round_case : get (clean_bin [half] (two 1 1) 1 false (1 / 2)) 0 = 1 / 4.
Proof.
  rewrite (C70_one_round 2 [half] (two 1 1) (1 / 2) 0 case_proper (Nat.lt_0_succ 0)). set (d := map _ _). assert (Z : argmax d = 0%nat). { destruct (argmax_spec d) as (A & _); [discriminate|]. change (length d) with 1%nat in A. destruct (argmax d); [reflexivity|lia]. } rewrite Z. cbn [Nat.eqb].
  unfold d, get, das_value, power, quad, half, two, entry, cnth, mk. cbn. field.
Qed.
Example C70_sparse_case : (length (filter (fun g => if Req_EM_T (get (clean_bin [half] (two 1 1) 5 true (1 / 2)) g) 0 then false else true) (seq 0 1)) <= 5)%nat.
Proof. apply (C70_sparse 2). apply case_proper. Qed.
(** The default number of rounds is twice the number of channels; other arguments are refused. *)
Theorem C70_arguments :
  forall ch it phi, (forall n, clean_args ch it phi = Ok n -> (0 < phi <= 1 /\ (it = None -> n = 2 * ch)%nat /\ (forall k, it = Some k -> (0 < k)%Z /\ Z.of_nat n = k))) /\
  (0 < phi <= 1 -> (forall k, it = Some k -> (0 < k)%Z) -> exists n, clean_args ch it phi = Ok n).
Proof.
  intros ch it phi. unfold clean_args. split.
  - intros n. destruct it as [k|].
    + destruct (Z.leb_spec k 0); [discriminate|]. destruct (Rlt_dec 0 phi); [|discriminate]. destruct (Rle_dec phi 1); [|discriminate]. intros E. injection E as <-. split; [lra|]. split; [discriminate|]. intros k' Ek. injection Ek as <-. lia.
    + destruct (Rlt_dec 0 phi); [|discriminate]. destruct (Rle_dec phi 1); [|discriminate]. intros E. injection E as <-. split; [lra|]. split; [reflexivity|]. discriminate.
  - intros P K. destruct it as [k|]. specialize (K k eq_refl). destruct (Z.leb_spec k 0); [lia|]. destruct (Rlt_dec 0 phi); [|lra]. destruct (Rle_dec phi 1); [|lra]. eauto. destruct (Rlt_dec 0 phi); [|lra]. destruct (Rle_dec phi 1); [|lra]. eauto.
Qed.
Print Assumptions C70_arguments.
