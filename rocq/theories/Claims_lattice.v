(** C12: lattice and lattice-ladder filters. *)
From Coq Require Import List Arith Lia ZArith QArith Qcanon Bool.
From Verif Require Import Alg Spec M_realtime P_realtime P_conv P_kautz Spec_lattice M_lattice P_lattice.
Import ListNotations.
Local Open Scope nat_scope.

Section Claims.
Context {A : Type} {HF : CField A}.
Add Ring Aring_cl : (rth (A := A)).

Lemma top_lpoly (a : list A) : 2 <= length a -> get a 0 = r1 ->
  let rows := lat_rows (length a - 1) (top_row a) in
  (forall i, 1 <= i < length rows -> r1 -! get (lat_k rows) i *! get (lat_k rows) i <> r0) ->
  lpoly (lat_k rows) (length (lat_k rows)) = a.
Proof.
  intros L H0 rows Hk. unfold rows in *. rewrite lat_k_length, rows_length in *.
  assert (Lt : length (top_row a) = length a - 1) by (unfold top_row; rewrite map_length; destruct a; simpl in *; lia).
  rewrite (rows_lpoly (length a - 1) (top_row a) Lt) by (auto; lia).
  destruct (length a - 1) as [|n] eqn:E; [lia|]. replace (S n - 1) with n by lia. rewrite rows_last. unfold top_row. rewrite map_map.
  destruct a as [|a0 a]; [simpl in L; lia|]. cbn [tl]. unfold get in H0. simpl in H0. rewrite H0. f_equal.
  rewrite (map_ext _ (fun v => v)). apply map_id. intros; ring.
Qed.

(** The FIR lattice filter computed from b, with b0 = 1, is the filter b. *)
Theorem C12_fir_lattice :
  forall b k, get b 0 = r1 -> lat_coeffs_fir b = Ok k -> (forall i, 1 <= i < length k -> r1 -! get k i *! get k i <> r0) ->
  exists F : list A -> A,
    (forall ops, lat_run (lat_fir k) ops = refx_run (fun n => 1 <=? n) F ops) /\
    (forall x, outputs F x = mk (length x) (conv b x)).
Proof.
  intros b k H0 E Hk. unfold lat_coeffs_fir in E. destruct (Nat.eqb_spec (length b - 1) 0); [discriminate|]. injection E as <-.
  exists (lfir_F (lat_k (lat_rows (length b - 1) (top_row b)))). split. apply lfir_refines. intros x. rewrite lfir_outputs.
  rewrite top_lpoly; auto. lia. intros i Hi. apply Hk. now rewrite lat_k_length.
Qed.

(** The IIR lattice-ladder filter built from (b, a), with a0 = 1, is the filter b/a. *)
Theorem C12_iir_lattice :
  forall b a k c, get a 0 = r1 -> lat_from_ba b a = Ok (k, c) -> (forall i, 1 <= i < length k -> r1 -! get k i *! get k i <> r0) ->
  exists F : list A -> A,
    (forall ops, lat_run (lat_iir k c) ops = refx_run (fun n => 1 <=? n) F ops) /\
    (forall x, diff_eq b a x (outputs F x)).
Proof.
  intros b a k c H0 E Hk. unfold lat_from_ba, lat_coeffs_iir in E.
  destruct (Nat.eqb_spec (length a - 1) 0); [discriminate|].
  destruct (Nat.ltb_spec (length a) (length b)); [discriminate|]. cbn [bind fst snd] in E.
  set (rows := lat_rows (length a - 1) (top_row a)) in *.
  destruct (ladder_loop b rows (length b) (repeat r0 (length b))) as [Lc Hc]; auto using repeat_length. intros; lia.
  set (cc := fold_left _ _ _) in *. destruct (Nat.eqb_spec (length cc) (length (lat_k rows) + 1)) as [Lk|]; [|discriminate].
  assert (Ek : lat_k rows = k) by congruence. assert (Ec : cc = c) by congruence. clear E. subst k. rewrite Ec in *. clear Ec cc.
  assert (Lr : length (lat_k rows) = length a - 1) by (rewrite lat_k_length; apply rows_length).
  assert (Hp : 0 < length (lat_k rows)) by lia.
  exists (liir_F (lat_k rows) c). split. intros; now apply liir_refines. intros x. apply liir_diff; auto.
  - intros i. unfold rows. rewrite top_lpoly; auto. lia. intros j Hj. apply Hk. rewrite lat_k_length. exact Hj.
  - apply (ladder_poly b (lat_k rows) rows c (length (lat_k rows))); try lia; auto.
    intros i Hi. unfold rows. rewrite Lr in Hi. apply rows_lpoly; auto.
    unfold top_row. rewrite map_length. destruct a; simpl in *; lia. intros j Hj. apply Hk. fold rows. lia.
Qed.

(** Conversion works exactly when numerator and denominator have the same number of coefficients, at least two. *)
Theorem C12_iir_lengths :
  forall b a : list A,
  (2 <= length a -> length b = length a -> exists k c, lat_from_ba b a = Ok (k, c) /\ length k = length a - 1 /\ length c = length b) /\
  (2 <= length a -> length b < length a -> lat_from_ba b a = Err AssertionError) /\
  (length a < length b \/ length a < 2 -> lat_from_ba b a = Err IndexError).
Proof.
  intros b a. unfold lat_from_ba, lat_coeffs_iir.
  assert (Lf : length (fold_left (ladder_step b (lat_rows (length a - 1) (top_row a))) (rev (seq 0 (length b))) (repeat r0 (length b))) = length b)
    by (apply ladder_loop; auto using repeat_length; intros; lia).
  assert (Lk : length (lat_k (lat_rows (length a - 1) (top_row a))) = length a - 1) by (rewrite lat_k_length; apply rows_length).
  split; [|split].
  - intros H1 H2. destruct (Nat.eqb_spec (length a - 1) 0); [lia|]. rewrite (proj2 (Nat.ltb_ge _ _)) by lia. cbn [bind fst snd].
    rewrite Lf, Lk. rewrite (proj2 (Nat.eqb_eq _ _)) by lia. eexists _, _. split; [reflexivity|]. auto.
  - intros H1 H2. destruct (Nat.eqb_spec (length a - 1) 0); [lia|]. rewrite (proj2 (Nat.ltb_ge _ _)) by lia. cbn [bind fst snd].
    rewrite Lf, Lk. now rewrite (proj2 (Nat.eqb_neq _ _)) by lia.
  - intros H. destruct (Nat.eqb_spec (length a - 1) 0); auto. rewrite (proj2 (Nat.ltb_lt _ _)) by lia. reflexivity.
Qed.

(** Converting an FIR filter drops its gain: the result is the filter b / b0. *)
Theorem C12_fir_conversion_loses_gain :
  forall (small : A -> bool) b k, (forall v, small v = true -> r1 -! v *! v <> r0) -> get b 0 <> r0 -> lat_from_fir small b = Ok k ->
  exists F : list A -> A,
    (forall ops, lat_run (lat_fir k) ops = refx_run (fun n => 1 <=? n) F ops) /\
    (forall x, map (fun v => get b 0 *! v) (outputs F x) = mk (length x) (conv b x)).
Proof.
  intros small b k Hs H0 E. unfold lat_from_fir in E. destruct (lat_coeffs_fir _) as [k'|] eqn:Ek; [|discriminate]. cbn [bind] in E.
  destruct (forallb small k') eqn:Ef; [|discriminate]. injection E as ->.
  assert (Hn : get (map (fun v => v /! get b 0) b) 0 = r1).
  { rewrite get_map_div. apply (rmul_reg_l (get b 0)); auto. transitivity (rdiv (get b 0) (get b 0) *! get b 0); [ring|].
    rewrite rdiv_mul by auto. ring. }
  destruct (C12_fir_lattice _ _ Hn Ek) as [F [F1 F2]].
  - intros i Hi. apply Hs. rewrite forallb_forall in Ef. apply Ef. unfold get. apply nth_In. lia.
  - exists F. split; auto. intros x. rewrite F2, map_mk. apply mk_ext. intros n Hn'. unfold conv. rewrite <- sum_scal_l. apply sum_ext.
    intros i Hi. rewrite get_map_div. transitivity (rdiv (get b i) (get b 0) *! get b 0 *! get x (n - i)); [ring|].
    now rewrite rdiv_mul by auto.
Qed.

Definition sec_ba (q : list A) : list A * list A := ([get q 0; get q 1; get q 2], [get q 3; get q 4; get q 5]).

Lemma sec_diff q x : get q 3 = r1 -> r1 -! get q 5 *! get q 5 <> r0 ->
  diff_eq (fst (sec_ba q)) (snd (sec_ba q)) x (mrun (lat_sec (sos_coeffs q)) (r0, r0) x).
Proof.
  intros H3 H5. unfold sos_coeffs, sec_ba. cbn [fst snd]. rewrite H3. set (k1 := -! get q 5). set (a12 := -! get q 4).
  set (k0 := _ /! _). set (c2 := get q 2). set (c1 := get q 1 +! c2 *! a12). rewrite sec_run.
  assert (E : k0 *! (r1 -! k1) = a12).
  { unfold k0, rdiv. set (u := rinv (r1 -! k1 *! k1)).
    assert (Hk : r1 -! k1 *! k1 <> r0) by (intros C; apply H5; rewrite <- C; unfold k1; ring).
    assert (E : (r1 -! k1 *! k1) *! u = r1).
    { pose proof (rdiv_mul r1 _ Hk) as E. unfold rdiv in E. fold u in E. transitivity (r1 *! u *! (r1 -! k1 *! k1)); [ring|exact E]. }
    transitivity (a12 *! ((r1 -! k1 *! k1) *! u)). ring. rewrite E. ring. }
  assert (Hq4 : get q 4 = -! a12) by (unfold a12; ring). assert (Hq5 : get q 5 = -! k1) by (unfold k1; ring).
  assert (Hq1 : get q 1 = c1 -! c2 *! a12) by (unfold c1; ring).
  clearbody k0 c1 k1 a12. rewrite Hq4, Hq5, Hq1. rewrite <- E in *.
  apply liir_diff. simpl; lia.
  - intros n. cbn [length lpoly]. unfold stepup. cbn. unfold get. destruct n as [|[|[|[|]]]]; cbn; ring.
  - intros n. cbn [length sum lpoly]. unfold stepup. cbn. unfold get. cbn. destruct n as [|[|[|[|]]]]; cbn; ring.
Qed.
Lemma cascade_run sos : forall x, Forall (fun q => get q 3 = r1 /\ r1 -! get q 5 *! get q 5 <> r0) sos ->
  cascade_eq (map sec_ba sos) x (mrun (lat_sos_loop (map sos_coeffs sos)) (repeat (r0, r0) (length sos)) x).
Proof.
  induction sos as [|q sos IH]; intros x H.
  - cbn. induction x as [|v x IH]; auto. cbn. now rewrite IH.
  - inversion H as [|? ? [H1 H2] H3]; subst. cbn [map cascade_eq length repeat].
    pose proof (sos_cons_run (sos_coeffs q) (map sos_coeffs sos) (repeat (r0, r0) (length sos)) (r0, r0) x) as E. unfold sec in E.
    unfold sec_ba at 1.
    exists (mrun (lat_sec (sos_coeffs q)) (r0, r0) x). split. apply (sec_diff q x); auto. unfold sec in *. rewrite E. apply IH. auto.
Qed.

(** Second-order sections with a0 = 1: the cascade of the sections. *)
Theorem C12_sos_lattice :
  forall (one : A -> bool) sos qs, sos <> [] -> (forall v, one v = true <-> v = r1) ->
  Forall (fun q => get q 3 = r1 /\ r1 -! get q 5 *! get q 5 <> r0) sos -> lat_from_sos one sos = Ok qs ->
  exists F : list A -> A,
    (forall ops, lat_run (lat_sos qs) ops = refx_run (fun n => 1 <=? n) F ops) /\
    (forall x, cascade_eq (map sec_ba sos) x (outputs F x)).
Proof.
  intros one sos qs Hne Ho H E. unfold lat_from_sos in E.
  replace (forallb _ sos) with true in E.
  2: { symmetry. apply forallb_forall. intros q Hq. rewrite Forall_forall in H. apply Ho. apply H; auto. }
  injection E as <-. exists (col_F (lat_sos_loop (map sos_coeffs sos)) (repeat (r0, r0) (length (map sos_coeffs sos))) r0).
  split. apply sos_refines. intros x. rewrite outputs_mrun, map_length. now apply cascade_run.
Qed.
(** One section is normalised by its a0. *)
Theorem C12_sos_single :
  forall (one : A -> bool) q qs, length q = 6 -> (forall v, one v = true <-> v = r1) -> get q 3 <> r0 ->
  get q 3 *! get q 3 -! get q 5 *! get q 5 <> r0 -> lat_from_sos one [q] = Ok qs ->
  exists F : list A -> A,
    (forall ops, lat_run (lat_sos qs) ops = refx_run (fun n => 1 <=? n) F ops) /\
    (forall x, diff_eq (fst (sec_ba q)) (snd (sec_ba q)) x (outputs F x)).
Proof.
  intros one q qs L Ho H3 H5 E.
  set (q' := map (fun v => v /! get q 3) q).
  assert (G : forall i, get q' i *! get q 3 = get q i) by (intros i; unfold q'; rewrite get_map_div; now apply rdiv_mul).
  assert (N3 : get q' 3 = r1). { apply (rmul_reg_l (get q 3)); auto. transitivity (get q' 3 *! get q 3); [ring|]. rewrite G. ring. }
  assert (N5 : r1 -! get q' 5 *! get q' 5 <> r0).
  { intros C. apply H5. transitivity (get q 3 *! get q 3 *! (r1 -! get q' 5 *! get q' 5)). 2: rewrite C; ring.
    rewrite <- (G 5). ring. }
  assert (Eq : qs = [sos_coeffs q']).
  { unfold lat_from_sos in E. cbn [forallb map length] in E. destruct (one (get q 3)) eqn:O; cbn [andb] in E.
    - apply Ho in O. injection E as <-. do 2 f_equal. apply get_ext. unfold q'. now rewrite map_length. intros i Hi. rewrite <- (G i), O. ring.
    - injection E as <-. reflexivity. }
  subst qs. exists (col_F (lat_sos_loop (map sos_coeffs [q'])) (repeat (r0, r0) 1) r0).
  split. apply (sos_refines (map sos_coeffs [q'])). intros x. rewrite outputs_mrun.
  pose proof (cascade_run [q'] x ltac:(auto)) as C. cbn [map cascade_eq length] in C.
  unfold sec_ba at 1 in C. destruct C as [w [[Lw D] C]]. cbn [map]. rewrite C. split; auto. intros n Hn. specialize (D n Hn).
  assert (G2 : forall (u v : list A) y m, (forall i, get u i = get v i *! get q 3) -> conv u y m = get q 3 *! conv v y m).
  { intros u v y m Huv. unfold conv. rewrite <- sum_scal_l. apply sum_ext. intros i Hi. rewrite Huv. ring. }
  cbn [fst snd sec_ba]. rewrite (G2 [get q 3; get q 4; get q 5] [get q' 3; get q' 4; get q' 5]), (G2 [get q 0; get q 1; get q 2] [get q' 0; get q' 1; get q' 2]), D; auto;
    intros [|[|[|i]]]; first [exact (eq_sym (G 0)) | exact (eq_sym (G 1)) | exact (eq_sym (G 2)) | exact (eq_sym (G 3))
      | exact (eq_sym (G 4)) | exact (eq_sym (G 5)) | rewrite !get_out by (cbn; lia); ring].
Qed.
(** Several sections, not all with a0 = 1: refused, unless there are exactly six. *)
Theorem C12_sos_not_normalised :
  forall (one : A -> bool) sos, 2 <= length sos -> length sos <> 6 -> (exists q, In q sos /\ one (get q 3) = false) ->
  lat_from_sos one sos = Err ValueError.
Proof.
  intros one sos H1 H2 [q [Hq Ho]]. unfold lat_from_sos.
  replace (forallb _ sos) with false.
  2: { symmetry. destruct (forallb _ sos) eqn:E; auto. rewrite forallb_forall in E. rewrite (E q Hq) in Ho. discriminate. }
  destruct (length sos) as [|[|[|[|[|[|[|]]]]]]]; auto; lia.
Qed.
End Claims.
Print Assumptions C12_fir_lattice.
Print Assumptions C12_iir_lattice.
Print Assumptions C12_iir_lengths.
Print Assumptions C12_fir_conversion_loses_gain.
Print Assumptions C12_sos_lattice.
Print Assumptions C12_sos_single.
Print Assumptions C12_sos_not_normalised.

(** Witnesses over the rationals. *)
Local Notation q := Q2Qc.
Definition qone (v : Qc) : bool := if Qc_eq_dec v (q 1) then true else false.
Definition qsmall (v : Qc) : bool := Qle_bool (-(99#100)) (this v) && Qle_bool (this v) (99#100).
Lemma qone_ok v : qone v = true <-> v = r1.
Proof. unfold qone. destruct (Qc_eq_dec v (q 1)); split; intros; auto; discriminate. Qed.
Lemma qsmall_ok v : qsmall v = true -> r1 -! v *! v <> r0.
Proof.
  unfold qsmall. rewrite andb_true_iff, !Qle_bool_iff. intros [H1 H2] E.
  assert (E' : (this v * this v == 1)%Q).
  { assert (C : (v * v = 1)%Qc). { transitivity (1 - (1 - v * v))%Qc. ring. change (1 - v * v)%Qc with (r1 -! v *! v). rewrite E. reflexivity. }
    apply (f_equal this) in C. change (Qred (this v * this v) = 1%Q) in C. rewrite <- (Qred_correct (this v * this v)), C. reflexivity. }
  clear E. destruct v as [[n d] c]. cbn in *. unfold Qle, Qeq in *. cbn in *. nia.
Qed.
Definition rep (o : rtx_out Qc) : list (list Q) :=
  match o with Single (Val v) => [[this v]] | Whole td => map (map this) td | _ => [] end.

(** Order-two filter b = 1 + z^-1 / 2 + z^-2 / 4: reflection coefficients, and the samples 1, 2, 3 (the last two by filter_signal). *)
Example C12_fir_example :
  exists k, lat_coeffs_fir [q 1; q (1#2); q (1#4)] = Ok k /\ map this k = [-(2#5); -(1#4)]%Q /\
  (forall i, 1 <= i < length k -> r1 -! get k i *! get k i <> r0) /\
  map rep (lat_run (lat_fir k) [Rt (Proc (q 1) 0%Z); Fsig [[q 2; q 3]]; Rt (SetN 2); Fsig [[q 2; q 3]; [q 1; q 1]]]) =
    [[[1%Q]]; [[5#2; 17#4]%Q]; []; [[2#1; 4#1]; [1#1; 3#2]]%Q].
Proof.
  exists (lat_k (lat_rows 2 (top_row [q 1; q (1#2); q (1#4)]))). split; [reflexivity|]. split; [vm_compute; reflexivity|]. split; [|vm_compute; reflexivity].
  intros i Hi. rewrite lat_k_length, rows_length in Hi. assert (i = 1) as -> by lia. intros C. apply (f_equal this) in C. vm_compute in C. discriminate.
Qed.
Example C12_iir_example :
  exists k c, lat_from_ba [q 1; q 2; q 3] [q 1; q (1#2); q (1#4)] = Ok (k, c) /\
  (forall i, 1 <= i < length k -> r1 -! get k i *! get k i <> r0) /\
  map rep (lat_run (lat_iir k c) [Rt (Proc (q 1) 0%Z); Fsig [[q 0; q 0]]]) = [[[1%Q]]; [[3#2; 2#1]%Q]].
Proof.
  set (rows := lat_rows 2 (top_row [q 1; q (1#2); q (1#4)])).
  exists (lat_k rows), (fold_left (ladder_step [q 1; q 2; q 3] rows) [2; 1; 0] [q 0; q 0; q 0]). split; [reflexivity|]. split; [|vm_compute; reflexivity].
  intros i Hi. unfold rows in Hi. rewrite lat_k_length, rows_length in Hi. assert (i = 1) as -> by lia.
  intros C. apply (f_equal this) in C. vm_compute in C. discriminate.
Qed.
Example C12_sos_example :
  exists qs, lat_from_sos qone [[q 1; q 2; q 3; q 1; q (1#2); q (1#4)]; [q 2; q 0; q 0; q 1; q 1; q 0]] = Ok qs /\
  map rep (lat_run (lat_sos qs) [Rt (Proc (q 1) 0%Z); Fsig [[q 0; q 0]]]) = [[[2#1]%Q]; [[1#1; 3#1]%Q]].
Proof. eexists. split. unfold lat_from_sos. replace (forallb _ _) with true by (vm_compute; reflexivity). reflexivity. vm_compute. reflexivity. Qed.
Example C12_single_example :
  exists qs, lat_from_sos qone [[q 2; q 4; q 6; q 2; q 1; q (1#2)]] = Ok qs /\
  map rep (lat_run (lat_sos qs) [Fsig [[q 1; q 0; q 0]]]) = [[[1#1; 3#2; 2#1]%Q]].
Proof. eexists. split. unfold lat_from_sos. replace (forallb _ _) with false by (vm_compute; reflexivity). reflexivity. vm_compute. reflexivity. Qed.

(** Converting an FIR filter does not keep its output: 2 + z^-1 answers 1 to a first sample 1. *)
Theorem C12_fir_conversion_refuted :
  ~ (forall b k x, lat_from_fir qsmall b = Ok k -> lat_run (lat_fir k) [Fsig [x]] = [Whole [mk (length x) (conv b x)]]).
Proof.
  intros H. specialize (H [q 2; q 1] (lat_k (lat_rows 1 (top_row (map (fun v => v /! q 2) [q 2; q 1])))) [q 1]).
  assert (E : lat_from_fir qsmall [q 2; q 1] = Ok (lat_k (lat_rows 1 (top_row (map (fun v => v /! q 2) [q 2; q 1]))))).
  { unfold lat_from_fir. change (lat_coeffs_fir _) with (Ok (lat_k (lat_rows 1 (top_row (map (fun v => v /! q 2) [q 2; q 1]))))).
    cbn [bind]. replace (forallb _ _) with true by (vm_compute; reflexivity). reflexivity. }
  specialize (H E). clear E. apply (f_equal (map rep)) in H. vm_compute in H. discriminate.
Qed.
Print Assumptions C12_fir_conversion_refuted.
(** Nor does an IIR filter whose a0 is not 1. *)
Theorem C12_iir_a0_refuted :
  ~ (forall b a k c x : list Qc, get a 0 <> r0 -> lat_from_ba b a = Ok (k, c) ->
       exists y, diff_eq b a x y /\ lat_run (lat_iir k c) [Fsig [x]] = [Whole [y]]).
Proof.
  intros H. set (rows := lat_rows 1 (top_row [q 2; q 1])).
  destruct (H [q 2; q 0] [q 2; q 1] (lat_k rows) (fold_left (ladder_step [q 2; q 0] rows) [1; 0] [q 0; q 0]) [q 1] ltac:(discriminate) eq_refl) as [y [[L D] E]].
  specialize (D 0 ltac:(cbn; lia)). apply (f_equal (map rep)) in E. destruct y as [|y [|]]; try discriminate L.
  vm_compute in E. injection E as E.
  assert (Ey : this y = 2#1) by exact (eq_sym E).
  assert (Ey' : y = q 2) by (apply Qc_is_canon; rewrite Ey; reflexivity). subst y. apply (f_equal this) in D. vm_compute in D. discriminate.
Qed.
Print Assumptions C12_iir_a0_refuted.
Lemma unit_section (b0 x : Qc) w : b0 <> q 0 -> diff_eq [b0; q 0; q 0] [b0; q 0; q 0] [x] w -> w = [x].
Proof.
  intros Hb [L D]. destruct w as [|w [|]]; try discriminate L. specialize (D 0 ltac:(cbn; lia)). rewrite !conv_0 in D. unfold get in D. cbn [nth] in D.
  f_equal. apply (rmul_reg_l b0); auto.
Qed.
(** Six sections are normalised with each other's a0: of six sections without effect, one written 2/2, the output is 1/32 of the input. *)
Theorem C12_sos_six_refuted :
  ~ (forall sos qs x, Forall (fun s => get s 3 <> r0) sos -> lat_from_sos qone sos = Ok qs ->
       exists y, cascade_eq (map sec_ba sos) x y /\ lat_run (lat_sos qs) [Fsig [x]] = [Whole [y]]).
Proof.
  intros H.
  set (one := [q 1; q 0; q 0; q 1; q 0; q 0]). set (two := [q 2; q 0; q 0; q 2; q 0; q 0]).
  assert (E : exists qs, lat_from_sos qone [two; one; one; one; one; one] = Ok qs /\
     map rep (lat_run (lat_sos qs) [Fsig [[q 1]]]) = [[[1#32]]]%Q) .
  { eexists. split. unfold lat_from_sos. replace (forallb _ _) with false by (vm_compute; reflexivity). reflexivity. vm_compute. reflexivity. }
  destruct E as [qs [E1 E2]]. destruct (H [two; one; one; one; one; one] qs [q 1]) as [y [C E]]; auto.
  - repeat constructor; discriminate.
  - rewrite E in E2. cbn [map cascade_eq sec_ba] in C. unfold sec_ba in C.
    destruct C as (w1 & D1 & w2 & D2 & w3 & D3 & w4 & D4 & w5 & D5 & w6 & D6 & ->).
    apply unit_section in D1; [|discriminate]. subst w1. apply unit_section in D2; [|discriminate]. subst w2.
    apply unit_section in D3; [|discriminate]. subst w3. apply unit_section in D4; [|discriminate]. subst w4.
    apply unit_section in D5; [|discriminate]. subst w5. apply unit_section in D6; [|discriminate]. subst w6.
    vm_compute in E2. discriminate.
Qed.
Print Assumptions C12_sos_six_refuted.
