(** Lemmas about the Kautz filter model. *)
From Coq Require Import List Arith Lia ZArith Reals Lra Bool.
From Verif Require Import Alg Spec M_realtime P_realtime M_filter P_filter P_conv Spec_kautz M_kautz.
Import ListNotations.
Local Open Scope R_scope.

(** Mealy machines run on a whole input. *)
Fixpoint mrun {S I O} (p : S -> I -> O * S) (s : S) (x : list I) : list O :=
  match x with [] => [] | v :: t => fst (p s v) :: mrun p (snd (p s v)) t end.
Lemma mrun_length {S I O} (p : S -> I -> O * S) x : forall s, length (mrun p s x) = length x.
Proof. induction x; intros; simpl; auto. Qed.
Lemma mrun_snoc {S I O} (p : S -> I -> O * S) x v : forall s, mrun p s (x ++ [v]) = mrun p s x ++ [fst (p (col_final p s x) v)].
Proof. induction x; intros; simpl; auto. f_equal. apply IHx. Qed.
Lemma outputs_mrun {S A O} (p : S -> A -> O * S) s d x : outputs (col_F p s d) x = mrun p s x.
Proof.
  induction x as [|v x IH] using rev_ind. reflexivity.
  rewrite outputs_snoc, mrun_snoc, IH. f_equal. now rewrite col_F_snoc.
Qed.

(** One iir section as a total Mealy machine. *)
Definition ip (b a : list R) : list R -> R -> R * list R :=
  iir_p (pad_to (max (length b) (length a)) (map (fun c => rdiv c (get a 0)) b))
        (pad_to (max (length b) (length a)) (map (fun c => rdiv c (get a 0)) a)).
Definition iw (b a s : list R) : Prop := length s = (max (length b) (length a) - 1)%nat.
Lemma ip_ok b a s x : (2 <= max (length b) (length a))%nat -> iw b a s ->
  rt_proc (iir_filter b a) s x = Ok (ip b a s x) /\ iw b a (snd (ip b a s x)).
Proof.
  intros H Hs. unfold iw in *. set (n := max (length b) (length a)) in *.
  assert (L1 : length (pad_to n (map (fun c => rdiv c (get a 0)) b)) = n) by (apply (pad_to_length (HF := CField_R)); rewrite map_length; lia).
  unfold iir_filter. cbn [rt_proc iir_filter_norm]. fold n. unfold ip. fold n. rewrite iir_proc_eq; rewrite ?L1; auto.
  split. reflexivity. unfold iir_p. cbn [snd]. unfold iir_next. rewrite mk_length. auto.
  all: rewrite (pad_to_length (HF := CField_R)) by (rewrite map_length; lia); auto.
Qed.
Lemma ip_fresh b a : (2 <= max (length b) (length a))%nat -> iw b a (rt_fresh (iir_filter b a)).
Proof.
  intros H. unfold iw, iir_filter. cbn [rt_fresh iir_filter_norm]. rewrite repeat_length, (pad_to_length (HF := CField_R)); rewrite ?map_length; lia.
Qed.
Lemma ip_reset b a s : (2 <= max (length b) (length a))%nat -> iw b a s -> rt_reset (iir_filter b a) s = rt_fresh (iir_filter b a).
Proof.
  intros H Hs. unfold iir_filter. cbn [rt_fresh rt_reset iir_filter_norm]. rewrite map_const_repeat, Hs.
  rewrite (pad_to_length (HF := CField_R)); rewrite ?map_length; auto; lia.
Qed.
Lemma ip_diff b a x : (2 <= max (length b) (length a))%nat -> get a 0 = 1 ->
  diff_eq b a x (mrun (ip b a) (rt_fresh (iir_filter b a)) x).
Proof.
  intros H Ha. assert (E : diff_eq b a x (outputs (iir_F b a) x)).
  { apply (iir_diff_eq (HF := CField_R)); auto. intros Z. apply R1_neq_R0. rewrite <- Ha. exact Z. }
  unfold iir_F in E. rewrite outputs_mrun in E. unfold ip. unfold iir_filter. cbn [rt_fresh iir_filter_norm].
  rewrite (pad_to_length (HF := CField_R)) by (rewrite map_length; lia). exact E.
Qed.

(** The two loops as total machines. *)
Fixpoint pc (zs : list (R * R)) (cs : list R) (ss : list cstate) (x : R) : R * list cstate :=
  match zs with
  | [] => (0, [])
  | z :: zs' =>
      let '(s1, s2, s3) := hd ([], [], []) ss in
      let q1 := ip (map (fun v => v * sqrt ((1 - kr z) * (1 + kr z - kq z) / 2)) [1; -1]) [1; kq z; kr z] s1 x in
      let q2 := ip (map (fun v => v * sqrt ((1 - kr z) * (1 + kr z + kq z) / 2)) [1; 1]) [1; kq z; kr z] s2 x in
      let q3 := ip [kr z; kq z; 1] [1; kq z; kr z] s3 x in
      let r := pc zs' (tl (tl cs)) (tl ss) (fst q3) in
      (fst q1 * get cs 0 + fst q2 * get cs 1 + fst r, (snd q1, snd q2, snd q3) :: snd r)
  end.
Fixpoint pr (zs : list (R * R)) (cc : list R) (ps cs : list R) (s : kstate) (x : R) : R * kstate :=
  match ps with
  | [] => let r := pc zs cc (snd s) x in (fst r, ([], snd r))
  | p :: ps' =>
      let (s1, s2) := hd ([], []) (fst s) in
      let q1 := ip [sqrt (1 - p * p)] [1; - p] s1 x in
      let q2 := ip [- p; 1] [1; - p] s2 x in
      let r := pr zs cc ps' (tl cs) (tl (fst s), snd s) (fst q2) in
      (fst q1 * get cs 0 + fst r, ((snd q1, snd q2) :: fst (snd r), snd (snd r)))
  end.
Definition cw (z : R * R) (s : cstate) : Prop := let '(s1, s2, s3) := s in length s1 = 2%nat /\ length s2 = 2%nat /\ length s3 = 2%nat.
Definition rw (p : R) (s : rstate) : Prop := length (fst s) = 1%nat /\ length (snd s) = 1%nat.

Lemma loop_cplx_ok zs : forall cs ss y x, Forall2 cw zs ss ->
  kz_loop_cplx zs cs ss y x = Ok (y + fst (pc zs cs ss x), snd (pc zs cs ss x)) /\ Forall2 cw zs (snd (pc zs cs ss x)).
Proof.
  induction zs as [|z zs IH]; intros cs ss y x H.
  - simpl. split; [|constructor]. do 2 f_equal. lra.
  - inversion H as [|? [[s1 s2] s3] ? ss' Hc Hr]; subst. destruct Hc as [H1 [H2 H3]]. cbn [kz_loop_cplx pc hd tl].
    unfold kf_c1, kf_c2, kf_c_adv.
    destruct (ip_ok (map (fun v => v * sqrt ((1 - kr z) * (1 + kr z - kq z) / 2)) [1; -1]) [1; kq z; kr z] s1 x ltac:(simpl; lia) H1) as [E1 W1].
    destruct (ip_ok (map (fun v => v * sqrt ((1 - kr z) * (1 + kr z + kq z) / 2)) [1; 1]) [1; kq z; kr z] s2 x ltac:(simpl; lia) H2) as [E2 W2].
    destruct (ip_ok [kr z; kq z; 1] [1; kq z; kr z] s3 x ltac:(simpl; lia) H3) as [E3 W3].
    rewrite E1, E2, E3. cbn [bind].
    set (q1 := ip (map _ [1; -1]) _ s1 x) in *. set (q2 := ip (map _ [1; 1]) _ s2 x) in *. set (q3 := ip [kr z; kq z; 1] _ s3 x) in *.
    destruct (IH (tl (tl cs)) ss' (y + (fst q1 * get cs 0 + fst q2 * get cs 1)) (fst q3) Hr) as [E4 W4].
    rewrite E4. cbn [bind fst snd]. split. do 2 f_equal. lra. constructor; auto. repeat split; auto.
Qed.
Lemma loop_real_ok zs cc ps : forall cs ss sc y x, Forall2 rw ps ss -> Forall2 cw zs sc ->
  bind (kz_loop_real ps cs ss y x) (fun r => let '(y, x', sr) := r in
    bind (kz_loop_cplx zs cc sc y x') (fun r2 => let (y', sc) := r2 in Ok (y', (sr, sc)))) =
  Ok (y + fst (pr zs cc ps cs (ss, sc) x), snd (pr zs cc ps cs (ss, sc) x)) /\
  Forall2 rw ps (fst (snd (pr zs cc ps cs (ss, sc) x))) /\ Forall2 cw zs (snd (snd (pr zs cc ps cs (ss, sc) x))).
Proof.
  induction ps as [|p ps IH]; intros cs ss sc y x H HC.
  - cbn [kz_loop_real bind pr snd]. destruct (loop_cplx_ok zs cc sc y x HC) as [E W]. rewrite E. cbn [bind fst snd]. auto.
  - inversion H as [|? [s1 s2] ? ss' Hc Hr]; subst. destruct Hc as [H1 H2]. cbn [fst snd] in H1, H2.
    cbn [kz_loop_real pr hd tl fst snd]. unfold kf_real, kf_real_adv.
    destruct (ip_ok [sqrt (1 - p * p)] [1; - p] s1 x ltac:(simpl; lia) H1) as [E1 W1].
    destruct (ip_ok [- p; 1] [1; - p] s2 x ltac:(simpl; lia) H2) as [E2 W2].
    rewrite E1, E2. cbn [bind].
    set (q1 := ip [sqrt (1 - p * p)] _ s1 x) in *. set (q2 := ip [- p; 1] _ s2 x) in *.
    destruct (IH (tl cs) ss' sc (y + fst q1 * get cs 0) (fst q2) Hr HC) as [E4 [W4 W5]].
    destruct (kz_loop_real ps (tl cs) ss' (y + fst q1 * get cs 0) (fst q2)) as [[[y' x'] sr]|] eqn:E; cbn [bind] in *; [|discriminate].
    destruct (kz_loop_cplx zs cc sc y' x') as [[y'' sc']|] eqn:E'; cbn [bind] in *; [|discriminate].
    set (r := pr zs cc ps (tl cs) (ss', sc) (fst q2)) in *.
    clearbody q1 q2 r. injection E4 as E5 E6. cbn [fst snd]. rewrite <- E6 in *. cbn [fst snd] in *. split; [|split]; auto.
    do 2 f_equal. rewrite E5. lra. constructor; auto. split; auto.
Qed.
Lemma combine_map_id {T U V} (f : T * U -> V) (g : T -> V) (P : T -> U -> Prop) l l' :
  Forall2 P l l' -> (forall a b, P a b -> f (a, b) = g a) -> map f (combine l l') = map g l.
Proof. intros H E. induction H; simpl; auto. f_equal; auto. Qed.
Lemma kz_refines k ops :
  rt_run (kz_filter k) ops = ref_run (fun _ => true) (col_F (pr (kz_cplx k) (kz_cc k) (kz_real k) (kz_cr k)) (rt_fresh (kz_filter k)) 0) ops.
Proof.
  apply (rt_refines_col (kz_filter k) (pr (kz_cplx k) (kz_cc k) (kz_real k) (kz_cr k)) 0
          (fun s => Forall2 rw (kz_real k) (fst s) /\ Forall2 cw (kz_cplx k) (snd s))).
  - simpl. split.
    + generalize (kz_real k). intros l. induction l; simpl; constructor; auto. split; reflexivity.
    + generalize (kz_cplx k). intros l. induction l; simpl; constructor; auto. repeat split; reflexivity.
  - intros s [H1 H2]. cbn [kz_filter rt_reset rt_fresh]. f_equal.
    + apply (combine_map_id _ _ rw); auto. intros a [b1 b2] [G1 G2]. cbn [fst snd] in *. unfold kf_real, kf_real_adv.
      now rewrite !ip_reset by (assumption || (simpl; lia)).
    + apply (combine_map_id _ _ cw); auto. intros a [[b1 b2] b3] [G1 [G2 G3]]. cbn [fst snd] in *. unfold kf_c1, kf_c2, kf_c_adv.
      now rewrite !ip_reset by (assumption || (simpl; lia)).
  - intros [sr sc] x [H1 H2]. cbn [fst snd] in *. cbn [kz_filter rt_proc]. unfold kz_proc. cbn [fst snd].
    destruct (loop_real_ok (kz_cplx k) (kz_cc k) (kz_real k) (kz_cr k) sr sc 0 x H1 H2) as [E [W1 W2]].
    rewrite E. split; auto. rewrite Rplus_0_l. destruct (pr _ _ _ _ _ _); reflexivity.
Qed.

(** Runs of the cascades. *)
Lemma mk_map2 (f : R -> R -> R) (u v : list R) : length u = length v ->
  forall a b, mk (S (length u)) (fun i => f (get (a :: u) i) (get (b :: v) i)) = f a b :: mk (length u) (fun i => f (get u i) (get v i)).
Proof. intros. rewrite mk_S_front. reflexivity. Qed.
Lemma pc_run z zs cs s1 s2 s3 ss x :
  mrun (pc (z :: zs) cs) ((s1, s2, s3) :: ss) x =
  mk (length x) (fun i =>
    get (mrun (ip (map (fun v => v * sqrt ((1 - kr z) * (1 + kr z - kq z) / 2)) [1; -1]) [1; kq z; kr z]) s1 x) i * get cs 0 +
    get (mrun (ip (map (fun v => v * sqrt ((1 - kr z) * (1 + kr z + kq z) / 2)) [1; 1]) [1; kq z; kr z]) s2 x) i * get cs 1 +
    get (mrun (pc zs (tl (tl cs))) ss (mrun (ip [kr z; kq z; 1] [1; kq z; kr z]) s3 x)) i).
Proof.
  revert s1 s2 s3 ss. induction x as [|v x IH]; intros. reflexivity.
  cbn [mrun length]. rewrite mk_S_front. cbn [pc hd tl fst snd]. f_equal. rewrite IH. reflexivity.
Qed.
Lemma pr_run zs cc p ps cs s1 s2 ss sc x :
  mrun (pr zs cc (p :: ps) cs) ((s1, s2) :: ss, sc) x =
  mk (length x) (fun i =>
    get (mrun (ip [sqrt (1 - p * p)] [1; - p]) s1 x) i * get cs 0 +
    get (mrun (pr zs cc ps (tl cs)) (ss, sc) (mrun (ip [- p; 1] [1; - p]) s2 x)) i).
Proof.
  revert s1 s2 ss sc. induction x as [|v x IH]; intros. reflexivity.
  cbn [mrun length]. rewrite mk_S_front. cbn [pr hd tl fst snd].
  set (r := pr zs cc ps (tl cs) (ss, sc) _). cbn [fst snd]. f_equal.
  rewrite IH. rewrite <- surjective_pairing. reflexivity.
Qed.
Lemma pr_nil_run zs cc cs sc x : mrun (pr zs cc [] cs) ([], sc) x = mrun (pc zs cc) sc x.
Proof. revert sc. induction x as [|v x IH]; intros. reflexivity. cbn [mrun pr fst snd]. f_equal. apply IH. Qed.

Lemma taps_len ps zs x us : kautz_taps ps zs x us -> length us = (length ps + 2 * length zs)%nat /\ Forall (fun u => length u = length x) us.
Proof.
  induction 1 as [|p ps zs x u t us [L1 _] [L2 _] H [IH1 IH2]|re im zs x u1 u2 t us q r g1 g2 [L1 _] [L2 _] [L3 _] H [IH1 IH2]]; simpl.
  - auto.
  - rewrite L2 in IH2. split. lia. constructor; auto.
  - rewrite L3 in IH2. simpl in IH1. split. lia. repeat constructor; auto.
Qed.
Lemma map_id_1 (g : R) : map (fun v => v * g) [1; -1] = [g; - g].
Proof. simpl. f_equal. lra. f_equal. lra. Qed.
Lemma map_id_2 (g : R) : map (fun v => v * g) [1; 1] = [g; g].
Proof. simpl. f_equal. lra. f_equal. lra. Qed.
Lemma pc_taps zs : forall cs x us, kautz_taps [] zs x us ->
  mrun (pc zs cs) (map (fun z => (rt_fresh (kf_c1 z), rt_fresh (kf_c2 z), rt_fresh (kf_c_adv z))) zs) x = tap_sum (length x) cs us.
Proof.
  induction zs as [|[re im] zs IH]; intros cs x us H; inversion H; subst.
  - unfold tap_sum. cbn [length sum]. clear H. cbn [map]. induction x as [|v x IHx]. reflexivity. cbn [mrun pc fst snd length].
    rewrite mk_S_front. f_equal. exact IHx.
  - cbn [map]. rewrite pc_run. unfold tap_sum. apply mk_ext. intros i Hi.
    cbn [length]. rewrite !sum_S_front. rewrite <- Rplus_assoc. f_equal.
    + rewrite map_id_1, map_id_2. f_equal.
      * rewrite Rmult_comm. cbn [nth]. f_equal. f_equal.
        apply (diff_eq_unique [g1; - g1] [1; q; r] x); auto. unfold kf_c1. rewrite map_id_1. (apply ip_diff; [simpl; lia|reflexivity]).
      * rewrite Rmult_comm. cbn [nth]. f_equal. f_equal.
        apply (diff_eq_unique [g2; g2] [1; q; r] x); auto. unfold kf_c2. rewrite map_id_2. (apply ip_diff; [simpl; lia|reflexivity]).
    + assert (E : mrun (ip [kr (re, im); kq (re, im); 1] [1; kq (re, im); kr (re, im)]) (rt_fresh (kf_c_adv (re, im))) x = t).
      { apply (diff_eq_unique [r; q; 1] [1; q; r] x); auto. (apply ip_diff; [simpl; lia|reflexivity]). }
      rewrite E. rewrite (IH _ t us0) by auto. unfold tap_sum. rewrite get_mk.
      2: { rewrite <- E, mrun_length. auto. }
      apply sum_ext. intros j Hj. cbn [nth]. f_equal. unfold get. destruct cs as [|c [|c' cs]]; cbn [tl nth]; auto; destruct j; auto.
Qed.
Lemma pr_taps zs cc ps : forall cs x us, length cs = length ps -> kautz_taps ps zs x us ->
  mrun (pr zs cc ps cs) (map (fun p => (rt_fresh (kf_real p), rt_fresh (kf_real_adv p))) ps,
     map (fun z => (rt_fresh (kf_c1 z), rt_fresh (kf_c2 z), rt_fresh (kf_c_adv z))) zs) x = tap_sum (length x) (cs ++ cc) us.
Proof.
  induction ps as [|p ps IH]; intros cs x us L H.
  - destruct cs; [|discriminate]. cbn [map app]. rewrite pr_nil_run. now apply pc_taps.
  - destruct cs as [|c cs]; [discriminate|]. inversion H; subst. cbn [map]. rewrite pr_run. unfold tap_sum. apply mk_ext. intros i Hi.
    cbn [length]. rewrite sum_S_front. apply (f_equal2 Rplus).
    + rewrite Rmult_comm. cbn [nth]. f_equal. f_equal. apply (diff_eq_unique [sqrt (1 - p * p)] [1; - p] x); auto. (apply ip_diff; [simpl; lia|reflexivity]).
    + assert (E : mrun (ip [- p; 1] [1; - p]) (rt_fresh (kf_real_adv p)) x = t).
      { apply (diff_eq_unique [- p; 1] [1; - p] x); auto. (apply ip_diff; [simpl; lia|reflexivity]). }
      rewrite E. cbn [tl]. transitivity (get (tap_sum (length t) (cs ++ cc) us0) i).
      { apply (f_equal (fun l => get l i)). apply IH; auto. }
      unfold tap_sum. rewrite get_mk.
      2: { rewrite <- E, mrun_length. auto. }
      apply sum_ext. intros j Hj. cbn [nth]. f_equal.
Qed.

(** The vector path. *)
Lemma lf0_diff b a x : get a 0 = 1 -> diff_eq b a x (lf0 b a x).
Proof.
  intros Ha. destruct (lfilter_diff (HA := CRing_R) b a x (repeat 0 (lf_order b a))) as [L H]; auto.
  - rewrite repeat_length. unfold lf_order. lia.
  - rewrite repeat_length. unfold lf_order. lia.
  - split; auto. intros n Hn. unfold lf0. rewrite H by auto. rewrite (get_repeat0 (HA := CRing_R)). cbn. lra.
Qed.
Lemma tap_scale g c b x a u : get a 0 = 1 -> diff_eq (map (fun v => g * v) b) a x u ->
  map (fun v => g * v * c) (lf0 b a x) = map (fun v => c * v) u.
Proof.
  intros Ha H. pose proof (diff_eq_scale (HA := CRing_R) g b a x _ (lf0_diff b a x Ha)) as E.
  rewrite (diff_eq_unique _ a x _ _ Ha H E), map_map. apply map_ext. intros. cbn. lra.
Qed.
Lemma taps_vec_cplx zs : forall cs x us, kautz_taps [] zs x us ->
  kz_taps_cplx zs cs x = mk (length us) (fun j => map (fun v => get cs j * v) (nth j us [])).
Proof.
  induction zs as [|[re im] zs IH]; intros cs x us H; inversion H; subst. reflexivity.
  cbn [kz_taps_cplx length]. rewrite !mk_S_front. f_equal; [|f_equal].
  - apply tap_scale; auto. cbn [map]. rewrite Rmult_1_r. replace (_ * -1) with (- g1). assumption. unfold g1, r, q, kr, kq. simpl. lra.
  - apply tap_scale; auto. cbn [map]. rewrite Rmult_1_r. assumption.
  - assert (E : lf0 [kr (re, im); kq (re, im); 1] [1; kq (re, im); kr (re, im)] x = t).
    { apply (diff_eq_unique [r; q; 1] [1; q; r] x); auto. now apply lf0_diff. }
    rewrite E. rewrite (IH _ t us0) by auto. apply mk_ext. intros j Hj. apply map_ext. intros v. cbn [nth]. f_equal.
    unfold get. destruct cs as [|c [|c' cs]]; cbn [tl nth]; auto; destruct j; auto.
Qed.
Lemma taps_vec zs cc ps : forall cs x us, length cs = length ps -> kautz_taps ps zs x us ->
  kz_taps zs cc ps cs x = mk (length us) (fun j => map (fun v => get (cs ++ cc) j * v) (nth j us [])).
Proof.
  induction ps as [|p ps IH]; intros cs x us L H.
  - destruct cs; [|discriminate]. cbn [kz_taps app]. now apply taps_vec_cplx.
  - destruct cs as [|c cs]; [discriminate|]. inversion H; subst. cbn [kz_taps length]. rewrite mk_S_front. f_equal.
    + apply tap_scale; auto. cbn [map]. rewrite Rmult_1_r. assumption.
    + assert (E : lf0 [- p; 1] [1; - p] x = t). { apply (diff_eq_unique [- p; 1] [1; - p] x); auto. now apply lf0_diff. }
      rewrite E. cbn [tl]. rewrite (IH cs t us0) by auto. apply mk_ext. intros j Hj. apply map_ext. intros v. reflexivity.
Qed.
Lemma fold_taps (n : nat) taps : forall out : list R, length out = n ->
  fold_left (fun out tap => mk n (fun i => get out i + get tap i)) taps out =
  mk n (fun i => get out i + sum (length taps) (fun j => get (nth j taps []) i)).
Proof.
  induction taps as [|t taps IH]; intros out L.
  - cbn. rewrite <- L. rewrite <- (mk_nth out 0) at 1. apply mk_ext. intros. rewrite Rplus_0_r. reflexivity.
  - cbn [fold_left length]. rewrite IH by apply mk_length. apply mk_ext. intros i Hi. rewrite sum_S_front, get_mk by auto. cbn [nth].
    set (s := sum _ _). change (get out i + get t i + s = get out i + (get t i + s)). lra.
Qed.
Lemma vector_taps k x us : length (kz_cr k) = length (kz_real k) -> kautz_taps (kz_real k) (kz_cplx k) x us ->
  kz_vector k x = tap_sum (length x) (kz_cr k ++ kz_cc k) us.
Proof.
  intros L H. unfold kz_vector, kz_tapout. rewrite (taps_vec _ _ _ _ _ us L H). rewrite fold_taps by apply repeat_length.
  unfold tap_sum. apply mk_ext. intros i Hi. rewrite (get_repeat0 (HA := CRing_R)). rewrite mk_length. cbn [r0 CRing_R]. rewrite Rplus_0_l.
  apply sum_ext. intros j Hj. rewrite nth_mk by auto. set (c := get _ j). unfold get. destruct (taps_len _ _ _ _ H) as [_ F].
  rewrite Forall_forall in F. rewrite (nth_map' _ _ i 0). reflexivity. rewrite F; auto. apply nth_In; auto.
Qed.

(** Tap signals exist and are unique. *)
Lemma taps_exist ps zs x : exists us, kautz_taps ps zs x us.
Proof.
  revert x. induction ps as [|p ps IH]; intros x.
  - revert x. induction zs as [|[re im] zs IHz]; intros x. eexists; constructor.
    set (q := - (2 * re)). set (r := re * re + im * im).
    set (g1 := sqrt ((1 - r) * (1 + r - q) / 2)). set (g2 := sqrt ((1 - r) * (1 + r + q) / 2)).
    destruct (IHz (resp [r; q; 1] [1; q; r] x)) as [us Hus].
    exists (resp [g1; - g1] [1; q; r] x :: resp [g2; g2] [1; q; r] x :: us).
    apply (kt_pair re im zs x _ _ (resp [r; q; 1] [1; q; r] x)); auto; now apply resp_ok.
  - destruct (IH (resp [- p; 1] [1; - p] x)) as [us Hus]. exists (resp [sqrt (1 - p * p)] [1; - p] x :: us).
    apply (kt_real p ps zs x _ (resp [- p; 1] [1; - p] x)); auto; now apply resp_ok.
Qed.

(** Impulse responses of the taps. *)
Lemma taps_impulse ps zs x hs us : kautz_taps ps zs (delta (length x)) hs -> kautz_taps ps zs x us ->
  us = map (fun h => convl h x) hs.
Proof.
  remember (length x) as N eqn:EN. remember (delta N) as d eqn:Ed. intros Hh.
  assert (G : forall (g : list R) ps zs d hs, kautz_taps ps zs d hs -> length g = length d -> forall x us, length x = length d ->
     kautz_taps ps zs x us -> (forall b a y z, get a 0 = 1 -> diff_eq b a d z -> diff_eq b a x y -> y = convl z g) ->
     us = map (fun h => convl h g) hs).
  2: { intros Hu. assert (Ld : length x = length d) by (subst d; rewrite delta_length; auto). apply (G x ps zs d hs Hh Ld x us Ld Hu).
       intros b a y z Ha Hz Hy. apply (diff_eq_impulse b a x z y Ha); auto. subst. auto. }
  clear. intros g ps zs d hs H. induction H as [d|p ps zs d u t us0 H1 H2 H3 IH|re im zs d u1 u2 t us0 q r g1 g2 H1 H2 H2' H3 IH];
    intros Lg x us Lx Hu Hd; inversion Hu; subst.
  - reflexivity.
  - cbn [map]. f_equal. apply (Hd [sqrt (1 - p * p)] [1; - p]); auto.
    assert (Et : t0 = convl t g) by (apply (Hd [- p; 1] [1; - p]); auto).
    assert (Lt : length t = length d) by apply H2.
    apply (IH ltac:(lia) t0); auto. rewrite Et, convl_length; lia.
    intros b a y z Ha Hz Hy. apply (diff_eq_unique b a t0); auto. split. rewrite convl_length, Et, convl_length; lia.
    intros n Hn. rewrite Et, convl_length in Hn. rewrite conv_convl by auto. rewrite Et, conv_convl by auto. destruct Hz as [Lz Hz].
    apply sconv_ext; auto. intros i Hi. apply Hz. lia.
  - cbn [map]. f_equal; [|f_equal].
    + apply (Hd [g1; - g1] [1; q; r]); auto.
    + apply (Hd [g2; g2] [1; q; r]); auto.
    + assert (Et : t0 = convl t g) by (apply (Hd [r; q; 1] [1; q; r]); auto).
      assert (Lt : length t = length d) by apply H2'.
      apply (IH ltac:(lia) t0); auto. rewrite Et, convl_length; lia.
      intros b a y z Ha Hz Hy. apply (diff_eq_unique b a t0); auto. split. rewrite convl_length, Et, convl_length; lia.
      intros n Hn. rewrite Et, convl_length in Hn. rewrite conv_convl by auto. rewrite Et, conv_convl by auto. destruct Hz as [Lz Hz].
      apply sconv_ext; auto. intros i Hi. apply Hz. lia.
Qed.
Lemma taps_unique ps zs x us us' : kautz_taps ps zs x us -> kautz_taps ps zs x us' -> us = us'.
Proof.
  intros H H'. destruct (taps_exist ps zs (delta (length x))) as [hs Hh].
  now rewrite (taps_impulse _ _ _ _ _ Hh H), (taps_impulse _ _ _ _ _ Hh H').
Qed.
Lemma get_rev (l : list R) i : (i < length l)%nat -> get (rev l) i = get l (length l - 1 - i).
Proof. intros. unfold get. now rewrite nth_rev'. Qed.
Lemma conv_reversed (h x : list R) : x <> [] -> conv h (rev x) (length x - 1) = sum (length x) (fun n => get h n * get x n).
Proof.
  intros Hx. assert (L : (0 < length x)%nat) by (destruct x; simpl; [easy|lia]). unfold conv. replace (S (length x - 1)) with (length x) by lia.
  apply sum_ext. intros i Hi. rewrite get_rev by lia. cbn. f_equal. f_equal. lia.
Qed.
