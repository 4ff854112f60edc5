(** C15, C42: Kautz filter. *)
From Coq Require Import List Arith Lia ZArith Reals Lra Bool.
From Verif Require Import Alg Spec M_realtime P_realtime M_filter P_filter P_conv Spec_kautz M_kautz P_kautz P_warp.
Import ListNotations.
Local Open Scope R_scope.

Lemma new_ok poles : Forall pole_ok poles ->
  kz_new poles = Ok (mkK (real_poles poles) (other_poles poles) (repeat 1 (length (real_poles poles)))
                         (repeat 1 (2 * length (other_poles poles)))).
Proof.
  intros H. unfold kz_new.
  replace (existsb _ poles) with false.
  2: { symmetry. induction H as [|p l [H1 H2] H IH]; auto. cbn [existsb]. rewrite IH. destruct (Rlt_dec (snd p) 0); auto. lra. }
  replace (existsb _ poles) with false.
  2: { symmetry. induction H as [|p l [H1 H2] H IH]; auto. cbn [existsb]. rewrite IH. destruct (Rle_dec 1 _) as [C|]; auto. exfalso.
       assert (sqrt (fst p * fst p + snd p * snd p) < sqrt 1).
       { apply sqrt_lt_1. pose proof (Rle_0_sqr (fst p)). pose proof (Rle_0_sqr (snd p)). unfold Rsqr in *. lra. lra. auto. }
       rewrite sqrt_1 in *. lra. }
  unfold kz_set_coeffs. cbn [kz_cplx kz_real]. rewrite !repeat_length. unfold other_poles, real_poles.
  now rewrite !Nat.eqb_refl.
Qed.
Lemma new_err poles : ~ Forall pole_ok poles -> kz_new poles = Err AssertionError.
Proof.
  intros H. unfold kz_new. destruct (existsb _ poles) eqn:E1; auto. destruct (existsb _ poles) eqn:E2 in |- *; auto. exfalso. apply H.
  apply Forall_forall. intros p Hp.
  assert (A1 : (if Rlt_dec (snd p) 0 then true else false) = false).
  { destruct (Rlt_dec (snd p) 0) eqn:E; auto. rewrite <- E1. symmetry. apply existsb_exists. exists p. split; auto. now rewrite E. }
  assert (A2 : (if Rle_dec 1 (sqrt (fst p * fst p + snd p * snd p)) then true else false) = false).
  { destruct (Rle_dec 1 _) eqn:E; auto. rewrite <- E2. symmetry. apply existsb_exists. exists p. split; auto. now rewrite E. }
  destruct (Rlt_dec (snd p) 0); [discriminate|]. destruct (Rle_dec 1 _); [discriminate|]. split. lra.
  apply sqrt_lt_0_alt. rewrite sqrt_1. lra.
Qed.

(** Construction: refused exactly for poles outside the unit circle or below the real axis. *)
Theorem C15_constructor :
  forall poles cr cc,
  (~ Forall pole_ok poles -> kz_new poles = Err AssertionError) /\
  (Forall pole_ok poles -> exists k, kz_new poles = Ok k /\
     kz_set_coeffs k cr cc =
       if (length cr =? length (real_poles poles))%nat && (length cc =? 2 * length (other_poles poles))%nat
       then Ok (mkK (real_poles poles) (other_poles poles) cr cc) else Err AssertionError).
Proof.
  intros. split. apply new_err. intros H. rewrite (new_ok poles H). eexists. split; [reflexivity|].
  unfold kz_set_coeffs. cbn [kz_cplx kz_real]. rewrite (Nat.eqb_sym (2 * _)), (Nat.eqb_sym (length (real_poles poles))).
  destruct (length cc =? _)%nat, (length cr =? _)%nat; auto.
Qed.
Print Assumptions C15_constructor.

(** Sample-wise processing and whole-signal filtering give the same output: the weighted sum of the tap signals. *)
Theorem C15_kautz_paths_agree :
  forall poles k cr cc f, poles <> [] -> kz_new poles = Ok k -> kz_set_coeffs k cr cc = Ok f ->
  exists F,
    (forall ops, rt_run (kz_filter f) ops = ref_run (fun _ => true) F ops) /\
    (forall x, exists us, kautz_taps (real_poles poles) (other_poles poles) x us) /\
    (forall x us, kautz_taps (real_poles poles) (other_poles poles) x us ->
       outputs F x = tap_sum (length x) (cr ++ cc) us /\ kz_vector f x = tap_sum (length x) (cr ++ cc) us) /\
    (forall td, kz_filter_signal f td = map (outputs F) td).
Proof.
  intros poles k cr cc f Hne Hk Hf.
  assert (HP : Forall pole_ok poles).
  { destruct (Classical_Prop.classic (Forall pole_ok poles)); auto. rewrite new_err in Hk by auto. discriminate. }
  rewrite (new_ok poles HP) in Hk. injection Hk as <-. unfold kz_set_coeffs in Hf. cbn [kz_cplx kz_real] in Hf.
  destruct (Nat.eqb_spec (2 * length (other_poles poles)) (length cc)) as [Ec|]; [|discriminate].
  destruct (Nat.eqb_spec (length (real_poles poles)) (length cr)) as [Er|]; [|discriminate].
  injection Hf as <-. set (f := mkK _ _ _ _).
  assert (T : forall x us, kautz_taps (real_poles poles) (other_poles poles) x us ->
     mrun (pr (kz_cplx f) (kz_cc f) (kz_real f) (kz_cr f)) (rt_fresh (kz_filter f)) x = tap_sum (length x) (cr ++ cc) us /\
     kz_vector f x = tap_sum (length x) (cr ++ cc) us).
  { intros x us H. split. now apply pr_taps. now apply vector_taps. }
  eexists. split; [intros; apply kz_refines|]. split; [intros; apply taps_exist|]. split.
  - intros x us H. rewrite outputs_mrun. now apply T.
  - intros td. unfold kz_filter_signal. apply map_ext. intros x. rewrite outputs_mrun.
    destruct (taps_exist (real_poles poles) (other_poles poles) x) as [us H]. destruct (T x us H) as [-> ->]. reflexivity.
Qed.
Print Assumptions C15_kautz_paths_agree.

(** The tap signals of an input are unique. *)
Theorem C15_taps_unique :
  forall ps zs x us us', kautz_taps ps zs x us -> kautz_taps ps zs x us' -> us = us'.
Proof. exact taps_unique. Qed.
Print Assumptions C15_taps_unique.

Example C15_example :
  let poles := [(3/5, 0); (0, 1/2)] in
  Forall pole_ok poles /\ real_poles poles = [3/5] /\ other_poles poles = [(0, 1/2)] /\
  kautz_taps [3/5] [] [1; 0; 0] [[4/5; 12/25; 36/125]] /\
  kz_vector (mkK [3/5] [] [10] []) [1; 0; 0] = [8; 24/5; 72/25].
Proof.
  assert (S : sqrt (1 - 3/5 * (3/5)) = 4/5). { replace (1 - 3/5 * (3/5)) with (4/5 * (4/5)) by lra. apply sqrt_square. lra. }
  split; [|split; [|split; [|split]]].
  - repeat constructor; simpl; lra.
  - unfold real_poles, on_axis. simpl. destruct (Req_EM_T 0 0); [|lra]. destruct (Req_EM_T (1/2) 0); [lra|]. reflexivity.
  - unfold other_poles, on_axis. simpl. destruct (Req_EM_T 0 0); [|lra]. destruct (Req_EM_T (1/2) 0); [lra|]. reflexivity.
  - apply (kt_real _ _ _ _ _ (resp [- (3/5); 1] [1; - (3/5)] [1;0;0])); [|now apply resp_ok|constructor].
    rewrite S. split; [reflexivity|]. intros n Hn. simpl in Hn.
    destruct n as [|[|[|n]]]; [| | |lia]; unfold conv, sum, get; simpl; lra.
  - unfold kz_vector, kz_tapout, kz_taps, kz_taps_cplx, lf0, lf_order. simpl. rewrite S. unfold mk, get. simpl.
    repeat (apply f_equal2; [lra|]). reflexivity.
Qed.

(** ** C42: the fitted weights are inner products *)
(** fit_coefficients_to_ir sets weight j to the inner product of the response with the impulse response of tap j
    (the impulse response of tap j is what get_ir returns when weight j is 1 and the others are 0, by C15). *)
Theorem C42_fit_is_projection :
  forall poles k ir hs, kz_new poles = Ok k -> ir <> [] ->
  kautz_taps (real_poles poles) (other_poles poles) (1 :: repeat 0 (length ir - 1)) hs ->
  exists f, kz_fit k ir = Ok f /\ kz_real f = real_poles poles /\ kz_cplx f = other_poles poles /\
    length (kz_cr f) = length (real_poles poles) /\
    kz_cr f ++ kz_cc f = mk (length hs) (fun j => sum (length ir) (fun n => get (nth j hs []) n * get ir n)).
Proof.
  intros poles k ir hs Hk Hir Hh.
  assert (HP : Forall pole_ok poles).
  { destruct (Classical_Prop.classic (Forall pole_ok poles)); auto. rewrite new_err in Hk by auto. discriminate. }
  rewrite (new_ok poles HP) in Hk. injection Hk as <-.
  assert (Ed : 1 :: repeat 0 (length ir - 1) = delta (length (rev ir))).
  { rewrite rev_length. destruct ir as [|v t]; [easy|]. cbn [length]. replace (S (length t) - 1)%nat with (length t) by lia.
    unfold delta. rewrite mk_S_front. f_equal. induction (length t); auto. cbn [repeat]. rewrite mk_S_front. f_equal. auto. }
  rewrite Ed in Hh. destruct (taps_len _ _ _ _ Hh) as [Lh Fh]. rewrite delta_length, rev_length in Fh.
  destruct (taps_exist (real_poles poles) (other_poles poles) (rev ir)) as [us Hu].
  pose proof (taps_impulse _ _ _ _ _ Hh Hu) as EU.
  unfold kz_fit, kz_set_coeffs. cbn [kz_cplx kz_real]. rewrite !repeat_length, !Nat.eqb_refl. cbn [bind].
  destruct (Nat.eqb_spec (length ir) 0) as [E0|_]. { destruct ir; [easy|discriminate]. }
  unfold kz_tapout. cbn [kz_cplx kz_real kz_cr kz_cc].
  rewrite (taps_vec _ _ _ _ _ us) by (auto; now rewrite repeat_length).
  set (c := map _ _).
  assert (Ec : c = mk (length hs) (fun j => sum (length ir) (fun n => get (nth j hs []) n * get ir n))).
  { unfold c. rewrite EU, map_length, map_mk. apply mk_ext. intros j Hj.
    assert (Ho : forall l, map (fun v : R => get (repeat 1 (length (real_poles poles)) ++ repeat 1 (2 * length (other_poles poles))) j * v) l = l).
    { intros l. rewrite <- repeat_app. unfold get. rewrite nth_repeat_lt by lia. rewrite <- (map_id l) at 2. apply map_ext. intros. lra. }
    rewrite Ho. rewrite (nth_map' _ _ j []) by auto. rewrite convl_length, rev_length.
    assert (Hl : (0 < length ir)%nat) by (destruct ir; simpl; [easy|lia]).
    rewrite get_convl by (rewrite rev_length; lia). now apply conv_reversed. }
  assert (Lc : length c = (length (real_poles poles) + 2 * length (other_poles poles))%nat) by (rewrite Ec, mk_length; auto).
  rewrite skipn_length, firstn_length, Lc.
  replace (_ + _ - _)%nat with (2 * length (other_poles poles))%nat by lia.
  replace (Nat.min _ _) with (length (real_poles poles)) by lia. rewrite !Nat.eqb_refl.
  eexists. split; [reflexivity|]. cbn [kz_real kz_cplx kz_cr kz_cc]. split; auto. split; auto. split.
  rewrite firstn_length, Lc. lia. now rewrite firstn_skipn.
Qed.
Print Assumptions C42_fit_is_projection.
Example C42_example :
  kautz_taps [3/5] [] (1 :: repeat 0 1) [[4/5; 12/25]] /\
  exists f, kz_fit (mkK [3/5] [] [1] []) [5; 25] = Ok f /\ kz_cr f = [16].
Proof.
  assert (S : sqrt (1 - 3/5 * (3/5)) = 4/5). { replace (1 - 3/5 * (3/5)) with (4/5 * (4/5)) by lra. apply sqrt_square. lra. }
  split.
  - apply (kt_real _ _ _ _ _ (resp [- (3/5); 1] [1; - (3/5)] [1;0])); [|now apply resp_ok|constructor].
    rewrite S. split; [reflexivity|]. intros n Hn. simpl in Hn.
    destruct n as [|[|n]]; [| |lia]; unfold conv, sum, get; simpl; lra.
  - eexists. split. reflexivity. simpl. rewrite S. unfold get. simpl. apply f_equal2; [lra|reflexivity].
Qed.
