(** Property C77: the Laguerre transform, warping of signals and of filters. *)
From Coq Require Import List Arith Lia ZArith Bool Reals Lra Psatz Ascii String.
From Verif Require M_latency Claims_room Claims_deconv.
From Verif Require Import Alg Spec Dft M_scaling M_arrays M_signal P_signal M_filter P_filter P_conv M_realtime P_realtime M_warp P_warp Claims_warp M_tf M_minphase P_minphase Claims_minphase M_groupdelay P_groupdelay Claims_groupdelay M_room P_dft2 M_transforms P_warping Claims_transforms.
Import ListNotations.
Local Open Scope list_scope.
Local Open Scope R_scope.
Notation length := List.length.

(** ** Laguerre transform *)
Definition energy (x : list R) : R := rsum (length x) (fun n => get x n * get x n).
Definition inner (x y : list R) : R := rsum (length x) (fun n => get x n * get y n).
Lemma energy_rev x : energy (rev x) = energy x.
Proof. unfold energy. rewrite rev_length, (sum_rev (HA := CRing_R)). apply (sum_ext (HA := CRing_R)). intros n Hn. rewrite get_rev by lia. replace (length x - 1 - (length x - 1 - n))%nat with n by lia. reflexivity. Qed.
Lemma energy_nonneg x : 0 <= energy x.
Proof. unfold energy. induction (length x); cbn [sum]. change (@r0 R CRing_R) with 0. lra. change (@radd R CRing_R) with Rplus. nra. Qed.
Lemma lag_norm l : Rabs l < 1 -> sqrt (1 - l * l) * sqrt (1 - l * l) + l * l = 1.
Proof. intros H. apply Rabs_def2 in H. rewrite sqrt_sqrt by nra. ring. Qed.
Fixpoint stages (l : R) (k : nat) (x : list R) : list R := match k with O => x | S j => lag_stage l (stages l j x) end.
Lemma stages_eq l k x : length (stages l k x) = length x /\ forall n, (n < length x)%nat -> get (stages l k x) n = aps l k (get x) n.
Proof.
  induction k as [|k (L & V)]; cbn [stages aps]; auto. destruct (lag_stage_eq l (stages l k x)) as (L' & V'). rewrite L in L', V'. split; auto.
  intros n Hn. rewrite V' by auto. apply ap_ext. intros m Hm. apply V. lia.
Qed.
Lemma stage_diff l x : diff_eq [l; 1] [1; l] x (lag_stage l x).
Proof.
  destruct (lfilter_diff (HA := CRing_R) [l; 1] [1; l] x [0] ltac:(reflexivity) ltac:(simpl; lia) ltac:(simpl; lia)) as (L & D). split; auto. intros n Hn. unfold lag_stage. rewrite D by auto.
  assert (G : get [0] n = 0) by (unfold get; destruct n as [|[|n]]; reflexivity). rewrite G. change (@radd R CRing_R) with Rplus. ring.
Qed.
(** The transform has as many samples as the signal and loses exactly the energy which the chain of as many allpass filters (lambda + z^-1) /
    (1 + lambda z^-1) gives out when the reversed signal is fed to it. In particular it never gains energy. *)
Theorem C77_laguerre_energy l x : Rabs l < 1 -> x <> [] -> length (laguerre_col l x) = length x /\ energy (laguerre_col l x) <= energy x /\
  exists Y : nat -> list R, Y 0%nat = rev x /\ (forall k, diff_eq [l; 1] [1; l] (Y k) (Y (S k))) /\
    energy x = energy (laguerre_col l x) + energy (Y (length x)).
Proof.
  intros Hl Hx. destruct (laguerre_get l x 0 Hx) as (L & _).
  assert (E : energy x = energy (laguerre_col l x) + energy (stages l (length x) (rev x))).
  { destruct (length x) as [|N] eqn:EN; [destruct x; [congruence|discriminate]|].
    rewrite <- energy_rev. pose proof (aps_energy l (sqrt (1 - l * l)) (lag_norm l Hl) N (get (rev x)) (S N)) as A.
    destruct (stages_eq l (S N) (rev x)) as (LS & VS). rewrite rev_length, EN in LS, VS.
    unfold energy. rewrite rev_length, L, LS, EN. rewrite A. f_equal.
    - apply (sum_ext (HA := CRing_R)). intros i Hi. destruct (laguerre_get l x i Hx) as (_ & V). rewrite V by lia. rewrite EN. replace (S N - 1)%nat with N by lia. reflexivity.
    - apply (sum_ext (HA := CRing_R)). intros i Hi. rewrite VS by lia. reflexivity. }
  split; auto. split. { pose proof (energy_nonneg (stages l (length x) (rev x))). lra. }
  exists (fun k => stages l k (rev x)). split; [reflexivity|]. split; [intros k; apply stage_diff|assumption].
Qed.
Print Assumptions C77_laguerre_energy.

(** The transform with the opposite factor is the adjoint. *)
Theorem C77_laguerre_adjoint l x y : length y = length x -> inner (laguerre_col l x) y = inner x (laguerre_col (- l) y).
Proof.
  intros Hy. destruct x as [|a x']. { reflexivity. } set (x := a :: x') in *. assert (Hx : x <> []) by discriminate. assert (Hy' : y <> []) by (intros ->; discriminate).
  destruct (laguerre_get l x 0 Hx) as (L & _). unfold inner. rewrite L.
  rewrite (sum_ext (HA := CRing_R) (length x) _ (fun i => rsum (length x) (fun n => ker l (sqrt (1 - l * l)) i n * get x n * get y i))).
  2:{ intros i Hi. rewrite laguerre_inner by auto. change Rmult with (@rmul R CRing_R). rewrite <- (sum_scal_r (HA := CRing_R)). reflexivity. }
  rewrite (sum_exchange (HA := CRing_R)). apply (sum_ext (HA := CRing_R)). intros n Hn. rewrite laguerre_inner by lia. rewrite Hy.
  change Rmult with (@rmul R CRing_R) at 3. rewrite <- (sum_scal_l (HA := CRing_R)). apply (sum_ext (HA := CRing_R)). intros i Hi. change (@rmul R CRing_R) with Rmult.
  rewrite (ker_sym l). replace (- l * - l) with (l * l) by ring. ring.
Qed.
Print Assumptions C77_laguerre_adjoint.

Lemma inner_sub (x y : list R) : length y = length x -> energy (mk (length x) (fun n => get x n - get y n)) = energy x - 2 * inner x y + energy y.
Proof.
  intros L. unfold energy, inner. rewrite mk_length, L. rewrite (sum_ext (HA := CRing_R) _ _ (fun n => (get x n - get y n) * (get x n - get y n))) by (intros; now rewrite (get_mk (HA := CRing_R))).
  clear L. induction (length x) as [|q IH]; cbn [sum]; [change (@r0 R CRing_R) with 0; ring|]. change (@radd R CRing_R) with Rplus. rewrite IH. ring.
Qed.
(** Applying the transform with the factor and then with its negative gives the signal back up to an error whose energy is at most the energy the
    first transform lost. *)
Theorem C77_laguerre_inverse_error l x : Rabs l < 1 -> x <> [] ->
  let y := laguerre_col (- l) (laguerre_col l x) in let err := energy (mk (length x) (fun n => get x n - get y n)) in
  length y = length x /\ err <= energy x - energy (laguerre_col l x) /\ inner x y = energy (laguerre_col l x).
Proof.
  intros Hl Hx y err. destruct (C77_laguerre_energy l x Hl Hx) as (L & _). set (z := laguerre_col l x) in *.
  assert (Hz : z <> []) by (intros E; rewrite E in L; destruct x; [congruence|discriminate]).
  assert (Hl' : Rabs (- l) < 1) by (now rewrite Rabs_Ropp).
  destruct (C77_laguerre_energy (- l) z Hl' Hz) as (L2 & E2 & _). fold y in L2, E2.
  assert (I : inner x y = energy z). { unfold y. rewrite <- C77_laguerre_adjoint by auto. fold z. reflexivity. }
  split; [congruence|]. split; [|assumption]. unfold err. rewrite inner_sub by congruence. rewrite I. lra.
Qed.
Print Assumptions C77_laguerre_inverse_error.

Lemma impulse_sum N (f : nat -> R) : (0 < N)%nat -> rsum N (fun n => f n * get (unit_impulse N) n) = f 0%nat.
Proof.
  intros HN. rewrite (sum_single (HA := CRing_R) N 0); auto.
  - unfold unit_impulse. rewrite (get_mk (HA := CRing_R)) by auto. cbn [Nat.eqb]. ring.
  - intros i Hi H0. unfold unit_impulse. rewrite (get_mk (HA := CRing_R)) by auto. destruct (Nat.eqb_spec i 0); [lia|]. change (@r0 R CRing_R) with 0. ring.
Qed.
Lemma impulse_len N : length (unit_impulse N) = N. Proof. apply mk_length. Qed.
(** The documented inversion (the factor, then its negative) is not exact for any length and any nonzero factor: the first sample of a unit
    impulse comes back as 1 - lambda^(2N). *)
Theorem C77_laguerre_inversion_refuted l N : Rabs l < 1 -> l <> 0 -> (1 <= N)%nat ->
  let x := unit_impulse N in let y := laguerre_col (- l) (laguerre_col l x) in get y 0 = 1 - (l * l) ^ N /\ get y 0 <> get x 0 /\ y <> x.
Proof.
  intros Hl H0 HN x y. assert (Lx : length x = N) by apply impulse_len. assert (Hx : x <> []) by (intros E; rewrite E in Lx; cbn in Lx; lia).
  destruct (C77_laguerre_inverse_error l x Hl Hx) as (_ & _ & I). fold y in I.
  assert (A : inner x y = get y 0). { unfold inner. rewrite Lx. rewrite (sum_ext (HA := CRing_R) _ _ (fun n => get y n * get x n)) by (intros; ring). apply impulse_sum. lia. }
  assert (V : forall i, (i < N)%nat -> get (laguerre_col l x) i = sqrt (1 - l * l) * l ^ i).
  { intros i Hi. rewrite laguerre_inner by (now rewrite Lx). rewrite Lx. unfold x. rewrite impulse_sum by lia. apply ker_i0. }
  assert (E : energy (laguerre_col l x) = 1 - (l * l) ^ N).
  { unfold energy. destruct (laguerre_get l x 0 Hx) as (L & _). rewrite L, Lx. rewrite (sum_ext (HA := CRing_R) N _ (fun i => (1 - l * l) * (l * l) ^ i)).
    - clear. induction N as [|N IH]; cbn [sum pow]. change (@r0 R CRing_R) with 0. ring. change (@radd R CRing_R) with Rplus. rewrite IH. ring.
    - intros i Hi. rewrite V by auto. apply Rabs_def2 in Hl. rewrite Rpow_mult_distr. transitivity (sqrt (1 - l * l) * sqrt (1 - l * l) * (l ^ i * l ^ i)); [ring|]. rewrite sqrt_sqrt by nra. reflexivity. }
  assert (P : 0 < (l * l) ^ N) by (apply pow_lt; nra). assert (X0 : get x 0 = 1) by (unfold x, unit_impulse; rewrite (get_mk (HA := CRing_R)) by lia; reflexivity).
  split; [congruence|]. assert (Q : get y 0 <> get x 0) by (rewrite X0, <- A, I, E; lra). split; auto. intros Eq. now rewrite Eq in Q.
Qed.
Print Assumptions C77_laguerre_inversion_refuted.
Lemma ker_zero i n : ker 0 1 i n = if (i =? n)%nat then 1 else 0.
Proof.
  revert n. induction i as [|i IH]; intros n.
  - destruct n. rewrite ker_00. reflexivity. rewrite ker_0S. cbn [Nat.eqb]. ring.
  - destruct n. rewrite ker_S0. cbn [Nat.eqb]. ring. rewrite ker_SS, !IH. cbn [Nat.eqb]. ring.
Qed.
(** With factor 0 the transform is the identity. *)
Theorem C77_laguerre_zero x : laguerre_col 0 x = x.
Proof.
  destruct x as [|a x']; [reflexivity|]. set (x := a :: x'). assert (Hx : x <> []) by discriminate. destruct (laguerre_get 0 x 0 Hx) as (L & _).
  apply list_ext_R with (N := length x); auto. intros i Hi. rewrite laguerre_inner by auto. replace (1 - 0 * 0) with 1 by ring. rewrite sqrt_1.
  rewrite (sum_single (HA := CRing_R) (length x) i); auto. rewrite ker_zero, Nat.eqb_refl. ring.
  intros n Hn Hne. rewrite ker_zero. destruct (Nat.eqb_spec i n); [lia|]. change (@r0 R CRing_R) with 0. ring.
Qed.
Print Assumptions C77_laguerre_zero.
Example C77_laguerre_example : laguerre_col (1 / 2) [1; 0] = [sqrt (3 / 4); sqrt (3 / 4) / 2] /\ Rabs (1 / 2) < 1.
Proof.
  split; [|rewrite Rabs_pos_eq; lra]. unfold laguerre_col. cbn [length rev app lag_outputs]. unfold lag_first, lag_stage. cbn. unfold get. cbn. replace (1 - 1 / 2 * (1 / 2)) with (3 / 4) by field. f_equal; [|f_equal]; field.
Qed.
(** On a Signal: factors outside ]-1, 1[ are refused; otherwise every channel is transformed, times the scale factor of the amplitude constraint. *)
Theorem C77_laguerre_signal l s n k : shape (s_re s) n k -> (1 <= k <= n)%nat -> (n * k <> 1)%nat ->
  (1 <= Rabs l -> laguerre l s = Err AssertionError) /\
  (Rabs l < 1 -> exists s', laguerre l s = Ok s' /\ s_im s' = None /\ s_fs s' = s_fs s /\ shape (s_re s') n k /\ 0 < s_scale s' <= 1 /\ (s_constr s = false -> s_scale s' = 1) /\
    forall i c, (i < n)%nat -> (c < k)%nat -> entry (s_re s') i c = s_scale s' * get (laguerre_col l (nth c (s_re s) [])) i).
Proof.
  intros Hs Hk H1. unfold laguerre. split; intros Hl; destruct (Rlt_dec (Rabs l) 1) as [H|H]; try lra; auto.
  pose proof (proj1 Hs) as Lk. unfold set_data.
  destruct (stored (s_constr s) (s_fs s) (mkIn (map (laguerre_col l) (s_re s)) None false) n k) as (p & s' & P & Es & A & B & D & F & G & I); auto.
  { split; [|discriminate]. cbn [i_re]. rewrite <- Lk. apply shape_mk_map. intros x Hx. destruct Hs as (_ & F). rewrite Forall_forall in F. rewrite <- (F x Hx). apply (laguerre_get l x 0). intros ->. specialize (F _ Hx). cbn in F. lia. }
  cbn [i_re i_im] in *. exists s'. repeat (split; [assumption|]). split.
  { rewrite D. destruct (s_constr s); [|lra]. destruct (Rlt_dec 1 p) as [Hp|]; [|lra]. split. apply Rdiv_lt_0_compat; lra. apply (Rmult_le_reg_l p); [lra|]. replace (p * (1 / p)) with 1 by (field; lra). lra. }
  split. { intros E. now rewrite D, E. }
  intros i c Hi Hc. rewrite G by auto. rewrite (entry_map _ _ []) by lia. reflexivity.
Qed.
Print Assumptions C77_laguerre_signal.

(** ** Warping of signals *)
Lemma warp_stage_chain lam x : warp_stage lam x = P_warp.ap lam x.
Proof.
  apply (diff_eq_unique (HA := CRing_R) [- lam; 1] [1; - lam] x); [reflexivity| |apply (ap_diff (HA := CRing_R) lam x)].
  destruct (lfilter_diff (HA := CRing_R) [- lam; 1] [1; - lam] x [0] ltac:(reflexivity) ltac:(simpl; lia) ltac:(simpl; lia)) as (L & D). split; auto. intros n Hn. unfold warp_stage. rewrite D by auto.
  assert (G : get [0] n = 0) by (unfold get; destruct n as [|[|n]]; reflexivity). rewrite G. change (@radd R CRing_R) with Rplus. ring.
Qed.
Lemma chain_length lam k x : length (chain (HA := CRing_R) lam k x) = length x.
Proof. induction k; cbn [chain]; auto. unfold P_warp.ap. now rewrite mk_length. Qed.
Lemma warp_acc_eq lam d0 : forall td k acc, length acc = length d0 ->
  length (warp_acc lam td (chain (HA := CRing_R) lam k d0) acc) = length d0 /\ forall m, (m < length d0)%nat ->
  get (warp_acc lam td (chain (HA := CRing_R) lam k d0) acc) m = get acc m + rsum (length td) (fun j => get td j * get (chain (HA := CRing_R) lam (S (k + j)) d0) m).
Proof.
  induction td as [|v td IH]; intros k acc La; cbn [warp_acc].
  - split; auto. intros m Hm. cbn [length sum]. change (@r0 R CRing_R) with 0. ring.
  - rewrite warp_stage_chain. change (P_warp.ap lam (chain lam k d0)) with (chain (HA := CRing_R) lam (S k) d0).
    destruct (IH (S k) (mk (length acc) (fun i => get acc i + get (chain (HA := CRing_R) lam (S k) d0) i * v)) ltac:(now rewrite mk_length)) as (L & V). split; auto.
    intros m Hm. rewrite V by auto. rewrite (get_mk (HA := CRing_R)) by lia. cbn [length]. rewrite (sum_S_front (HA := CRing_R)). change (@radd R CRing_R) with Rplus. rewrite Nat.add_0_r.
    rewrite (sum_ext (HA := CRing_R) (length td) _ (fun i => get (v :: td) (S i) * get (chain (HA := CRing_R) lam (S (k + S i)) d0) m)).
    + unfold get at 6. cbn [nth]. ring.
    + intros j Hj. replace (S (S k + j)) with (S (k + S j)) by lia. reflexivity.
Qed.
Lemma warp_get lam td : length (warp_col lam td) = length td /\ forall m, (m < length td)%nat ->
  get (warp_col lam td) m = rsum (length td) (fun k => get td k * get (chain (HA := CRing_R) lam k (unit_impulse (length td))) m).
Proof.
  unfold warp_col. destruct (warp_acc_eq lam (unit_impulse (length td)) (tl td) 0 (mk (length td) (fun i => get (unit_impulse (length td)) i * get td 0))) as (L & V).
  { now rewrite mk_length, impulse_len. } rewrite impulse_len in L, V. split; auto. intros m Hm. cbn [chain] in V. rewrite V by auto. rewrite (get_mk (HA := CRing_R)) by auto.
  destruct td as [|v td]; [cbn in Hm; lia|]. cbn [tl length]. rewrite (sum_S_front (HA := CRing_R)). change (@radd R CRing_R) with Rplus. f_equal. cbn [chain]. ring.
Qed.
Lemma wfir_refines {A} {HA : CRing A} (lam : A) b : b <> [] -> forall ops, rt_run (warp_fir lam b) ops = ref_run (fun n => 1 <=? n)%nat (wfir_F lam b) ops.
Proof.
  intros Hb ops. apply (rt_refines (warp_fir lam b) _ (fun s h => s = wbuf lam (length b) h)).
  + cbn. now rewrite wbuf_nil.
  + intros s h ->. cbn. rewrite wbuf_nil. apply map_zero_mk.
  + intros s h x Es. now apply wfir_step.
Qed.
Lemma run_len {S I O} (f : S -> I -> S * O) l : forall s, length (run f s l) = length l.
Proof. induction l as [|i l IH]; intros s; cbn [run]; auto. destruct (f s i). cbn [length]. now rewrite IH. Qed.
(** warp computes the warped FIR filter with the samples as taps: the result is what the WarpedFIR object with the same taps and factor gives out,
    sample by sample, when it is fed a unit impulse. *)
Theorem C77_warp_is_warped_fir lam td : td <> [] ->
  rt_run (warp_fir (HA := CRing_R) lam td) (map (fun v => Proc v 0%Z) (unit_impulse (length td))) = map Val (warp_col lam td).
Proof.
  intros Htd.
  rewrite (wfir_refines (HA := CRing_R)) by auto. destruct (warp_get lam td) as (L & V). apply nth_ext with (d := Done) (d' := Done).
  - unfold ref_run. rewrite run_len, !map_length, impulse_len. congruence.
  - intros n Hn. unfold ref_run in *. rewrite run_len, map_length, impulse_len in Hn. rewrite ref_run_single by (now rewrite impulse_len). cbn [app].
    rewrite (nth_indep (map Val (warp_col lam td)) Done (Val 0)) by (rewrite map_length; lia). rewrite map_nth. f_equal. change (nth n (warp_col lam td) 0) with (get (A := R) (warp_col lam td) n).
    rewrite V by auto. pose proof (wfir_outputs (HA := CRing_R) lam td (unit_impulse (length td))) as O. apply (f_equal (fun l => get l n)) in O. rewrite impulse_len in O. rewrite (get_mk (HA := CRing_R)) in O by auto. etransitivity; [|exact O].
    unfold outputs. rewrite impulse_len, (get_mk (HA := CRing_R)) by auto. reflexivity.
Qed.
Print Assumptions C77_warp_is_warped_fir.
Lemma warp_get' lam td m : (m < length td)%nat -> get (warp_col lam td) m = rsum (length td) (fun k => get td k * get (chain (HA := CRing_R) lam k (unit_impulse (length td))) m).
Proof. intros. now apply (proj2 (warp_get lam td)). Qed.
(** Spec: the n-th output of the chain of k allpass filters (z^-1 - lambda) / (1 - lambda z^-1) on the impulse; each sample of the signal is spread over it.
    [allpass_chain] (C13) says Y 0 is the input and Y (k+1) the allpass of Y k. *)
Theorem C77_warp_spread lam td : exists Y, allpass_chain (HA := CRing_R) lam (unit_impulse (length td)) Y /\ length (warp_col lam td) = length td /\
  forall m, (m < length td)%nat -> get (warp_col lam td) m = rsum (length td) (fun k => get td k * get (Y k) m).
Proof.
  exists (fun k => chain (HA := CRing_R) lam k (unit_impulse (length td))). split; [apply chain_is_chain|]. apply warp_get.
Qed.
Print Assumptions C77_warp_spread.
Theorem C77_warp_zero td : warp_col 0 td = td.
Proof.
  apply list_ext_R with (N := length td); auto. apply warp_get. intros m Hm. rewrite warp_get' by auto.
  rewrite (sum_single (HA := CRing_R) (length td) m); [|auto|].
  2:{ intros k Hk Hne. rewrite (chain_0 (HA := CRing_R)) by (now rewrite impulse_len). change (@r0 R CRing_R) with 0. change (@rmul R CRing_R) with Rmult. destruct (Nat.leb_spec k m); [|ring].
      unfold unit_impulse. rewrite (get_mk (HA := CRing_R)) by lia. destruct (Nat.eqb_spec (m - k) 0); [lia|ring]. }
  rewrite (chain_0 (HA := CRing_R)) by (now rewrite impulse_len). rewrite Nat.leb_refl, Nat.sub_diag. unfold unit_impulse. rewrite (get_mk (HA := CRing_R)) by lia. cbn [Nat.eqb]. ring.
Qed.
Print Assumptions C77_warp_zero.
(** Warping acts linearly on the samples. *)
Theorem C77_warp_linear lam al be x y : length x = length y ->
  warp_col lam (mk (length x) (fun n => al * get x n + be * get y n)) = mk (length x) (fun n => al * get (warp_col lam x) n + be * get (warp_col lam y) n).
Proof.
  intros E. apply list_ext_R with (N := length x).
  - destruct (warp_get lam (mk (length x) (fun n => al * get x n + be * get y n))) as (L & _). now rewrite mk_length in L.
  - apply mk_length.
  - intros m Hm. rewrite (get_mk (HA := CRing_R)) by auto. rewrite !warp_get' by (rewrite ?mk_length; lia). rewrite mk_length, <- E.
    change (@rmul R CRing_R) with Rmult. rewrite <- !(sum_scal_l (HA := CRing_R)), <- (sum_add (HA := CRing_R)). apply (sum_ext (HA := CRing_R)). intros k Hk. rewrite (get_mk (HA := CRing_R)) by auto.
    change (@rmul R CRing_R) with Rmult. change (@radd R CRing_R) with Rplus. ring.
Qed.
Print Assumptions C77_warp_linear.
Lemma warp_two lam a b : warp_col lam [a; b] = [a - lam * b; (1 - lam * lam) * b].
Proof. unfold warp_col. cbn. unfold warp_stage. cbn. unfold get. cbn. f_equal; [|f_equal]; ring. Qed.
(** Doc: "To pre-warp a signal, pass a negative warping factor. To de-warp it, use the same positive warping factor." The allpass responses are cut at the length
    of the signal, so de-warping does not give the signal back: already with two samples it never does, unless the factor or the last sample is zero. *)
Theorem C77_dewarping_refuted : ~ (forall lam x, Rabs lam < 1 -> warp_col (- lam) (warp_col lam x) = x) /\
  forall lam a b, Rabs lam < 1 -> (warp_col (- lam) (warp_col lam [a; b]) = [a; b] <-> lam = 0 \/ b = 0).
Proof.
  assert (L : forall lam a b, Rabs lam < 1 -> (warp_col (- lam) (warp_col lam [a; b]) = [a; b] <-> lam = 0 \/ b = 0)).
  { intros lam a b Hl. apply Rabs_def2 in Hl. rewrite !warp_two. split.
    - intros E. injection E as E1 E2. destruct (Req_dec b 0) as [?|Hb]; auto. left.
      assert (Hq : (lam * lam) * (lam * lam - 2) = 0) by (apply (Rmult_eq_reg_r b); [|auto]; lra). apply Rmult_integral in Hq as [Hq|Hq]; nra.
    - intros [->| ->]; f_equal; [|f_equal|  |f_equal]; ring. }
  split; auto. intros H. specialize (H (1 / 2) [0; 1]). assert (A : Rabs (1 / 2) < 1) by (rewrite Rabs_pos_eq; lra). apply (proj1 (L _ _ _ A)) in H; auto. lra.
Qed.
Print Assumptions C77_dewarping_refuted.
Example C77_warp_example : warp_col (1 / 2) [1; 1] = [1 / 2; 3 / 4] /\ warp_col (- (1 / 2)) [1 / 2; 3 / 4] = [7 / 8; 9 / 16].
Proof. rewrite !warp_two. split; (f_equal; [|f_equal]); field. Qed.

Lemma wsum_two f u : wsum 2 f u = (f 0%nat + f 1%nat * cos u, - (f 1%nat * sin u)).
Proof.
  unfold wsum. cbn [sum]. change (@radd C CRing_C) with cadd. change (@r0 C CRing_C) with (rc 0). unfold cis. cbn [INR]. rewrite Rmult_0_r, Rmult_1_r, Ropp_0, cos_0, sin_0, cos_neg, sin_neg.
  apply c_ext; cbn; ring.
Qed.
(** The allpass filter of one warping stage has group delay (1 - l^2) / (1 + l^2 - 2 l cos w), which is the one sample of a plain delay exactly where
    cos w = l: the point fs / (2 pi) arccos l named in the documentation. *)
Theorem C77_warp_turning_point lam w : Rabs lam < 1 ->
  gd_at [- lam; 1] [1; - lam] w = (1 - lam * lam) / (1 + lam * lam - 2 * lam * cos w) /\
  (lam <> 0 -> (gd_at [- lam; 1] [1; - lam] w = 1 <-> cos w = lam)) /\ gd_at [- lam; 1] [1; - lam] (acos lam) = 1.
Proof.
  intros Hl. apply Rabs_def2 in Hl.
  assert (Hd : forall u, 0 < 1 + lam * lam - 2 * lam * cos u) by (intros u; pose proof (COS_bound u); destruct (Rle_dec 0 lam); [assert (0 <= lam * (1 - cos u)) by (apply Rmult_le_pos; lra)|assert (0 <= (- lam) * (1 + cos u)) by (apply Rmult_le_pos; lra)]; nra).
  assert (F : forall u, gd_at [- lam; 1] [1; - lam] u = (1 - lam * lam) / (1 + lam * lam - 2 * lam * cos u)).
  { intros u. pose proof (sin2_cos2 u) as Hsc. unfold Rsqr in Hsc. pose proof (Hd u) as D.
    assert (R1 : response [- lam; 1] u = (- lam + cos u, - sin u)) by (unfold response; cbn [length]; rewrite wsum_two; cbn; f_equal; ring).
    assert (R2 : response [1; - lam] u = (1 - lam * cos u, lam * sin u)) by (unfold response; cbn [length]; rewrite wsum_two; cbn; f_equal; ring).
    assert (Q1 : ramped [- lam; 1] u = (cos u, - sin u)) by (unfold ramped; cbn [length]; rewrite wsum_two; cbn; f_equal; ring).
    assert (Q2 : ramped [1; - lam] u = (- lam * cos u, lam * sin u)) by (unfold ramped; cbn [length]; rewrite wsum_two; cbn; f_equal; ring).
    assert (N1 : cabs2 (response [- lam; 1] u) = 1 + lam * lam - 2 * lam * cos u) by (rewrite R1; unfold cabs2; cbn; nra).
    assert (N2 : cabs2 (response [1; - lam] u) = 1 + lam * lam - 2 * lam * cos u) by (rewrite R2; unfold cabs2; cbn; nra).
    rewrite gd_at_tau; try discriminate.
    - unfold tau, re_ratio. fold (cabs2 (response [- lam; 1] u)). rewrite ?N1, ?N2. rewrite R1, R2, Q1, Q2. cbn. 
      replace (1 - lam * lam) with ((cos u * (- lam + cos u) + - sin u * - sin u) - (- lam * cos u * (1 - lam * cos u) + lam * sin u * (lam * sin u))) by nra. field. lra.
    - intros E. rewrite E in N1. unfold cabs2 in N1. cbn in N1. lra.
    - intros E. rewrite E in N2. unfold cabs2 in N2. cbn in N2. lra. }
  assert (G : forall u, cos u = lam -> gd_at [- lam; 1] [1; - lam] u = 1) by (intros u E; rewrite F, E; field; nra).
  split; [apply F|split].
  - intros Hn. split; [|apply G]. rewrite F. intros E. pose proof (Hd w) as D.
    assert (E' : 1 - lam * lam = 1 + lam * lam - 2 * lam * cos w) by (apply (Rmult_eq_reg_r (/ (1 + lam * lam - 2 * lam * cos w))); [|apply Rinv_neq_0_compat; lra]; unfold Rdiv in E; rewrite E; field; lra).
    apply (Rmult_eq_reg_l lam); [nra|auto].
  - apply G. apply cos_acos. lra.
Qed.
Print Assumptions C77_warp_turning_point.

(** ** The warping factor *)
Lemma prefix_spec p s : String.prefix p s = true <-> exists t, s = (p ++ t)%string.
Proof.
  assert (U : forall c d p s, String.prefix (String c p) (String d s) = if ascii_dec c d then String.prefix p s else false) by reflexivity.
  revert s. induction p as [|c p IH]; intros s; cbn [String.append].
  - split; intros _; [now exists s|]. destruct s; reflexivity.
  - destruct s as [|d s]; [split; [discriminate|intros (t & E); discriminate]|]. rewrite U. destruct (ascii_dec c d) as [->|Hn].
    + rewrite IH. split; intros (t & E); exists t; congruence.
    + split; [discriminate|intros (t & E); congruence].
Qed.
Lemma contains_spec p s : contains p s = true <-> exists a t, s = (a ++ p ++ t)%string.
Proof.
  assert (P : forall s, contains p s = true <-> (String.prefix p s = true \/ match s with EmptyString => False | String _ t => contains p t = true end)).
  { intros [|c t]; cbn [contains]; rewrite orb_true_iff; intuition discriminate. }
  induction s as [|c s IH]; rewrite P, prefix_spec.
  - split; [intros [(t & E)|[]]; exists EmptyString, t; auto|]. intros ([|? ?] & t & E); [left; now exists t|discriminate].
  - rewrite IH. split.
    + intros [(t & E)|(a & t & E)]; [exists EmptyString, t; auto|exists (String c a), t; cbn; congruence].
    + intros ([|d a] & t & E); [left; now exists t|right; exists a, t; cbn in E; congruence].
Qed.
Lemma last_char_spec s c : last_char s = Some c <-> exists a, s = (a ++ String c EmptyString)%string.
Proof.
  assert (P : forall d t, last_char (String d t) = match t with EmptyString => Some d | _ => last_char t end) by (intros d [|? ?]; reflexivity).
  induction s as [|d s IH].
  - split; [discriminate|intros ([|? ?] & E); discriminate].
  - rewrite P. destruct s as [|e s].
    + split. { intros E. injection E as ->. now exists EmptyString. } intros ([|f [|? ?]] & E); cbn in E; congruence.
    + rewrite IH. split; intros (a & E). { exists (String d a). cbn. congruence. } destruct a as [|f a]; cbn in E; [congruence|]. exists a. congruence.
Qed.
(** The factors of the two scales, as the code computes them from the sampling rate *)
Definition scale_factor (c0 c1 c2 f : R) : R := - (c0 * sqrt (2 / PI * atan (c1 * f)) + c2).
Definition bark_of (f : R) : R := scale_factor (10674 / 10000) (6583 / 100000) (- (1916 / 10000)) f.
Definition erb_of (f : R) : R := scale_factor (7446 / 10000) (1418 / 10000) (3237 / 100000) f.
Theorem C77_factor fs w : 
  (forall v, w = WFloat v -> (Rabs v < 1 -> warping_factor w fs = Ok v) /\ (1 <= Rabs v -> warping_factor w fs = Err AssertionError)) /\
  (w = WOther -> warping_factor w fs = Err TypeError) /\
  (forall s, w = WStr s ->
     (s = EmptyString -> warping_factor w fs = Err IndexError) /\
     (forall a c, s = (a ++ String c EmptyString)%string ->
        let sign := if (Ascii.eqb c "k" || Ascii.eqb c "b")%char then 1 else -1 in
        let has p := exists x y, s = (x ++ p ++ y)%string in
        (has "bark"%string -> warping_factor w fs = Ok (sign * bark_of fs)) /\
        (~ has "bark"%string -> has "erb"%string -> warping_factor w fs = Ok (sign * erb_of fs)) /\
        (~ has "bark"%string -> ~ has "erb"%string -> warping_factor w fs = Err ValueError))).
Proof.
  split; [|split].
  - intros v ->. cbn. split; intros H; destruct (Rlt_dec (Rabs v) 1); auto; lra.
  - intros ->. reflexivity.
  - intros s ->. split. intros ->; reflexivity. intros a c E sign has. assert (Lc : last_char s = Some c) by (apply last_char_spec; eauto). cbn [warping_factor]. rewrite Lc.
    assert (Sg : forall v, (if (Ascii.eqb c "k" || Ascii.eqb c "b")%char then v else v * -1) = sign * v) by (intros v; unfold sign; destruct (Ascii.eqb c "k" || Ascii.eqb c "b")%char; ring).
    rewrite !Sg. unfold has. rewrite <- !contains_spec.
    assert (B1 : bark_factor fs = bark_of fs) by (unfold bark_factor, bark_of, scale_factor; ring). assert (B2 : erb_factor fs = erb_of fs) by (unfold erb_factor, erb_of, scale_factor; ring). rewrite B1, B2.
    split; [|split].
    + intros H. now rewrite H.
    + intros H H'. apply not_true_is_false in H. now rewrite H, H'.
    + intros H H'. apply not_true_is_false in H, H'. now rewrite H, H'.
Qed.
Print Assumptions C77_factor.
Lemma root_atan c f : 0 < c -> 0 < f -> 0 < sqrt (2 / PI * atan (c * f)) < 1.
Proof.
  intros Hc Hf. pose proof PI_RGT_0 as Hp. pose proof (atan_bound (c * f)) as B. assert (A : 0 < atan (c * f)) by (rewrite <- atan_0; apply atan_increasing; nra).
  assert (Q : 0 < 2 / PI * atan (c * f) < 1).
  { split. apply Rmult_lt_0_compat; auto. apply Rdiv_lt_0_compat; lra. apply (Rmult_lt_reg_l (PI / 2)); [lra|]. replace (PI / 2 * (2 / PI * atan (c * f))) with (atan (c * f)) by (field; lra). lra. }
  split. apply sqrt_lt_R0; lra. rewrite <- sqrt_1. apply sqrt_lt_1; lra.
Qed.
(** Whatever the (positive) sampling rate, the factors of the two scales are admissible: with either sign the value lies in ]-1, 1[. The ERB factor is negative. *)
Theorem C77_factor_range fs : 0 < fs -> Rabs (bark_of fs) < 1 /\ Rabs (erb_of fs) < 1 /\ erb_of fs < 0.
Proof.
  intros Hf. pose proof (root_atan (6583 / 100000) fs ltac:(lra) Hf). pose proof (root_atan (1418 / 10000) fs ltac:(lra) Hf). unfold bark_of, erb_of, scale_factor.
  repeat split; try (apply Rabs_def1); lra.
Qed.
Print Assumptions C77_factor_range.
(** The reference cited by the code (Smith and Abel 1999, eqs. 26 and 30) states both formulas for the sampling rate in kHz; the code feeds in Hz. The factor it
    uses differs from the reference value at every sampling rate, and is always larger in magnitude: *)
Theorem C77_factor_units_refuted fs : 0 < fs -> bark_of fs < bark_of (fs / 1000) /\ erb_of fs < erb_of (fs / 1000).
Proof.
  intros Hf. pose proof PI_RGT_0 as Hp.
  assert (M : forall c, 0 < c -> sqrt (2 / PI * atan (c * (fs / 1000))) < sqrt (2 / PI * atan (c * fs))).
  { intros c Hc. assert (A : 0 < atan (c * (fs / 1000))) by (rewrite <- atan_0; apply atan_increasing; nra). assert (A2 : atan (c * (fs / 1000)) < atan (c * fs)) by (apply atan_increasing; nra).
    assert (P : 0 < 2 / PI) by (apply Rdiv_lt_0_compat; lra). apply sqrt_lt_1; nra. }
  pose proof (M (6583 / 100000) ltac:(lra)). pose proof (M (1418 / 10000) ltac:(lra)). unfold bark_of, erb_of, scale_factor. lra.
Qed.
Print Assumptions C77_factor_units_refuted.
Example C77_factor_example : warping_factor (WStr "bark-") 48000 = Ok (- bark_of 48000) /\ warping_factor (WStr "xerb") 48000 = Ok (erb_of 48000) /\ warping_factor (WStr "mel") 48000 = Err ValueError.
Proof. split; [|split]; cbn; [f_equal; unfold bark_factor, bark_of, scale_factor; ring|f_equal; unfold erb_factor, erb_of, scale_factor; ring|reflexivity]. Qed.

(** ** warp on signals *)
Lemma get_roll k x i : (k <= length x)%nat -> (i < length x)%nat -> get (roll_left k x) i = get x ((i + k) mod length x).
Proof.
  intros Hk Hi. unfold roll_left, get. destruct (Nat.lt_ge_cases i (length x - k)).
  - rewrite app_nth1 by (rewrite skipn_length; lia). rewrite nth_skipn, Nat.mod_small by lia. f_equal. lia.
  - rewrite app_nth2 by (rewrite skipn_length; lia). rewrite skipn_length, nth_firstn by lia. f_equal.
    replace (i + k)%nat with ((i - (length x - k)) + 1 * length x)%nat by lia. rewrite Nat.mod_add by lia. rewrite Nat.mod_small; lia.
Qed.
Lemma back_le a t i : (back a t i <= i)%nat.
Proof. induction i; cbn [back]; destruct (Rlt_dec _ _); lia. Qed.
(** The start of the impulse response which shift_ir moves to the front, per C56: [C56_start] says which sample it is. *)
Definition start_of (x : list R) : nat := match find_ir_start1 (-20) x with Ok i => i | Err _ => 0%nat end.
Lemma argmax_lt a : a <> [] -> (M_latency.argmax a < length a)%nat.
Proof. intros H. apply Claims_room.argmax_spec in H. tauto. Qed.
Lemma start_lt x : x <> [] -> find_ir_start1 (-20) x = Ok (start_of x) /\ (start_of x < length x)%nat.
Proof.
  intros H. unfold start_of. destruct x as [|v x]; [congruence|]. cbn [find_ir_start1]. split; auto. eapply Nat.le_lt_trans; [apply back_le|]. rewrite <- (map_length Rabs (v :: x)). apply argmax_lt. discriminate.
Qed.
(** The signal keeps its sampling rate and channels; its length is the smaller one of the old length and total_length. Channel c is the warped series whose sample
    i is the sample i (shift_ir False) or i + start modulo the length (shift_ir True) of the given channel. An inadmissible factor is an error; so is total_length = 0. *)
Theorem C77_warp_signal w fs shift total s n k : shape (s_re s) n k -> (1 <= n)%nat -> fs = IZR (s_fs s) ->
  (forall e, warping_factor w fs = Err e -> warp w shift total s = Err e) /\
  forall lam, warping_factor w fs = Ok lam ->
  (total = Some O -> warp w shift total s = Err IndexError) /\
  let m := match total with None => n | Some t => Nat.min t n end in
  ((1 <= k <= m)%nat -> (m * k <> 1)%nat -> exists s', warp w shift total s = Ok (s', lam) /\ s_im s' = None /\ s_fs s' = s_fs s /\ shape (s_re s') m k /\
    0 < s_scale s' <= 1 /\ (s_constr s = false -> s_scale s' = 1) /\
    forall c, (c < k)%nat -> let x := nth c (s_re s) [] in exists y, length y = m /\
      (forall i, (i < m)%nat -> get y i = get x (if shift then (i + start_of x) mod n else i)%nat) /\
      forall i, (i < m)%nat -> entry (s_re s') i c = s_scale s' * get (warp_col lam y) i).
Proof.
  intros Hs Hn ->. unfold warp. split. { intros e E. now rewrite E. } intros lam ->. cbn [bind].
  assert (Fx : forall x, In x (s_re s) -> length x = n) by (destruct Hs as (_ & F); now rewrite Forall_forall in F).
  set (g := fun x : list R => if shift then roll_left (start_of x) x else x).
  assert (E : (if shift then M_filter.all_ok (map (fun x => bind (find_ir_start1 (-20) x) (fun k0 => Ok (roll_left k0 x))) (s_re s)) else Ok (s_re s)) = Ok (map g (s_re s))).
  { unfold g. destruct shift; [|now rewrite map_id]. apply P_filter.all_ok_map. intros x Hx. destruct (start_lt x) as (-> & _); auto. intros ->. specialize (Fx _ Hx). cbn in Fx. lia. }
  assert (Lg : forall x, In x (s_re s) -> length (g x) = n).
  { intros x Hx. specialize (Fx x Hx). unfold g. destruct shift; auto. unfold roll_left. rewrite app_length, skipn_length, firstn_length. destruct (start_lt x); [intros ->; cbn in Fx; lia|lia]. }
  rewrite E. cbn [bind]. split. { intros ->. reflexivity. }
  set (m := match total with None => n | Some t => Nat.min t n end). intros Hk H1. assert (T0 : match total with Some O => true | _ => false end = false). { destruct total as [[|t]|]; auto. unfold m in Hk. cbn in Hk. lia. }
  rewrite T0.
  set (cut := fun x : list R => match total with None => x | Some t => firstn t x end).
  assert (Ec : match total with None => map g (s_re s) | Some t => map (firstn t) (map g (s_re s)) end = map (fun x => cut (g x)) (s_re s)). { unfold cut. destruct total; [now rewrite map_map|reflexivity]. }
  rewrite Ec, map_map.
  assert (Lc : forall x, In x (s_re s) -> length (cut (g x)) = m). { intros x Hx. specialize (Lg x Hx). unfold cut, m. destruct total; rewrite ?firstn_length, Lg; auto. }
  unfold set_data. pose proof (proj1 Hs) as Lk.
  destruct (stored (s_constr s) (s_fs s) (mkIn (map (fun x => warp_col lam (cut (g x))) (s_re s)) None false) m k) as (p & s' & P & Es & A & B & D & F & G & I); auto.
  { split; [|discriminate]. cbn [i_re]. rewrite <- Lk. apply shape_mk_map. intros x Hx. rewrite <- (Lc x Hx). apply warp_get. }
  cbn [i_re i_im] in *. exists s'. rewrite Es. cbn [bind]. split; [reflexivity|]. repeat (split; [assumption|]). split.
  { rewrite D. destruct (s_constr s); [|lra]. destruct (Rlt_dec 1 p) as [Hp|]; [|lra]. split. apply Rdiv_lt_0_compat; lra. apply (Rmult_le_reg_l p); [lra|]. replace (p * (1 / p)) with 1 by (field; lra). lra. }
  split. { intros Ef. now rewrite D, Ef. }
  intros c Hc. set (x := nth c (s_re s) []). assert (Hx : In x (s_re s)) by (apply nth_In; lia). exists (cut (g x)). split; [auto|]. split.
  - intros i Hi. assert (Ci : get (cut (g x)) i = get (g x) i). { unfold cut. destruct total as [t|]; auto. unfold get. apply nth_firstn. unfold m in Hi. lia. }
    rewrite Ci. unfold g. destruct shift; auto. rewrite <- (Fx x Hx). apply get_roll; [|rewrite (Fx x Hx); unfold m in Hi; destruct total; lia]. destruct (start_lt x); [|lia]. intros E0. specialize (Fx x Hx). rewrite E0 in Fx. cbn in Fx. lia.
  - intros i Hi. rewrite G by auto. rewrite (entry_map _ _ []) by lia. reflexivity.
Qed.
Print Assumptions C77_warp_signal.
(** Doc: total_length is the "Total length to use for the warped signal". It can only shorten: *)
Theorem C77_warp_length_refuted w shift t s n k s' lam : shape (s_re s) n k -> (1 <= k <= n)%nat -> (n * k <> 1)%nat -> (n < t)%nat ->
  warp w shift (Some t) s = Ok (s', lam) -> shape (s_re s') n k.
Proof.
  intros Hs Hk H1 Ht E. destruct (C77_warp_signal w (IZR (s_fs s)) shift (Some t) s n k Hs ltac:(lia) eq_refl) as (Er & Ok1).
  destruct (warping_factor w (IZR (s_fs s))) as [l|e] eqn:W; [|rewrite (Er e eq_refl) in E; discriminate].
  destruct (Ok1 l eq_refl) as (_ & H). cbn zeta in H. rewrite Nat.min_r in H by lia. destruct (H Hk H1) as (s2 & E2 & _ & _ & Sh & _). rewrite E2 in E. injection E as <- _. exact Sh.
Qed.
Print Assumptions C77_warp_length_refuted.

(** ** warp_filter *)
(** Spec: the transfer function of a filter with the given zeros, poles and gain, in powers of w = z^-1: k prod (1 - z_i w) / prod (1 - p_i w). *)
Fixpoint cprod (f : C -> C) (l : list C) : C := match l with [] => rc 1 | z :: t => cmul (f z) (cprod f t) end.
Fixpoint cpow (z : C) (n : nat) : C := match n with O => rc 1 | S m => cmul z (cpow z m) end.
Definition factor (w z : C) : C := csub (rc 1) (cmul z w).
Definition numer (f : zpk) (w : C) : C := let '(z, p, k) := f in cmul (rc k) (cprod (factor w) z).
Definition denom (f : zpk) (w : C) : C := let '(z, p, k) := f in cprod (factor w) p.
Definition h_at (f : zpk) (w : C) : C := cmul (numer f w) (cinv (denom f w)).
(** The allpass substitution of the documentation, z^-1 -> (z^-1 - lambda) / (1 - lambda z^-1) *)
Definition psi (lam : R) (w : C) : C := cmul (csub w (rc lam)) (cinv (factor w (rc lam))).
Definition lift (lam : R) (z : C) : C := cadd (rc 1) (cmul (rc lam) z).
Lemma cmul_nz a b : a <> rc 0 -> b <> rc 0 -> cmul a b <> rc 0.
Proof. intros A B E. apply cmul_zero in E as [E|E]; auto. Qed.
Lemma cprod_nz f l : (forall z, In z l -> f z <> rc 0) -> cprod f l <> rc 0.
Proof. induction l as [|z l IH]; intros H; cbn [cprod]. { intros E. apply (f_equal fst) in E. cbn in E. lra. } apply cmul_nz; [apply H; now left|apply IH; intros; apply H; now right]. Qed.
Lemma cprod_app f a b : cprod f (a ++ b) = cmul (cprod f a) (cprod f b).
Proof. induction a as [|z a IH]; cbn [app cprod]. now rewrite cmul_rc1. now rewrite IH, cmul_assoc. Qed.
Lemma cprod_repeat f z n : cprod f (repeat z n) = cpow (f z) n.
Proof. induction n; cbn [repeat cprod cpow]; congruence. Qed.
Lemma cpow_add z m n : cpow z (m + n) = cmul (cpow z m) (cpow z n).
Proof. induction m; cbn [Nat.add cpow]. now rewrite cmul_rc1. now rewrite IHm, cmul_assoc. Qed.
Lemma cpow_nz z n : z <> rc 0 -> cpow z n <> rc 0.
Proof. intros H. induction n; cbn [cpow]. { intros E. apply (f_equal fst) in E. cbn in E. lra. } now apply cmul_nz. Qed.
Lemma all_some_spec {T U} (f : T -> option U) l r : all_some (map f l) = Some r <-> map f l = map Some r.
Proof.
  revert r. induction l as [|v l IH]; intros r; cbn [map all_some].
  - split. intros E; injection E as <-; reflexivity. destruct r; [reflexivity|discriminate].
  - destruct (f v) as [u|] eqn:E.
    + split. * destruct (all_some (map f l)) as [r'|] eqn:E'; [|discriminate]. cbn. intros Q. injection Q as <-. cbn [map]. f_equal. now apply IH.
      * destruct r as [|u' r]; [discriminate|]. cbn [map]. intros Q. injection Q as -> Q. apply IH in Q. now rewrite Q.
    + split; [discriminate|]. destruct r; discriminate.
Qed.
Lemma warp_root_some lam z z' : warp_root lam z = Some z' <-> lift lam z <> rc 0 /\ cmul z' (lift lam z) = cadd (rc lam) z.
Proof.
  unfold warp_root, lift. set (d := cadd (rc 1) (cmul (rc lam) z)). unfold cdiv. destruct (c_is_zero d) eqn:E.
  - apply c_is_zero_spec in E. split; [discriminate|tauto].
  - assert (D : d <> rc 0) by (intros H; apply c_is_zero_spec in H; congruence). split.
    + intros Q. injection Q as <-. split; auto. rewrite <- cmul_assoc, Claims_deconv.cinv_l by auto. apply c_ext; cbn; ring.
    + intros (_ & Q). f_equal. rewrite <- Q, <- cmul_assoc, Claims_deconv.cinv_r by auto. apply c_ext; cbn; ring.
Qed.
(** For every filter and admissible factor, the warped transfer function is the given one at the substituted point, times a constant: no other change. The constant is the
    product of 1 + lambda p over the poles divided by the one over the zeros. *)
Lemma factor_psi lam w z z' : factor w (rc lam) <> rc 0 -> cmul z' (lift lam z) = cadd (rc lam) z ->
  cmul (factor (psi lam w) z) (factor w (rc lam)) = cmul (lift lam z) (factor w z').
Proof.
  intros Hd Hz. set (d := factor w (rc lam)) in *. unfold factor at 1, psi. fold d.
  transitivity (csub d (cmul z (csub w (rc lam)))).
  - transitivity (csub d (cmul z (cmul (csub w (rc lam)) (cmul (cinv d) d)))). apply c_ext; cbn; ring. rewrite Claims_deconv.cinv_l by auto. apply c_ext; cbn; ring.
  - transitivity (csub (lift lam z) (cmul (cmul z' (lift lam z)) w)).
    + rewrite Hz. unfold d, factor, lift. apply c_ext; cbn; ring.
    + unfold factor. apply c_ext; cbn; ring.
Qed.
Lemma cprod_psi lam w l r : factor w (rc lam) <> rc 0 -> map (warp_root lam) l = map Some r ->
  cmul (cprod (factor (psi lam w)) l) (cpow (factor w (rc lam)) (length l)) = cmul (cprod (lift lam) l) (cprod (factor w) r) /\ length r = length l /\ forall z, In z l -> lift lam z <> rc 0.
Proof.
  intros Hd. revert r. induction l as [|z l IH]; intros [|z' r] E; try discriminate.
  - cbn. split; [apply c_ext; cbn; ring|split; [auto|tauto]].
  - cbn [map] in E. injection E as E1 E2. apply warp_root_some in E1 as (E0 & E1). destruct (IH r E2) as (A & B & D). split; [|split; [cbn; lia|intros v [<-|Hv]; auto]].
    cbn [cprod cpow length].
    transitivity (cmul (cmul (factor (psi lam w) z) (factor w (rc lam))) (cmul (cprod (factor (psi lam w)) l) (cpow (factor w (rc lam)) (length l)))). apply c_ext; cbn; ring.
    rewrite A, (factor_psi lam w z z' Hd E1). apply c_ext; cbn; ring.
Qed.
Lemma cancel a b c : c <> rc 0 -> cmul a c = cmul b c -> a = b.
Proof. intros H E. apply (f_equal (fun v => cmul v (cinv c))) in E. rewrite <- !cmul_assoc, Claims_deconv.cinv_r in E by auto. rewrite (cmul_comm a), (cmul_comm b), !cmul_rc1 in E. exact E. Qed.
Theorem C77_warp_filter lam f f' w : warp_filter lam f = Ok (Some f') -> factor w (rc lam) <> rc 0 -> denom f (psi lam w) <> rc 0 ->
  let '(z, p, k) := f in
  cprod (lift lam) p <> rc 0 /\ denom f' w <> rc 0 /\ length (fst (fst f')) = length (snd (fst f')) /\ snd f' = k /\
  cmul (h_at f' w) (cprod (lift lam) z) = cmul (h_at f (psi lam w)) (cprod (lift lam) p).
Proof.
  destruct f as ((z & p) & k). unfold warp_filter. destruct (Rlt_dec (Rabs lam) 1) as [Hl|]; [|discriminate]. intros E Hd Hn.
  destruct (all_some (map (warp_root lam) p)) as [p'|] eqn:Ep; [|discriminate]. destruct (all_some (map (warp_root lam) z)) as [z'|] eqn:Ez; [|discriminate]. injection E as <-.
  apply all_some_spec in Ep, Ez. destruct (cprod_psi lam w p p' Hd Ep) as (A & B & D). destruct (cprod_psi lam w z z' Hd Ez) as (A' & B' & D').
  assert (Np : cprod (lift lam) p <> rc 0) by (now apply cprod_nz). assert (Nz : cprod (lift lam) z <> rc 0) by (now apply cprod_nz).
  unfold h_at, numer, denom in *. cbn [fst snd]. rewrite !cprod_app, !cprod_repeat. set (dd := factor w (rc lam)) in *.
  set (P := cprod (factor (psi lam w)) p) in *. set (Z := cprod (factor (psi lam w)) z) in *. set (P' := cprod (factor w) p') in *. set (Z' := cprod (factor w) z') in *.
  set (lp := cprod (lift lam) p) in *. set (lz := cprod (lift lam) z) in *.
  assert (A1 : cmul P (cpow dd (Nat.max (length p) (length z))) = cmul lp (cmul P' (cpow dd (length z - length p)))).
  { replace (Nat.max (length p) (length z)) with (length p + (length z - length p))%nat by lia. rewrite cpow_add, cmul_assoc, A, cmul_assoc. reflexivity. }
  assert (A2 : cmul Z (cpow dd (Nat.max (length p) (length z))) = cmul lz (cmul Z' (cpow dd (length p - length z)))).
  { replace (Nat.max (length p) (length z)) with (length z + (length p - length z))%nat by lia. rewrite cpow_add, cmul_assoc, A', cmul_assoc. reflexivity. }
  set (M := cpow dd (Nat.max (length p) (length z))) in *. assert (NM : M <> rc 0) by (now apply cpow_nz).
  set (Pn := cmul P' (cpow dd (length z - length p))) in *. set (Zn := cmul Z' (cpow dd (length p - length z))) in *.
  assert (NP : Pn <> rc 0). { intros E0. rewrite E0 in A1. assert (Q : cmul P M <> rc 0) by (now apply cmul_nz). apply Q. rewrite A1. apply c_ext; cbn; ring. }
  split; [auto|]. split; [auto|]. split; [rewrite !app_length, !repeat_length; lia|]. split; [reflexivity|].
  apply (cancel _ _ (cmul (cmul P Pn) M)). { apply cmul_nz; [apply cmul_nz|]; assumption. }
  transitivity (cmul (cmul (cmul (rc k) (cmul lz Zn)) (cmul P M)) (cmul (cinv Pn) Pn)). apply c_ext; cbn; ring. rewrite Claims_deconv.cinv_l by auto.
  transitivity (cmul (cmul (cmul (rc k) (cmul Z M)) (cmul lp Pn)) (cmul (cinv P) P)). 2:{ apply c_ext; cbn; ring. } rewrite Claims_deconv.cinv_l by auto.
  rewrite A1, A2. reflexivity.
Qed.
Print Assumptions C77_warp_filter.
(** With an inadmissible factor the call fails; a warped filter exists exactly if no zero or pole lies at - 1 / lambda, hence always for a stable minimum phase filter. *)
Lemma lift_nz lam z : Rabs lam < 1 -> cabs2 z <= 1 -> lift lam z <> rc 0.
Proof.
  intros Hl Hz E. apply Rabs_def2 in Hl. unfold lift in E. pose proof (f_equal fst E) as E1. pose proof (f_equal snd E) as E2. unfold cabs2 in Hz. destruct z as (a, b). cbn in *.
  assert (Ea : lam * a = -1) by lra. assert (Hp : (lam * a) * (lam * a) = 1) by (rewrite Ea; ring). assert (a * a <= 1) by nra. assert (lam * lam < 1) by nra. nra.
Qed.
Lemma all_some_ok lam l : (forall z, In z l -> lift lam z <> rc 0) <-> exists r, all_some (map (warp_root lam) l) = Some r.
Proof.
  induction l as [|z l IH]; cbn [map all_some]. { split; [eauto|intros _ ? []]. }
  assert (W : lift lam z <> rc 0 <-> exists z', warp_root lam z = Some z').
  { split. intros H. unfold warp_root, cdiv. destruct (c_is_zero _) eqn:E; eauto. apply c_is_zero_spec in E. contradiction. intros (z' & H). now apply warp_root_some in H. }
  split.
  - intros H. destruct (proj1 W) as (z' & ->). apply H; now left. destruct (proj1 IH) as (r & ->). intros; apply H; now right. cbn. eauto.
  - intros (r & E). destruct (warp_root lam z) as [z'|] eqn:Ez; [|discriminate]. destruct (all_some (map (warp_root lam) l)) as [r'|] eqn:El; [|discriminate].
    intros v [<-|Hv]. apply W; eauto. apply IH; eauto.
Qed.
Theorem C77_warp_filter_defined lam z p k :
  (1 <= Rabs lam -> warp_filter lam (z, p, k) = Err AssertionError) /\
  (Rabs lam < 1 -> ((exists f', warp_filter lam (z, p, k) = Ok (Some f')) <-> forall r, In r (z ++ p) -> cadd (rc 1) (cmul (rc lam) r) <> rc 0)) /\
  (Rabs lam < 1 -> (forall r, In r (z ++ p) -> cabs2 r <= 1) -> exists f', warp_filter lam (z, p, k) = Ok (Some f')).
Proof.
  assert (G : Rabs lam < 1 -> ((exists f', warp_filter lam (z, p, k) = Ok (Some f')) <-> forall r, In r (z ++ p) -> lift lam r <> rc 0)).
  { intros Hl. unfold warp_filter. destruct (Rlt_dec (Rabs lam) 1) as [_|]; [|lra]. split.
    - intros (f' & E). destruct (all_some (map (warp_root lam) p)) as [p'|] eqn:Ep; [|discriminate]. destruct (all_some (map (warp_root lam) z)) as [z'|] eqn:Ez; [|discriminate].
      intros r Hr. apply in_app_or in Hr as [Hr|Hr]; [apply (proj2 (all_some_ok lam z))|apply (proj2 (all_some_ok lam p))]; eauto.
    - intros H. destruct (proj1 (all_some_ok lam p)) as (p' & ->). { intros; apply H, in_or_app; auto. } destruct (proj1 (all_some_ok lam z)) as (z' & ->). { intros; apply H, in_or_app; auto. } eauto. }
  split; [|split; [exact G|]].
  - intros H. unfold warp_filter. destruct (Rlt_dec (Rabs lam) 1); [lra|reflexivity].
  - intros Hl H. apply G; auto. intros r Hr. apply lift_nz; auto.
Qed.
Print Assumptions C77_warp_filter_defined.
(** Warping keeps a filter stable (all poles strictly inside the unit circle), and minimum phase: the poles (zeros) of the warped filter are all inside the unit circle
    if and only if those of the given filter are. *)
Lemma root_inside lam z z' : Rabs lam < 1 -> warp_root lam z = Some z' -> (cabs2 z' < 1 <-> cabs2 z < 1).
Proof.
  intros Hl E. apply warp_root_some in E as (E0 & E1). apply Rabs_def2 in Hl.
  assert (Q : cabs2 z' * cabs2 (lift lam z) = cabs2 (cadd (rc lam) z)) by (rewrite <- cabs2_mul; now rewrite E1).
  assert (L0 : 0 < cabs2 (lift lam z)). { pose proof (cabs2_nonneg (lift lam z)) as H. destruct (Req_dec (cabs2 (lift lam z)) 0) as [Hz|]; [|lra]. apply cabs2_zero in Hz. contradiction. }
  assert (D : cabs2 (lift lam z) - cabs2 (cadd (rc lam) z) = (1 - lam * lam) * (1 - cabs2 z)) by (unfold cabs2, lift; destruct z; cbn; ring).
  assert (lam * lam < 1) by nra. split; intros H1; nra.
Qed.
Theorem C77_warp_stable lam z p k z' p' k' : warp_filter lam (z, p, k) = Ok (Some (z', p', k')) ->
  ((forall r, In r p' -> cabs2 r < 1) <-> forall r, In r p -> cabs2 r < 1) /\ ((forall r, In r z' -> cabs2 r < 1) <-> forall r, In r z -> cabs2 r < 1).
Proof.
  unfold warp_filter. destruct (Rlt_dec (Rabs lam) 1) as [Hl|]; [|discriminate]. intros E.
  destruct (all_some (map (warp_root lam) p)) as [q|] eqn:Ep; [|discriminate]. destruct (all_some (map (warp_root lam) z)) as [y|] eqn:Ez; [|discriminate]. injection E as <- <- <-.
  apply all_some_spec in Ep, Ez.
  assert (G : forall l r n, map (warp_root lam) l = map Some r -> ((forall v, In v (r ++ repeat (rc lam) n) -> cabs2 v < 1) <-> forall v, In v l -> cabs2 v < 1)).
  { intros l r n. revert r. induction l as [|v l IH]; intros [|v' r] E; try discriminate.
    - cbn [app]. split; [intros _ ? []|]. intros _ v Hv. apply repeat_spec in Hv as ->. apply Rabs_def2 in Hl. unfold cabs2. cbn. nra.
    - cbn [map] in E. injection E as E1 E2. specialize (IH r E2). split.
      + intros H u [<-|Hu]. { apply (root_inside lam v v' Hl E1). apply H. left. reflexivity. } apply (proj1 IH); [|exact Hu]. intros t Ht. apply H. right. exact Ht.
      + intros H u [<-|Hu]. { apply (root_inside lam v v' Hl E1). apply H. left. reflexivity. } apply (proj2 IH); [|exact Hu]. intros t Ht. apply H. right. exact Ht. }
  split; now apply G.
Qed.
Print Assumptions C77_warp_stable.
(** The magnitude response is re-sampled, not reshaped: the substituted point lies on the unit circle exactly if w does; 0 Hz and half the sampling rate stay in place. *)
Theorem C77_warp_circle lam w : Rabs lam < 1 -> factor w (rc lam) <> rc 0 -> (cabs2 (psi lam w) = 1 <-> cabs2 w = 1) /\ psi lam (rc 1) = rc 1 /\ psi lam (rc (-1)) = rc (-1).
Proof.
  intros Hl Hd. apply Rabs_def2 in Hl. split; [|split].
  - assert (Q : cabs2 (psi lam w) * cabs2 (factor w (rc lam)) = cabs2 (csub w (rc lam))).
    { rewrite <- cabs2_mul. unfold psi. rewrite <- cmul_assoc, Claims_deconv.cinv_l by auto. f_equal. apply c_ext; cbn; ring. }
    assert (L0 : 0 < cabs2 (factor w (rc lam))). { pose proof (cabs2_nonneg (factor w (rc lam))) as H. destruct (Req_dec (cabs2 (factor w (rc lam))) 0) as [Hz|]; [|lra]. apply cabs2_zero in Hz. contradiction. }
    assert (D : cabs2 (factor w (rc lam)) - cabs2 (csub w (rc lam)) = (1 - lam * lam) * (1 - cabs2 w)) by (unfold cabs2, factor; destruct w; cbn; ring).
    assert (lam * lam < 1) by nra. split; intros H1; nra.
  - unfold psi, factor. apply c_ext; cbn; field; nra.
  - unfold psi, factor. apply c_ext; cbn; field; nra.
Qed.
Print Assumptions C77_warp_circle.
(** Warping back with the negated factor restores the transfer function at every point. *)
Lemma root_back lam z z' : Rabs lam < 1 -> warp_root lam z = Some z' -> warp_root (- lam) z' = Some z.
Proof.
  intros Hl E. apply warp_root_some in E as (E0 & E1). apply warp_root_some. apply Rabs_def2 in Hl.
  assert (Q : cmul (lift (- lam) z') (lift lam z) = rc (1 - lam * lam)).
  { transitivity (csub (lift lam z) (cmul (rc lam) (cmul z' (lift lam z)))). unfold lift. apply c_ext; cbn; ring. rewrite E1. unfold lift. apply c_ext; cbn; ring. }
  split.
  - intros Z. rewrite Z in Q. apply (f_equal fst) in Q. cbn in Q. nra.
  - apply (cancel _ _ (lift lam z) E0). rewrite <- cmul_assoc, Q.
    transitivity (cadd (cmul (rc (- lam)) (lift lam z)) (cmul z' (lift lam z))). rewrite E1. unfold lift. apply c_ext; cbn; ring. apply c_ext; cbn; ring.
Qed.
Theorem C77_warp_filter_back lam f f' : warp_filter lam f = Ok (Some f') ->
  exists f2, warp_filter (- lam) f' = Ok (Some f2) /\ (length (fst (fst f)) = length (snd (fst f)) -> f2 = f) /\ forall w, h_at f2 w = h_at f w.
Proof.
  destruct f as ((z & p) & k). unfold warp_filter at 1. destruct (Rlt_dec (Rabs lam) 1) as [Hl|]; [|discriminate]. intros E.
  destruct (all_some (map (warp_root lam) p)) as [q|] eqn:Ep; [|discriminate]. destruct (all_some (map (warp_root lam) z)) as [y|] eqn:Ez; [|discriminate]. injection E as <-.
  apply all_some_spec in Ep, Ez.
  assert (Z0 : warp_root (- lam) (rc lam) = Some (rc 0)).
  { apply warp_root_some. pose proof Hl as Hl'. apply Rabs_def2 in Hl'. split. unfold lift. intros E. apply (f_equal fst) in E. cbn in E. nra. apply c_ext; cbn; ring. }
  assert (G : forall l r n, map (warp_root lam) l = map Some r -> map (warp_root (- lam)) (r ++ repeat (rc lam) n) = map Some (l ++ repeat (rc 0) n)).
  { intros l r n. revert r. induction l as [|v l IH]; intros [|v' r] E; try discriminate.
    - cbn [app]. clear E. induction n; cbn [repeat map]; [reflexivity|]. now rewrite Z0, IHn.
    - cbn [map] in E. injection E as E1 E2. cbn [app map]. rewrite (root_back lam v v' Hl E1). f_equal. auto. }
  assert (Lp : length q = length p) by (apply (f_equal (@length _)) in Ep; rewrite !map_length in Ep; auto). assert (Lz : length y = length z) by (apply (f_equal (@length _)) in Ez; rewrite !map_length in Ez; auto).
  unfold warp_filter. destruct (Rlt_dec (Rabs (- lam)) 1) as [|Hn]; [|rewrite Rabs_Ropp in Hn; lra].
  pose proof (G p q (length z - length p)%nat Ep) as Gp. pose proof (G z y (length p - length z)%nat Ez) as Gz. apply all_some_spec in Gp, Gz. rewrite Gp, Gz.
  eexists. split; [reflexivity|].
  rewrite !app_length, !repeat_length, Lp, Lz.
  replace (length p + (length z - length p) - (length z + (length p - length z)))%nat with 0%nat by lia. replace (length z + (length p - length z) - (length p + (length z - length p)))%nat with 0%nat by lia.
  cbn [repeat]. rewrite !app_nil_r. split.
  - cbn [fst snd]. intros E. rewrite E, Nat.sub_diag. cbn [repeat]. now rewrite !app_nil_r.
  - intros w. assert (O : forall n, cpow (factor w (rc 0)) n = rc 1). { induction n; cbn [cpow]; auto. rewrite IHn. unfold factor. apply c_ext; cbn; ring. }
    unfold h_at, numer, denom. rewrite !cprod_app, !cprod_repeat, !O. rewrite (cmul_comm (cprod _ z)), (cmul_comm (cprod _ p)), !cmul_rc1. reflexivity.
Qed.
Print Assumptions C77_warp_filter_back.
(** Doc: "The overall filter gain of the filter is not modified by this function." The number k is kept, but the response is not: the gain at 0 Hz, where the
    substitution does nothing, changes. One pole at 1/2 warped with 1/2: 2 becomes 5/2. *)
Theorem C77_warp_gain_refuted : ~ (forall lam f f', warp_filter lam f = Ok (Some f') -> denom f (rc 1) <> rc 0 -> h_at f' (rc 1) = h_at f (rc 1)) /\
  exists f', warp_filter (1 / 2) ([], [rc (1 / 2)], 1) = Ok (Some f') /\ h_at ([], [rc (1 / 2)], 1) (rc 1) = rc 2 /\ h_at f' (rc 1) = rc (5 / 2).
Proof.
  assert (A : Rabs (1 / 2) < 1) by (rewrite Rabs_pos_eq; lra).
  assert (W : warp_root (1 / 2) (rc (1 / 2)) = Some (rc (4 / 5))).
  { apply warp_root_some. split. unfold lift. intros E. apply (f_equal fst) in E. cbn in E. lra. unfold lift. apply c_ext; cbn; field. }
  assert (E : warp_filter (1 / 2) ([], [rc (1 / 2)], 1) = Ok (Some ([rc (1 / 2)], [rc (4 / 5)], 1))).
  { unfold warp_filter. destruct (Rlt_dec (Rabs (1 / 2)) 1); [|lra]. cbn [map all_some]. rewrite W. reflexivity. }
  assert (H1 : h_at ([], [rc (1 / 2)], 1) (rc 1) = rc 2) by (unfold h_at, numer, denom, factor; cbn [cprod]; apply c_ext; cbn; field).
  assert (H2 : h_at ([rc (1 / 2)], [rc (4 / 5)], 1) (rc 1) = rc (5 / 2)) by (unfold h_at, numer, denom, factor; cbn [cprod]; apply c_ext; cbn; field).
  split; [|eauto]. intros H. specialize (H _ _ _ E). rewrite H1, H2 in H. assert (Q : rc (5 / 2) = rc 2). { apply H. unfold denom, factor. cbn [cprod]. intros Z. apply (f_equal fst) in Z. cbn in Z. lra. } apply (f_equal fst) in Q. cbn in Q. lra.
Qed.
Print Assumptions C77_warp_gain_refuted.
Example C77_warp_filter_example : exists f', warp_filter (1 / 2) ([], [rc (1 / 2)], 1) = Ok (Some f') /\ factor (rc (1 / 3)) (rc (1 / 2)) <> rc 0 /\
  denom ([], [rc (1 / 2)], 1) (psi (1 / 2) (rc (1 / 3))) <> rc 0 /\ psi (1 / 2) (rc (1 / 3)) = rc (- (1 / 5)).
Proof.
  destruct (proj2 C77_warp_gain_refuted) as (f' & E & _). exists f'. split; auto.
  assert (P : psi (1 / 2) (rc (1 / 3)) = rc (- (1 / 5))) by (unfold psi, factor; apply c_ext; cbn; field).
  split; [|split; auto]. unfold factor; intros Z; apply (f_equal fst) in Z; cbn in Z; lra. rewrite P. unfold denom, factor. cbn [cprod]. intros Z. apply (f_equal fst) in Z. cbn in Z. lra.
Qed.
Example C77_warp_signal_example : warping_factor (WFloat (1 / 2)) 48000 = Ok (1 / 2) /\ start_of [0; 1/20; 1/2; -1; 1/3] = 1%nat /\
  shape [[0; 1/20; 1/2; -1; 1/3]] 5 1 /\ roll_left 1 [0; 1/20; 1/2; -1; 1/3] = [1/20; 1/2; -1; 1/3; 0].
Proof.
  assert (A : Rabs (1 / 2) < 1) by (rewrite Rabs_pos_eq; lra). split; [cbn; destruct (Rlt_dec _ _); [reflexivity|lra]|].
  split; [unfold start_of; now rewrite Claims_room.C56_start_example|]. split; [|reflexivity]. split; [reflexivity|]. repeat constructor.
Qed.
