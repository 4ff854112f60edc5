(** Properties C01-C06: the sample-wise real-time filters. *)
From Coq Require Import List Arith Lia ZArith Reals Lra QArith Qcanon.
From Verif Require Import Alg Spec M_realtime P_realtime P_realtime2.
Import ListNotations.
Local Open Scope nat_scope.

(** ** C01 *)
Theorem C01_fir_is_convolution :
  forall (A : Type) (HA : CRing A) (b : list A) (ops : list (rt_op A)), 2 <= length b ->
  rt_run (fir_filter b) ops = ref_run (fun _ => true) (fun h => conv b h (length h - 1)) ops.
Proof. intros. now apply fir_refines. Qed.
Print Assumptions C01_fir_is_convolution.

Theorem C01_single_coefficient_raises :
  forall (A : Type) (HA : CRing A) (b0 x : A) st ch,
  exists e, snd (rt_step (fir_filter [b0]) st (Proc x ch)) = Raise e.
Proof. intros. apply fir_single_raises. Qed.
Print Assumptions C01_single_coefficient_raises.

Example C01_example :
  rt_run (fir_filter [2;3;5]%Z) [SetN 2; Proc 1%Z 0; Proc 10%Z (-1); Proc 4%Z 0; Proc 1%Z 0; Reset; Proc 7%Z 0; Proc 1%Z 2]
  = [Done; Val 2; Val 20; Val 11; Val 19; Done; Val 14; Raise IndexError]%Z.
Proof. reflexivity. Qed.

(** ** C02 *)
Theorem C02_iir_difference_equation :
  forall (A : Type) (HF : CField A) (b a : list A),
  2 <= max (length b) (length a) -> get a 0 <> r0 ->
  exists F : list A -> A,
    (forall ops, rt_run (iir_filter b a) ops = ref_run (fun _ => true) F ops) /\
    (forall x, diff_eq b a x (outputs F x)).
Proof.
  intros A HF b a H Ha. exists (iir_F b a). split; intros.
  - now apply iir_refines.
  - now apply iir_diff_eq.
Qed.
Print Assumptions C02_iir_difference_equation.

Theorem C02_order_zero_raises :
  forall (A : Type) (HF : CField A) (b0 a0 x : A) st ch,
  exists e, snd (rt_step (iir_filter [b0] [a0]) st (Proc x ch)) = Raise e.
Proof. intros. apply iir_order0_raises. Qed.
Print Assumptions C02_order_zero_raises.

(** b = [2], a = [2, -1, 4]: y[n] = x[n] + y[n-1]/2 - 2 y[n-2]. *)
Example C02_example :
  map (fun o => match o with Val y => Some (this y) | _ => None end)
    (rt_run (iir_filter [Q2Qc 2] [Q2Qc 2; Q2Qc (-1); Q2Qc 4]) [Proc (Q2Qc 1) 0; Proc (Q2Qc 0) 0; Proc (Q2Qc 0) 0; Reset; Proc (Q2Qc 4) 0])
  = [Some 1; Some (1 # 2); Some (-7 # 4); None; Some 4]%Q.
Proof. vm_compute. reflexivity. Qed.

(** ** C03 *)
Theorem C03_state_space_markov :
  forall (A : Type) (HA : CRing A) (MA : list (list A)) (B C : list A) (D : A),
  2 <= length MA -> Forall (fun row => length row = length MA) MA ->
  length B = length MA -> length C = length MA ->
  exists f, ss_new MA B C D = Ok f /\
    forall ops, rt_run f ops = ref_run (fun _ => true) (ss_output MA B C D) ops.
Proof.
  intros A HA MA B C D Hn HR HB HC. exists (ss_filter MA B C D). split.
  - unfold ss_new. destruct MA as [|r MA]; simpl in *; [lia|].
    inversion HR; subst. rewrite H1, HB. simpl.
    rewrite Nat.eqb_refl. simpl. destruct (Nat.eqb_spec (length MA) 0); simpl; try lia. reflexivity.
  - intros ops. rewrite ss_refines by auto. apply ref_run_ext. intros. symmetry. now apply ss_spec_eq.
Qed.
Print Assumptions C03_state_space_markov.

Theorem C03_order_one_cannot_be_built :
  forall (A : Type) (HA : CRing A) (a b c d : A), ss_new [[a]] [b] [c] d = Err IndexError.
Proof. reflexivity. Qed.
Print Assumptions C03_order_one_cannot_be_built.

Example C03_example :
  exists f, ss_new [[1;2];[3;4]]%Z [5;6]%Z [7;8]%Z 9%Z = Ok f /\
  rt_run f [Proc 1 0; Proc 0 0; Proc 0 0; Proc 2 0]%Z = [Val 9; Val 83; Val 431; Val 2339]%Z.
Proof. eexists. split; [reflexivity|]. vm_compute. reflexivity. Qed.

(** ** C04 *)
Theorem C04_state_variable_filter :
  forall (fs : Z) (f res : R), sv_params_ok fs f -> (0 < res)%R ->
  let g := sv_g fs f in
  exists F : list R -> R * R * R * R,
    (forall ops, rt_run (sv_filter g res) ops = ref_run (fun n => 1 <=? n) F ops) /\
    (forall h x, let '(lp, hp, bp, ap) := F (h ++ [x]) in
       (lp + res * bp + hp = x /\ ap = x - 2 * res * bp)%R) /\
    (forall h x, let '(lp, hp, bp, ap) := F (h ++ [x]) in
       (sum (length (h ++ [x])) (fun n => get (h ++ [x]) n * get (h ++ [x]) n)
        = sum (length (h ++ [x])) (fun n => let y := snd (F (firstn (S n) (h ++ [x]))) in y * y)
          + res / g * ((g * hp + bp) * (g * hp + bp) + (g * bp + lp) * (g * bp + lp)))%R) /\
    (forall x, (sum (length x) (fun n => let y := snd (F (firstn (S n) x)) in y * y)
                <= sum (length x) (fun n => get x n * get x n))%R).
Proof.
  intros fs f res Hf Hr g. pose proof (sv_g_pos fs f Hf) as Hg. fold g in Hg.
  exists (col_F (sv_p g res) (0, 0)%R 0%R). split; [|split; [|split]].
  - intros. apply sv_refines.
  - intros h x. rewrite col_F_snoc.
    destruct (sv_step g res (col_final (sv_p g res) (0%R, 0%R) h) x Hg Hr) as (H1 & H2 & _).
    destruct (fst (sv_p g res (col_final (sv_p g res) (0%R, 0%R) h) x)) as [[[l hh] b] a].
    unfold lp, bp, hp, ap in *. simpl in *. auto.
  - intros h x. pose proof (sv_energy g res (h ++ [x]) Hg Hr) as E. cbv zeta in E.
    destruct (sv_step g res (col_final (sv_p g res) (0%R, 0%R) h) x Hg Hr) as (_ & _ & H3 & H4 & _).
    rewrite col_final_app in E. rewrite H3, H4 in E. rewrite col_F_snoc.
    destruct (fst (sv_p g res (col_final (sv_p g res) (0%R, 0%R) h) x)) as [[[l hh] b] a].
    unfold lp, bp, hp, ap in *. simpl in *. exact E.
  - intros x. pose proof (sv_energy g res x Hg Hr) as E. cbv zeta in E.
    assert (0 <= res / g)%R by (apply Rlt_le, Rdiv_lt_0_compat; auto).
    set (st := col_final (sv_p g res) (0%R, 0%R) x) in *.
    assert (0 <= fst st * fst st + snd st * snd st)%R by nra.
    rewrite E. unfold ap. assert (0 <= res / g * (fst st * fst st + snd st * snd st))%R by (apply Rmult_le_pos; auto). lra.
Qed.
Print Assumptions C04_state_variable_filter.

(** Setting parameters: afterwards the object is indistinguishable from a new one with these parameters. *)
Theorem C04_set_parameters_resets :
  forall (fs : Z) (s : sv_obj) (f res : R) (n : nat) (ops : list sv_op),
  sv_params_ok fs f -> 1 <= n ->
  run (sv_obj_step fs) s (SvSet f res n :: ops)
  = Done :: run (sv_obj_step fs) (sv_g fs f, res, repeat (0%R, 0%R) n) ops.
Proof.
  intros fs s f res n ops [H1 H2] Hn. cbn [run sv_obj_step].
  unfold sv_params_okb. destruct (Rlt_dec 0 f); [|contradiction].
  destruct (Rlt_dec f (IZR (fs / 2))); [|contradiction].
  destruct (Nat.leb_spec 1 n); [reflexivity|lia].
Qed.
Print Assumptions C04_set_parameters_resets.

Example C04_example : sv_params_ok 48000 1000 /\ (0 < 1 / 2)%R.
Proof. split; [split|]; try lra. replace (48000 / 2)%Z with 24000%Z by reflexivity. lra. Qed.

(** ** C05 *)
Theorem C05_stays_in_range :
  forall (t_inc t_dec fs acc lo hi : R) (ops : list (rt_op R)),
  (lo <= 0 <= hi)%R ->
  (0 < t_inc)%R -> (0 < t_dec)%R -> (0 < fs)%R -> (0 < acc < 1)%R ->
  (forall x ch, In (Proc x ch) ops -> lo <= x <= hi)%R ->
  forall y, In (Val y) (run (ema_step (smoothing_factor t_inc fs acc) (smoothing_factor t_dec fs acc)) [0%R] ops) ->
  (lo <= y <= hi)%R.
Proof.
  intros t1 t2 fs acc lo hi ops H0 H1 H2 H3 H4 Hops y Hy.
  pose proof (smoothing_factor_range t1 fs acc H1 H3 H4).
  pose proof (smoothing_factor_range t2 fs acc H2 H3 H4).
  apply (ema_bounds (smoothing_factor t1 fs acc) (smoothing_factor t2 fs acc) lo hi ops [0%R]); auto; lra.
Qed.
Print Assumptions C05_stays_in_range.

(** One call: the new output lies between the previous output and the sample, with the rising coefficient
    exactly when the sample is above the previous output. *)
Theorem C05_one_step :
  forall (inc dec s x : R), (0 <= inc <= 1)%R -> (0 <= dec <= 1)%R ->
  exists y, ema_step inc dec [s] (Proc x 0) = ([y], Val y) /\
    (Rmin s x <= y <= Rmax s x)%R /\
    ((s < x)%R -> (y - s = inc * (x - s))%R) /\ ((x <= s)%R -> (y - s = dec * (x - s))%R).
Proof.
  intros inc dec s x Hi Hd. eexists. cbn. split; [reflexivity|].
  destruct (Rlt_dec s x); (split; [apply convex_between; auto|]); split; intros; try lra.
Qed.
Print Assumptions C05_one_step.

(** The rise time means what the constructor documents: after n = t*fs samples of a unit step the output is [acc]. *)
Theorem C05_rise_time :
  forall (t fs acc dec : R) (n : nat), (0 < t)%R -> (0 < fs)%R -> (0 < acc < 1)%R -> (INR n = t * fs)%R ->
  nth (n - 1) (run (ema_step (smoothing_factor t fs acc) dec) [0%R] (repeat (Proc 1%R 0%Z) n)) Done = Val acc.
Proof.
  intros t fs acc dec n Ht Hf Ha Hn.
  assert (Hn0 : n <> 0).
  { intros ->. simpl in Hn. assert (0 < t * fs)%R by (apply Rmult_lt_0_compat; auto). lra. }
  pose proof (smoothing_factor_range t fs acc Ht Hf Ha).
  rewrite ema_step_response by (try lia; lra). f_equal.
  replace (S (n - 1)) with n by lia. unfold smoothing_factor.
  replace (1 - (1 - exp (ln (1 - acc) / t / fs)))%R with (exp (ln (1 - acc) / t / fs)) by ring.
  rewrite <- Rpower_pow by apply exp_pos. unfold Rpower. rewrite ln_exp, Hn.
  replace (t * fs * (ln (1 - acc) / t / fs))%R with (ln (1 - acc)) by (field; lra).
  rewrite exp_ln by lra. ring.
Qed.
Print Assumptions C05_rise_time.

(** More than one channel: every call raises. *)
Theorem C05_multichannel_raises :
  forall (inc dec : R) (st : list R) (x : R) (ch : Z), 2 <= length st ->
  ema_step inc dec st (Proc x ch) = (st, Raise ValueError).
Proof. intros. cbn [ema_step]. destruct (Nat.leb_spec 2 (length st)); [reflexivity|lia]. Qed.
Print Assumptions C05_multichannel_raises.

Example C05_example :
  (0 < 1 / 2 /\ INR 4 = 1 / 2 * 8)%R /\
  run (ema_step (1/2) (1/4)) [0%R] [Proc 1%R 0%Z] = [Val (1 / 2)%R].
Proof.
  split; [split; simpl; lra|]. cbn. destruct (Rlt_dec 0 1); [|exfalso; lra].
  apply (f_equal (fun t => [Val t])). lra.
Qed.

(** ** C06 *)
Theorem C06_chain_is_composition :
  forall (A : Type) (l : list (rt_obj A)) (ops : list (rt_op A)), Forall well_typed l ->
  run chain_step l ops = map observe (fold_left (fun h f => through (ob_step f) (ob_state f) h) l (map Call ops)).
Proof. intros. now apply chain_composition. Qed.
Print Assumptions C06_chain_is_composition.

(** The filters of this library meet the hypothesis. *)
Theorem C06_library_filters_well_typed :
  forall (A S : Type) (f : rtf A A S) st, well_typed {| ob_S := list S; ob_step := rt_step f; ob_state := st |}.
Proof.
  intros A S f st s o. destruct o as [n| |x ch]; simpl; auto.
  - destruct (rt_okn f n); simpl; auto.
  - destruct (py_index (length s) ch); simpl; auto. destruct (rt_proc f _ x) as [[y s']|e]; simpl; auto.
Qed.
Print Assumptions C06_library_filters_well_typed.

Example C06_example :
  let f b := {| ob_S := _; ob_step := rt_step (fir_filter (A := Z) b); ob_state := [rt_fresh (fir_filter b)] |} in
  run chain_step [f [1;1]; f [2;3]]%Z [Proc 1 0; Proc 0 0; Proc 0 0; Reset; Proc 1 5]%Z
  = [Val 2; Val 5; Val 3; Done; Raise IndexError]%Z.
Proof. reflexivity. Qed.
