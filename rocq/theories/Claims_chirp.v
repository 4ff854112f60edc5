(** Property C80: chirps. *)
From Coq Require Import List Arith Lia ZArith Bool Reals Lra Psatz.
From Verif Require Import Alg Spec Dft M_arrays M_signal P_signal M_dynamics M_level Claims_signal Claims_level Claims_fade M_generators Claims_generators.
Import ListNotations.
Local Open Scope R_scope.

(** ** Specification *)
(** [phi] is the phase of a sweep whose frequency at time t is [freq t]. *)
Definition sweep (freq phi : R -> R) : Prop := phi 0 = 0 /\ forall t, derivable_pt_lim phi t (2 * PI * freq t).
(** the sweeps of the two types: from f0 at 0 to f1 at T, linearly or exponentially *)
Definition sweep_freq (ty : chirp_type) (f0 f1 T t : R) : R :=
  match ty with CLinear => f0 + (f1 - f0) * (t / T) | _ => f0 * Rpower (f1 / f0) (t / T) end.
Lemma sweep_freq_ends ty f0 f1 T : 0 < f0 -> 0 < f1 -> 0 < T -> sweep_freq ty f0 f1 T 0 = f0 /\ sweep_freq ty f0 f1 T T = f1.
Proof.
  intros H0 H1 HT. unfold sweep_freq. replace (0 / T) with 0 by (field; lra). replace (T / T) with 1 by (field; lra).
  assert (0 < f1 / f0) by (apply Rdiv_lt_0_compat; auto). rewrite Rpower_O, Rpower_1 by auto. destruct ty; split; try lra; field; lra.
Qed.
Definition range_args (fs : Z) (a b : R) : Prop := 0 < Rmin a b /\ Rmax a b <= IZR (fs / 2).
Definition pad_args (pad fs : R) (p : nat) : Prop := (pad = 0 /\ p = 0%nat) \/ (0 < pad /\ floors (pad * fs) p).

(** ** Auxiliary facts *)
Definition lin_phase (f0 f1 T t : R) : R := (f0 + (f1 - f0) / T / 2 * t) * 2 * PI * t.
Definition log_phase (f0 f1 T t : R) : R := 2 * PI * f0 / (ln (f1 / f0) / T) * (exp (t * (ln (f1 / f0) / T)) - 1).
Lemma dlim_ext f g x l : (forall t, f t = g t) -> derivable_pt_lim f x l -> derivable_pt_lim g x l.
Proof. intros E H eps He. destruct (H eps He) as (d & Hd). exists d. intros h H1 H2. rewrite <- !E. now apply Hd. Qed.
Lemma dlim_affine a b x : derivable_pt_lim (fun t => a + b * t) x b.
Proof.
  assert (E : b = 0 + (0 * x + b * 1)) by ring. cut (derivable_pt_lim (fun t => a + b * t) x (0 + (0 * x + b * 1))). { intros H. now rewrite <- E in H. } clear E.
  apply (derivable_pt_lim_plus (fun _ => a) (fun t => b * t)). apply derivable_pt_lim_const.
  apply (derivable_pt_lim_mult (fun _ => b) (fun t => t)). apply derivable_pt_lim_const. apply derivable_pt_lim_id.
Qed.
Lemma dlim_scale c f x l : derivable_pt_lim f x l -> derivable_pt_lim (fun t => c * f t) x (c * l).
Proof. intros H. apply (derivable_pt_lim_scal f c x l H). Qed.
Lemma dlim_inner c f x l : derivable_pt_lim f (c * x) l -> derivable_pt_lim (fun t => f (c * t)) x (l * c).
Proof. intros H. apply (derivable_pt_lim_comp (fun t => c * t) f x c l); auto. apply (dlim_ext (fun t => 0 + c * t)). intros; ring. apply dlim_affine. Qed.
Lemma lin_sweep f0 f1 T : 0 < T -> sweep (sweep_freq CLinear f0 f1 T) (lin_phase f0 f1 T).
Proof.
  intros HT. split. { unfold lin_phase. ring. } intros t. set (c := (f1 - f0) / T / 2).
  replace (2 * PI * sweep_freq CLinear f0 f1 T t) with (2 * PI * (c * t + (f0 + c * t) * 1)) by (unfold sweep_freq, c; field; lra).
  apply (dlim_ext (fun t => 2 * PI * ((f0 + c * t) * t))). { intros; unfold lin_phase, c. ring. }
  apply dlim_scale. apply (derivable_pt_lim_mult (fun t => f0 + c * t) (fun t => t)). apply dlim_affine. apply derivable_pt_lim_id.
Qed.
Lemma log_sweep f0 f1 T : 0 < T -> 0 < f0 < f1 -> sweep (sweep_freq CLogarithmic f0 f1 T) (log_phase f0 f1 T).
Proof.
  intros HT Hf. assert (Q : 1 < f1 / f0) by (apply (Rmult_lt_reg_r f0); [lra|]; unfold Rdiv; rewrite Rmult_assoc, Rinv_l; lra).
  assert (0 < ln (f1 / f0)) by (rewrite <- ln_1; apply ln_increasing; lra). set (k := ln (f1 / f0) / T). assert (K : 0 < k) by (apply Rdiv_lt_0_compat; auto).
  split. { unfold log_phase. rewrite Rmult_0_l, exp_0. ring. } intros t.
  replace (2 * PI * sweep_freq CLogarithmic f0 f1 T t) with (2 * PI * f0 / k * (exp (k * t) * k)).
  2:{ unfold sweep_freq, Rpower. replace (t / T * ln (f1 / f0)) with (k * t) by (unfold k; field; lra). field. lra. }
  apply (dlim_ext (fun t => 2 * PI * f0 / k * (exp (k * t) + - 1))). { intros u. unfold log_phase. fold k. replace (u * k) with (k * u) by ring. ring. }
  apply dlim_scale. replace (exp (k * t) * k) with (exp (k * t) * k + 0) by ring.
  apply (derivable_pt_lim_plus (fun t => exp (k * t)) (fun _ => - 1)); [|apply derivable_pt_lim_const]. apply (dlim_inner k exp). apply derivable_pt_lim_exp.
Qed.
Lemma linspace_map {T} (h : R -> T) b n : (2 <= n)%nat -> map h (linspace 0 b n) = mk n (fun i => h (INR i * b / INR (n - 1))).
Proof.
  intros H. destruct n as [|[|n]]; try lia. unfold linspace, mk. rewrite map_map. apply map_ext. intros i. f_equal. unfold Rdiv. ring.
Qed.
Lemma mk_some {T} n (f : nat -> T) : mk n (fun i => Some (f i)) = map Some (mk n f).
Proof. unfold mk. now rewrite map_map. Qed.
Lemma linear_raw f0 f1 T ph l : (2 <= l)%nat -> linear_chirp f0 f1 T ph l = map Some (mk l (fun i => sin (lin_phase f0 f1 T (INR i * T / INR (l - 1)) + ph))).
Proof. intros H. unfold linear_chirp. cbv zeta. rewrite linspace_map by auto. now rewrite mk_some. Qed.
Lemma log_raw f0 f1 T ph l : (2 <= l)%nat -> 0 < T -> 0 < f0 < f1 -> log_chirp f0 f1 T ph l = map Some (mk l (fun i => sin (log_phase f0 f1 T (INR i * T / INR (l - 1)) + ph))).
Proof.
  intros H HT Hf. unfold log_chirp. cbv zeta. rewrite linspace_map by auto. rewrite <- mk_some. unfold mk. apply map_ext. intros i.
  rewrite ln_exp. unfold div_opt. assert (Q : 1 < f1 / f0) by (apply (Rmult_lt_reg_r f0); [lra|]; unfold Rdiv; rewrite Rmult_assoc, Rinv_l; lra).
  assert (0 < ln (f1 / f0)) by (rewrite <- ln_1; apply ln_increasing; lra).
  assert (E : (ln f1 - ln f0) / T = ln (f1 / f0) / T). { unfold Rdiv at 3. rewrite ln_mult, ln_Rinv by (try apply Rinv_0_lt_compat; lra). reflexivity. }
  rewrite E. assert (0 < ln (f1 / f0) / T) by (apply Rdiv_lt_0_compat; auto). destruct (Req_EM_T _ 0) as [|_]; [lra|]. simpl. unfold log_phase, Rpower.
  rewrite ln_exp. reflexivity.
Qed.
Lemma pad_ok pad fs p : pad_args pad (IZR fs) p -> pad_samples pad fs = Ok p.
Proof.
  intros [(-> & ->)|(A & B)]; unfold pad_samples.
  - destruct (Req_EM_T 0 0); [reflexivity|lra].
  - destruct (Req_EM_T pad 0); [lra|]. destruct (Rlt_dec 0 pad); [|lra]. now rewrite (int_of_floor _ _ B).
Qed.
Lemma range_ok' fs a b : range_args fs a b -> chirp_range fs (Some [a; b]) = Ok (Rmin a b, Rmax a b).
Proof. intros (A & B). unfold chirp_range. destruct (Rlt_dec _ _); [|lra]. destruct (Rle_dec _ _); [reflexivity|lra]. Qed.
Lemma rounds_floor r n : rounds r n -> int_of (r + 5 / 10) = n.
Proof. intros H. apply int_of_floor. unfold rounds, floors in *. lra. Qed.
Lemma len_ok len fs l : rounds (len * IZR fs) l -> len_samples len fs = l.
Proof. intros H. unfold len_samples. rewrite Rmult_comm. now apply rounds_floor. Qed.
Lemma rounds_two r n : rounds r n -> 3 / 2 <= r -> (2 <= n)%nat.
Proof. intros (A & B) H. assert (1 < INR n) by lra. apply (INR_lt 1). exact H0. Qed.
Lemma repeat_map {T U} (f : T -> U) x n : repeat (f x) n = map f (repeat x n).
Proof. induction n; simpl; auto. now f_equal. Qed.
Lemma forall2_repeat {T U} (P : T -> U -> Prop) a b n : P a b -> Forall2 P (repeat a n) (repeat b n).
Proof. intros H. induction n; simpl; constructor; auto. Qed.
(** a fade of 5 % fits in the signal when it has two samples *)
Lemma five_percent fade len fs lf l : 40 <= len * fs -> rounds (len * fs) l -> floors (5 / 100 * len * fs) lf -> fade_fits fade (5 / 100 * len) fs lf l.
Proof.
  intros H (A & B) (D & E). unfold fade_fits. destruct fade as [[]|]; auto;
  (split; [split; auto|split; [apply (INR_lt 1); simpl; lra|apply INR_lt; lra]]).
Qed.

(** ** C80 *)
(** Linear and logarithmic chirps: every channel is the sine of the phase of a sweep from the lower to the upper end of the range, at l instants
    from 0 to the requested length, both included; brought to the peak level, faded over 5 % at both ends and followed by the padding. *)
Theorem C80_sweep : forall (ty : chirp_type) (fs : Z) (a b len dbfs pad phase : R) (ch l p lf : nat) (fade : option fade_type),
  ty = CLinear \/ (ty = CLogarithmic /\ a <> b) -> (0 < fs)%Z -> range_args fs a b -> 0 < len -> 40 <= len * IZR fs -> dbfs <= 0 ->
  rounds (len * IZR fs) l -> pad_args pad (IZR fs) p -> floors (5 / 100 * len * IZR fs) lf -> (1 <= ch <= l + p)%nat ->
  let f0 := Rmin a b in let f1 := Rmax a b in let freq := sweep_freq ty f0 f1 len in
  (forall t, freq t = match ty with CLinear => f0 + (f1 - f0) * (t / len) | _ => f0 * Rpower (f1 / f0) (t / len) end) /\
  freq 0 = f0 /\ freq len = f1 /\
  exists phi, sweep freq phi /\ let raw := mk l (fun i => sin (phi (INR i * len / INR (l - 1)) + phase)) in
  (exists v, In v raw /\ v <> 0) ->
  exists s, chirp fs ty (Some [a; b]) len dbfs ch fade phase pad = Ok (Some s, None) /\ s_im s = None /\ s_scale s = 1 /\ s_fs s = fs /\
    shape (s_re s) (l + p) ch /\ forall c, (c < ch)%nat -> made dbfs fade lf (l + p) raw (nth c (s_re s) []).
Proof.
  intros ty fs a b len dbfs pad ph ch l p lf fade Hty Hfs Hr Hlen H40 Hdb Hl Hp Hlf Hch. cbv zeta. split; [reflexivity|].
  destruct Hr as (R1 & R2). assert (F01 : Rmin a b <= Rmax a b) by (unfold Rmin, Rmax; destruct (Rle_dec a b); lra).
  split; [apply sweep_freq_ends; lra|]. split; [apply sweep_freq_ends; lra|]. assert (L2 : (2 <= l)%nat) by (apply (rounds_two _ _ Hl); lra).
  assert (Fp : 0 < IZR fs) by (now apply IZR_lt).
  assert (M : exists phi, sweep (sweep_freq ty (Rmin a b) (Rmax a b) len) phi /\
    match ty with CLinear => linear_chirp (Rmin a b) (Rmax a b) len ph l | _ => log_chirp (Rmin a b) (Rmax a b) len ph l end =
    map Some (mk l (fun i => sin (phi (INR i * len / INR (l - 1)) + ph)))).
  { destruct Hty as [->|(-> & N)].
    - exists (lin_phase (Rmin a b) (Rmax a b) len). split; [now apply lin_sweep|now apply linear_raw].
    - assert (0 < Rmin a b < Rmax a b). { split; auto. unfold Rmin, Rmax. destruct (Rle_dec a b); lra. }
      exists (log_phase (Rmin a b) (Rmax a b) len). split; [now apply log_sweep|now apply log_raw]. }
  destruct M as (phi & S1 & E1). exists phi. split; auto. intros NZ. set (raw := mk l _) in *.
  assert (Lr : length raw = l) by apply mk_len.
  destruct (finish_col_ok dbfs fade len (IZR fs) (l + p) raw lf) as (out & E2 & M2); auto. { rewrite Lr. now apply five_percent. }
  destruct (finish_signal dbfs fade lf (l + p) ch fs (repeat raw ch) (repeat out ch)) as (s & E3 & A & B & D & E & F & G); auto; try lia.
  { apply (fits_two fade (5 / 100 * len) (IZR fs) lf l). now apply five_percent. }
  { now apply forall2_repeat. } { apply repeat_length. }
  exists s. split.
  - unfold chirp. rewrite range_ok' by now split. cbn [bind fst snd]. rewrite (pad_ok _ _ _ Hp). cbn [bind]. cbv zeta. rewrite (len_ok _ _ _ Hl).
    destruct Hty as [->|(-> & N)]; cbn [bind fst snd]; rewrite E1, E2; cbn [bind]; rewrite repeat_map, E3; reflexivity.
  - repeat (split; [assumption|]). intros c Hc. rewrite A. rewrite (nth_indep _ [] out) by now rewrite repeat_length. now rewrite nth_repeat.
Qed.
Print Assumptions C80_sweep.
Lemma rounds_nat n : rounds (INR n) n.
Proof. unfold rounds. lra. Qed.
Example C80_sweep_example : exists s, chirp 400 CLogarithmic (Some [150; 20]) 1 (-10) 2 (Some Logarithmic) (PI / 2) (1 / 2) = Ok (Some s, None) /\ shape (s_re s) 600 2.
Proof.
  assert (Mn : Rmin 150 20 = 20) by (apply Rmin_right; lra). assert (Mx : Rmax 150 20 = 150) by (apply Rmax_left; lra).
  destruct (C80_sweep CLogarithmic 400 150 20 1 (-10) (1 / 2) (PI / 2) 2 400 200 20 (Some Logarithmic)) as (_ & _ & _ & phi & (P0 & _) & H); try lia; try lra.
  - right. split; auto. lra.
  - split. rewrite Mn; lra. rewrite Mx. change (400 / 2)%Z with 200%Z. lra.
  - unfold rounds. rewrite INR_IZR_INZ. simpl. lra.
  - right. split; [lra|]. unfold floors. rewrite INR_IZR_INZ. simpl. lra.
  - unfold floors. rewrite INR_IZR_INZ. simpl. lra.
  - destruct H as (s & E & _ & _ & _ & F & _).
    + exists 1. split; [|lra]. unfold mk. apply in_map_iff. exists 0%nat. split; [|apply in_seq; lia]. change (INR 0) with 0. replace (0 * 1 / INR (400 - 1)) with 0 by (unfold Rdiv; ring).
      rewrite P0, Rplus_0_l. apply sin_PI2.
    + exists s. split; auto.
Qed.

(** On the clock of the returned signal (sample i at i / fs) the sweep runs faster than requested by the factor (length fs) / (l - 1) > 1, and ends above the range by that factor. *)
Theorem C80_end_frequency_refuted : forall (ty : chirp_type) (fs f0 f1 len : R) (l : nat) (freq phi : R -> R),
  freq = sweep_freq ty f0 f1 len -> sweep freq phi -> 0 < f0 -> 0 < f1 -> 0 < len -> 0 < fs -> (2 <= l)%nat -> rounds (len * fs) l ->
  let r := len * fs / INR (l - 1) in 1 < r /\
  exists psi, (forall i, phi (INR i * len / INR (l - 1)) = psi (INR i / fs)) /\ sweep (fun t => r * freq (r * t)) psi /\
    r * freq (r * (INR (l - 1) / fs)) = r * f1.
Proof.
  intros ty fs f0 f1 len l freq phi -> (S0 & S1) H0 H1 HT Hfs Hl (A & B) r.
  assert (P : 0 < INR (l - 1)) by (apply lt_0_INR; lia). assert (E1 : INR l = INR (l - 1) + 1) by (rewrite minus_INR by lia; simpl; lra).
  split. { unfold r. apply (Rmult_lt_reg_r (INR (l - 1))); auto. unfold Rdiv. rewrite Rmult_assoc, Rinv_l by lra. lra. }
  exists (fun t => phi (r * t)). split. { intros i. f_equal. unfold r. field. lra. } split.
  - split. { now rewrite Rmult_0_r. } intros t. replace (2 * PI * (r * sweep_freq ty f0 f1 len (r * t))) with (2 * PI * sweep_freq ty f0 f1 len (r * t) * r) by ring. apply dlim_inner. apply S1.
  - replace (r * (INR (l - 1) / fs)) with len by (unfold r; field; lra). f_equal. now apply sweep_freq_ends.
Qed.
Print Assumptions C80_end_frequency_refuted.
Example C80_end_frequency_example : exists phi, sweep (sweep_freq CLinear 20 100 2) phi /\ rounds (2 * 200) 400.
Proof. exists (lin_phase 20 100 2). split; [apply lin_sweep; lra|]. unfold rounds. rewrite INR_IZR_INZ. simpl. lra. Qed.

(** A linear chirp from f to f is a tone of the frequency f l / (l - 1): at 40 Hz, 41 samples of "10 Hz" do not vanish after one second. *)
Theorem C80_constant_refuted : exists s, chirp 40 CLinear (Some [10; 10]) (41 / 40) 0 1 None 0 0 = Ok (Some s, None) /\
  entry (s_re s) 40 0 <> 0 /\ sin (2 * PI * 10 * (40 / 40)) = 0.
Proof.
  destruct (C80_sweep CLinear 40 10 10 (41 / 40) 0 0 0 1 41 0 2 None) as (Fr & _ & _ & phi & S1 & H); try lia; try lra; auto.
  - split. rewrite Rmin_left; lra. rewrite Rmax_left by lra. change (40 / 2)%Z with 20%Z. lra.
  - unfold rounds. rewrite INR_IZR_INZ. simpl. lra.
  - left. auto.
  - unfold floors. simpl. lra.
  - assert (Ph : forall t, phi t = 2 * PI * 10 * t).
    { assert (D : forall t, derivable_pt_lim phi t (2 * PI * 10)).
      { intros t. destruct S1 as (_ & S1). specialize (S1 t). rewrite Fr, Rmin_left, Rmax_left in S1 by lra. replace (10 + (10 - 10) * (t / (41 / 40))) with 10 in S1 by field. exact S1. }
      assert (Z : forall t, derivable_pt_lim (fun u => phi u - 2 * PI * 10 * u) t 0).
      { intros t. replace 0 with (2 * PI * 10 - 2 * PI * 10) by ring. apply (derivable_pt_lim_minus phi (fun u => 2 * PI * 10 * u)); auto.
        apply (dlim_ext (fun t => 0 + 2 * PI * 10 * t)). intros; ring. apply dlim_affine. }
      assert (C : constant (fun u => phi u - 2 * PI * 10 * u)).
      { assert (pr : derivable (fun u => phi u - 2 * PI * 10 * u)) by (intros t; exists 0; apply Z). apply (null_derivative_1 _ pr). intros t. apply derive_pt_eq_0, Z. }
      intros t. specialize (C t 0). simpl in C. destruct S1 as (S0 & _). rewrite S0 in C. lra. }
    set (raw := mk 41 _) in H. assert (L : length raw = 41%nat) by apply mk_len.
    assert (V : nth 40 raw 0 = 1).
    { unfold raw. rewrite mk_at by lia. rewrite Ph. replace (2 * PI * 10 * (INR 40 * (41 / 40) / INR (41 - 1)) + 0) with (PI / 2 + 2 * INR 10 * PI).
      rewrite sin_period. apply sin_PI2. rewrite !INR_IZR_INZ. simpl. field. }
    destruct H as (s & E & _ & _ & _ & Sh & M). { exists 1. split; [|lra]. rewrite <- V. apply nth_In. lia. }
    exists s. split; auto. destruct (M 0%nat) as (Ln & g & G & _ & W); [lia|]. split.
    + unfold entry. rewrite W by lia. rewrite L. change (40 <? 41)%nat with true. cbv iota. rewrite V. unfold env. lra.
    + replace (2 * PI * 10 * (40 / 40)) with (0 + 2 * INR 10 * PI) by (rewrite INR_IZR_INZ; simpl; field). rewrite sin_period. apply sin_0.
Qed.
Print Assumptions C80_constant_refuted.

(** Equal frequencies are fine for a linear chirp, but a logarithmic one is nan throughout. *)
Theorem C80_equal_log_refuted : forall (fs : Z) (f len dbfs phase : R) (ch l : nat), (0 < fs)%Z -> range_args fs f f -> 0 < len -> rounds (len * IZR fs) l -> (2 <= l)%nat -> (1 <= ch)%nat ->
  chirp fs CLogarithmic (Some [f; f]) len dbfs ch None phase 0 = Ok (None, None).
Proof.
  intros fs f len dbfs ph ch l Hfs Hr HT Hl L2 Hc. unfold chirp. rewrite range_ok' by auto. cbn [bind fst snd]. rewrite (pad_ok 0 fs 0) by now left. cbn [bind]. cbv zeta. rewrite (len_ok _ _ _ Hl).
  assert (E : log_chirp (Rmin f f) (Rmax f f) len ph l = repeat None l).
  { unfold log_chirp. rewrite Rmin_left, Rmax_left by lra. cbv zeta. rewrite linspace_map by auto. rewrite ln_exp. replace ((ln f - ln f) / len) with 0 by (unfold Rdiv; ring).
    unfold div_opt. destruct (Req_EM_T 0 0) as [_|]; [|lra]. simpl. unfold mk. clear. generalize 0%nat. induction l; intros k; simpl; auto. now rewrite IHl. }
  rewrite E. unfold finish_col, level_col. destruct l as [|l]; [lia|]. cbn [repeat]. set (c := None :: repeat None l).
  assert (F : finite c = None) by reflexivity. rewrite F. cbn [bind fade_both].
  assert (N : finite (fit (S l + 0) (map (fun _ => None) c)) = None). { unfold fit, c. simpl. rewrite map_length, repeat_length, Nat.add_0_r. rewrite Nat.ltb_irrefl. reflexivity. }
  cbn [bind]. unfold to_signal. destruct ch as [|ch]; [lia|]. cbn [repeat map opt_seq]. rewrite N. reflexivity.
Qed.
Print Assumptions C80_equal_log_refuted.
Example C80_equal_log_example : range_args 200 50 50 /\ rounds (1 * 200) 200.
Proof. split; [split; [rewrite Rmin_left; lra|rewrite Rmax_left by lra; change (200 / 2)%Z with 100%Z; lra]|]. unfold rounds. rewrite INR_IZR_INZ. simpl. lra. Qed.

(** What is refused: a range that does not hold two frequencies, starts at 0 or below, or ends above fs // 2; negative padding. *)
Theorem C80_refusals : forall (fs : Z) (ty : chirp_type) (range : list R) (len dbfs pad phase : R) (ch : nat) (fade : option fade_type),
  (forall a b, range = [a; b] -> ~ range_args fs a b) \/ pad < 0 ->
  chirp fs ty (Some range) len dbfs ch fade phase pad = Err AssertionError.
Proof.
  intros fs ty range len dbfs pad ph ch fade H. unfold chirp.
  destruct range as [|a [|b [|d r]]]; auto. unfold chirp_range. destruct (Rlt_dec 0 (Rmin a b)); auto. destruct (Rle_dec (Rmax a b) (IZR (fs / 2))); auto.
  destruct H as [H|H]; [exfalso; apply (H a b eq_refl); split; auto|]. cbn [bind]. unfold pad_samples. destruct (Req_EM_T pad 0); [lra|]. destruct (Rlt_dec 0 pad); [lra|]. reflexivity.
Qed.
Print Assumptions C80_refusals.
Example C80_refusals_example : ~ range_args 200 50 101.
Proof. intros (_ & H). rewrite Rmax_right in H by lra. change (200 / 2)%Z with 100%Z in H. lra. Qed.

(** Without a range the sweep goes from 15 Hz to fs // 2. *)
Theorem C80_default_range : forall (fs : Z) (ty : chirp_type) (len dbfs pad phase : R) (ch : nat) (fade : option fade_type), (30 <= fs)%Z ->
  range_args fs 15 (IZR (fs / 2)) /\ chirp fs ty None len dbfs ch fade phase pad = chirp fs ty (Some [15; IZR (fs / 2)]) len dbfs ch fade phase pad.
Proof.
  intros fs ty len dbfs pad ph ch fade H. assert (K : (15 <= fs / 2)%Z) by (apply Z.div_le_lower_bound; lia). apply IZR_le in K.
  assert (A : range_args fs 15 (IZR (fs / 2))) by (split; [rewrite Rmin_left by lra; lra|rewrite Rmax_right by lra; lra]). split; [exact A|].
  unfold chirp. rewrite (range_ok' _ _ _ A). rewrite Rmin_left, Rmax_right by lra. reflexivity.
Qed.
Print Assumptions C80_default_range.

(** ** Synchronised chirps *)
Definition sync_phase (k : nat) (L t : R) : R := 2 * PI * INR k * (exp (t / L) - 1).
Lemma sync_sweep f0 k : 0 < f0 -> (1 <= k)%nat -> sweep (fun t => f0 * exp (t / (INR k / f0))) (sync_phase k (INR k / f0)).
Proof.
  intros H Hk. assert (K : 0 < INR k) by (apply lt_0_INR; lia). set (L := INR k / f0). assert (HL : 0 < L) by (apply Rdiv_lt_0_compat; auto). split.
  { unfold sync_phase. replace (0 / L) with 0 by (field; lra). rewrite exp_0. ring. }
  intros t. replace (2 * PI * (f0 * exp (t / L))) with (2 * PI * INR k * (exp (/ L * t) * / L + 0)).
  2:{ replace (/ L * t) with (t / L) by (unfold Rdiv; ring). replace f0 with (INR k * / L) by (unfold L; field; lra). ring. }
  apply (dlim_ext (fun t => 2 * PI * INR k * (exp (/ L * t) + - 1))). { intros u. unfold sync_phase. replace (/ L * u) with (u / L) by (unfold Rdiv; ring). ring. }
  apply dlim_scale. apply (derivable_pt_lim_plus (fun t => exp (/ L * t)) (fun _ => - 1)); [|apply derivable_pt_lim_const]. apply (dlim_inner (/ L) exp). apply derivable_pt_lim_exp.
Qed.
Lemma ln_ratio f0 f1 : 0 < f0 < f1 -> 0 < ln (f1 / f0).
Proof. intros H. rewrite <- ln_1. apply ln_increasing; [lra|]. apply (Rmult_lt_reg_r f0); [lra|]. unfold Rdiv. rewrite Rmult_assoc, Rinv_l; lra. Qed.
Lemma sync_raw f0 f1 len fs k m : 0 < f0 < f1 -> rounds (f0 * len / ln (f1 / f0)) k -> (1 <= k)%nat -> (2 <= m)%nat ->
  let L := INR k / f0 in let T := L * ln (f1 / f0) in rounds (T * IZR fs) m ->
  sync_log_chirp f0 f1 len fs = Ok (map Some (mk m (fun i => sin (sync_phase k L (INR i * T / INR (m - 1))))), T).
Proof.
  intros Hf Hk K1 M2 L T Hm. pose proof (ln_ratio f0 f1 Hf) as Q. assert (K : 0 < INR k) by (apply lt_0_INR; lia).
  unfold sync_log_chirp. destruct (Req_EM_T _ 0) as [|_]; [lra|]. rewrite (rounds_floor _ _ Hk). cbv zeta. change (INR k / f0 * ln (f1 / f0)) with T.
  assert (E : int_of (5 / 10 + T * f0 / ln (f1 / f0)) = k). { apply int_of_floor. unfold T, L, floors. replace (INR k / f0 * ln (f1 / f0) * f0 / ln (f1 / f0)) with (INR k) by (field; lra). lra. }
  rewrite E, (rounds_floor _ _ Hm). fold L. f_equal. f_equal. rewrite linspace_map by auto. rewrite <- mk_some. unfold mk. apply map_ext. intros i.
  assert (HL : 0 < L) by (apply Rdiv_lt_0_compat; lra). unfold div_opt. destruct (Req_EM_T L 0); [lra|]. simpl. do 2 f_equal. unfold sync_phase. f_equal. unfold L. field. lra.
Qed.
(** The duration is the product of a whole number k of periods and ln (f1 / f0) / f0, the one nearest to the requested length, and is returned. The sweep is exponential from f0 to f1 over that duration, and its
    harmonics are synchronised: for every order h, the sweep delayed by L ln h and its phase multiplied by h agree up to whole turns at every time. *)
Theorem C80_sync : forall (fs : Z) (a b len dbfs pad phase : R) (ch l p lf k m : nat) (fade : option fade_type),
  a <> b -> (0 < fs)%Z -> range_args fs a b -> 0 < len -> dbfs <= 0 -> pad_args pad (IZR fs) p ->
  let f0 := Rmin a b in let f1 := Rmax a b in
  rounds (f0 * len / ln (f1 / f0)) k -> (1 <= k)%nat ->
  let L := INR k / f0 in let T := L * ln (f1 / f0) in
  rounds (len * IZR fs) l -> rounds (T * IZR fs) m -> (2 <= m)%nat -> fade_fits fade (5 / 100 * len) (IZR fs) lf m -> (1 <= ch <= l + p)%nat -> (2 <= l + p)%nat ->
  Rabs (T - len) <= ln (f1 / f0) / (2 * f0) /\ f0 * exp (T / L) = f1 /\
  exists phi, sweep (fun t => f0 * exp (t / L)) phi /\
    (forall h t, (1 <= h)%nat -> exists j : nat, phi (t + L * ln (INR h)) = INR h * phi t + 2 * PI * INR j) /\
    let raw := mk m (fun i => sin (phi (INR i * T / INR (m - 1)))) in
    (exists v, In v raw /\ v <> 0) ->
    exists s, chirp fs CSyncLog (Some [a; b]) len dbfs ch fade phase pad = Ok (Some s, Some T) /\ s_im s = None /\ s_scale s = 1 /\ s_fs s = fs /\
      shape (s_re s) (l + p) ch /\ forall c, (c < ch)%nat -> made dbfs fade lf (l + p) raw (nth c (s_re s) []).
Proof.
  intros fs a b len dbfs pad ph ch l p lf k m fade N Hfs Hr HT Hdb Hp f0 f1 Hk K1 L T Hl Hm M2 Hlf Hch Hn.
  assert (F : 0 < f0 < f1). { destruct Hr as (R1 & R2). split; auto. unfold f0, f1, Rmin, Rmax. destruct (Rle_dec a b); lra. }
  pose proof (ln_ratio f0 f1 F) as Q. assert (K : 0 < INR k) by (apply lt_0_INR; lia). assert (HL : 0 < L) by (apply Rdiv_lt_0_compat; lra).
  set (q := ln (f1 / f0)) in *. split; [|split].
  - destruct Hk as (A & B). assert (E : T - len = (INR k - f0 * len / q) * (q / f0)) by (unfold T, L; field; lra). rewrite E.
    assert (P : 0 < q / f0) by (apply Rdiv_lt_0_compat; lra). rewrite Rabs_mult, (Rabs_right (q / f0)) by lra. replace (q / (2 * f0)) with (/ 2 * (q / f0)) by (field; lra).
    apply Rmult_le_compat_r; [lra|]. apply Rabs_le. lra.
  - replace (T / L) with q by (unfold T; field; lra). unfold q. rewrite exp_ln by (apply Rdiv_lt_0_compat; lra). field. lra.
  - exists (sync_phase k L). split; [now apply sync_sweep|]. split.
    + intros h t Hh. exists (k * (h - 1))%nat. assert (0 < INR h) by (apply lt_0_INR; lia). unfold sync_phase. replace ((t + L * ln (INR h)) / L) with (t / L + ln (INR h)) by (field; lra).
      rewrite exp_plus, exp_ln by auto. rewrite mult_INR, minus_INR by auto. simpl (INR 1). ring.
    + cbv zeta. intros NZ. set (raw := mk m _) in *. assert (Lr : length raw = m) by apply mk_len.
      destruct (finish_col_ok dbfs fade len (IZR fs) (l + p) raw lf) as (out & E2 & Md); auto. { now apply IZR_lt. } { now rewrite Lr. }
      destruct (finish_signal dbfs fade lf (l + p) ch fs (repeat raw ch) (repeat out ch)) as (s & E3 & A & B & D & E & G & I); auto.
      { now apply (fits_two _ _ _ _ _ Hlf). } { now apply forall2_repeat. } { apply repeat_length. }
      exists s. split.
      * unfold chirp. rewrite range_ok' by auto. cbn [bind fst snd]. rewrite (pad_ok _ _ _ Hp). cbn [bind]. cbv zeta. rewrite (len_ok _ _ _ Hl). fold f0 f1.
        rewrite (sync_raw f0 f1 len fs k m F Hk K1 M2 Hm). cbn [bind fst snd]. fold q. fold L. fold T. fold raw. rewrite E2. cbn [bind]. rewrite repeat_map, E3. reflexivity.
      * repeat (split; [assumption|]). intros c Hc. rewrite A. rewrite (nth_indep _ [] out) by now rewrite repeat_length. now rewrite nth_repeat.
Qed.
Print Assumptions C80_sync.

(** "phase = 0 at the end" fails in general: the phase at the end is a whole number of turns exactly when k f1 / f0 is an integer. *)
Theorem C80_sync_end_phase_refuted : forall (f0 f1 : R) (k : nat) (phi : R -> R), 0 < f0 < f1 -> (1 <= k)%nat -> let L := INR k / f0 in
  sweep (fun t => f0 * exp (t / L)) phi ->
  ((exists j : Z, phi (L * ln (f1 / f0)) = 2 * PI * IZR j) <-> (exists j : Z, INR k * (f1 / f0) = IZR j)) /\
  (f1 / f0 = 5 / 4 -> k = 1%nat -> sin (phi (L * ln (f1 / f0))) = 1).
Proof.
  intros f0 f1 k phi Hf Hk L (S0 & S1). assert (K : 0 < INR k) by (apply lt_0_INR; lia). assert (HL : 0 < L) by (apply Rdiv_lt_0_compat; lra).
  assert (Ph : forall t, phi t = sync_phase k L t).
  { destruct (sync_sweep f0 k) as (T0 & T1); [lra|lia|]. fold L in T0, T1.
    assert (Z : forall t, derivable_pt_lim (fun u => phi u - sync_phase k L u) t 0).
    { intros t. replace 0 with (2 * PI * (f0 * exp (t / L)) - 2 * PI * (f0 * exp (t / L))) by ring. apply (derivable_pt_lim_minus phi (sync_phase k L)); auto. }
    assert (C : constant (fun u => phi u - sync_phase k L u)).
    { assert (pr : derivable (fun u => phi u - sync_phase k L u)) by (intros t; exists 0; apply Z). apply (null_derivative_1 _ pr). intros t. apply derive_pt_eq_0, Z. }
    intros t. specialize (C t 0). simpl in C. rewrite S0, T0 in C. lra. }
  assert (E : phi (L * ln (f1 / f0)) = 2 * PI * (INR k * (f1 / f0) - INR k)).
  { rewrite Ph. unfold sync_phase. replace (L * ln (f1 / f0) / L) with (ln (f1 / f0)) by (field; lra). rewrite exp_ln by (apply Rdiv_lt_0_compat; lra). ring. }
  rewrite E. pose proof PI_RGT_0 as P. split.
  - split; intros (j & Q).
    + exists (j + Z.of_nat k)%Z. rewrite plus_IZR, <- INR_IZR_INZ. apply Rmult_eq_reg_l in Q; lra.
    + exists (j - Z.of_nat k)%Z. rewrite minus_IZR, <- INR_IZR_INZ, Q. reflexivity.
  - intros -> ->. simpl INR. replace (2 * PI * (1 * (5 / 4) - 1)) with (PI / 2) by field. apply sin_PI2.
Qed.
Print Assumptions C80_sync_end_phase_refuted.
Example C80_sync_example : rounds (16 * (ln (5 / 4) / 16) / ln (20 / 16)) 1 /\ range_args 48 16 20.
Proof.
  split; [|split; [rewrite Rmin_left; lra|rewrite Rmax_right by lra; change (48 / 2)%Z with 24%Z; lra]]. replace (20 / 16) with (5 / 4) by field.
  assert (0 < ln (5 / 4)) by (rewrite <- ln_1; apply ln_increasing; lra). replace (16 * (ln (5 / 4) / 16) / ln (5 / 4)) with 1 by (field; lra). unfold rounds. simpl. lra.
Qed.

(** The phase offset has no effect on a synchronised chirp. *)
Theorem C80_sync_offset_refuted : forall fs range len dbfs ch fade pad p1 p2,
  chirp fs CSyncLog range len dbfs ch fade p1 pad = chirp fs CSyncLog range len dbfs ch fade p2 pad.
Proof. reflexivity. Qed.
Print Assumptions C80_sync_offset_refuted.
(** A synchronised chirp shorter than half of ln (f1 / f0) / f0 is an error, although the range and the length are valid. *)
Theorem C80_sync_short_refuted : forall (fs : Z) (a b len dbfs phase : R) (ch : nat) (fade : option fade_type),
  a <> b -> range_args fs a b -> 0 < len -> 2 * Rmin a b * len < ln (Rmax a b / Rmin a b) ->
  chirp fs CSyncLog (Some [a; b]) len dbfs ch fade phase 0 = Err ValueError.
Proof.
  intros fs a b len dbfs ph ch fade N Hr HT H. assert (F : 0 < Rmin a b < Rmax a b). { destruct Hr as (R1 & R2). split; auto. unfold Rmin, Rmax. destruct (Rle_dec a b); lra. }
  pose proof (ln_ratio _ _ F) as Q. unfold chirp. rewrite range_ok' by auto. cbn [bind fst snd]. rewrite (pad_ok 0 fs 0) by now left. cbn [bind]. cbv zeta.
  unfold sync_log_chirp. destruct (Req_EM_T _ 0) as [|_]; [lra|]. set (q := ln _) in *. set (f0 := Rmin a b) in *.
  assert (E : int_of (f0 * len / q + 5 / 10) = 0%nat).
  { apply int_of_floor. unfold floors. simpl. assert (0 < f0 * len / q) by (apply Rdiv_lt_0_compat; nra). assert (f0 * len / q < / 2). { apply (Rmult_lt_reg_r q); auto. unfold Rdiv. rewrite Rmult_assoc, Rinv_l by lra. lra. } lra. }
  rewrite E. simpl INR. replace (0 / f0 * q * IZR fs + 5 / 10) with (5 / 10) by (unfold Rdiv; ring). rewrite (int_of_floor (5 / 10) 0) by (unfold floors; simpl; lra). reflexivity.
Qed.
Print Assumptions C80_sync_short_refuted.
Example C80_sync_short_example : range_args 48000 1 20000 /\ 2 * Rmin 1 20000 * (1 / 10) < ln (Rmax 1 20000 / Rmin 1 20000).
Proof.
  rewrite Rmin_left, Rmax_right by lra. split. { split. rewrite Rmin_left; lra. rewrite Rmax_right by lra. change (48000 / 2)%Z with 24000%Z. lra. }
  replace (20000 / 1) with 20000 by field. apply (Rlt_le_trans _ (ln (exp 1))). rewrite ln_exp. lra. left. apply ln_increasing. apply exp_pos. pose proof exp_le_3. lra.
Qed.
(** ten seconds from 1 Hz to e Hz *)
Example C80_sync_instance : exists s, chirp 20 CSyncLog (Some [1; exp 1]) 10 (-10) 1 (Some Linear) 0 0 = Ok (Some s, Some 10) /\ shape (s_re s) 200 1.
Proof.
  pose proof (exp_ineq1 1 ltac:(lra)) as E2. pose proof exp_le_3 as E3.
  assert (Mn : Rmin 1 (exp 1) = 1) by (apply Rmin_left; lra). assert (Mx : Rmax 1 (exp 1) = exp 1) by (apply Rmax_right; lra).
  assert (Ln : ln (exp 1 / 1) = 1) by (unfold Rdiv; rewrite Rinv_1, Rmult_1_r; apply ln_exp).
  assert (I10 : INR 10 = 10) by (rewrite INR_IZR_INZ; reflexivity). assert (I200 : INR 200 = 200) by (rewrite INR_IZR_INZ; reflexivity).
  assert (I199 : INR (200 - 1) = 199) by (rewrite INR_IZR_INZ; reflexivity).
  pose proof (C80_sync 20 1 (exp 1) 10 (-10) 0 0 1 200 0 10 10 200 (Some Linear)) as H. cbv zeta in H. rewrite Mn, Mx, Ln in H.
  destruct H as (_ & _ & phi & S1 & H1 & H); try lra; try lia.
  - split; rewrite ?Mn, ?Mx; [lra|]. change (20 / 2)%Z with 10%Z. lra.
  - left. auto.
  - unfold rounds. rewrite I10. lra.
  - unfold rounds. rewrite I200. lra.
  - unfold rounds. rewrite I200, I10. lra.
  - unfold fade_fits. rewrite I10. split; [lra|lia].
  - assert (NZ : exists v, In v (mk 200 (fun i => sin (phi (INR i * (INR 10 / 1 * 1) / INR (200 - 1))))) /\ v <> 0).
    2:{ destruct (H NZ) as (s & E & _ & _ & _ & Sh & _). exists s. rewrite I10 in E. replace (10 / 1 * 1) with 10 in E by field. split; auto. }
    exists (sin (phi (10 / 199))). split.
    + unfold mk. apply in_map_iff. exists 1%nat. split; [|apply in_seq; lia]. do 2 f_equal. rewrite I10, I199. change (INR 1) with 1. field.
    + assert (Ph : forall t, phi t = sync_phase 10 10 t).
      { destruct (sync_sweep 1 10) as (T0 & T1); [lra|lia|]. rewrite I10 in T0, T1. rewrite I10 in S1. replace (10 / 1) with 10 in * by field. destruct S1 as (S0 & S1).
        assert (Z : forall t, derivable_pt_lim (fun u => phi u - sync_phase 10 10 u) t 0).
        { intros t. replace 0 with (2 * PI * (1 * exp (t / 10)) - 2 * PI * (1 * exp (t / 10))) by ring. apply (derivable_pt_lim_minus phi (sync_phase 10 10)); auto. }
        assert (C : constant (fun u => phi u - sync_phase 10 10 u)).
        { assert (pr : derivable (fun u => phi u - sync_phase 10 10 u)) by (intros t; exists 0; apply Z). apply (null_derivative_1 _ pr). intros t. apply derive_pt_eq_0, Z. }
        intros t. specialize (C t 0). simpl in C. rewrite S0, T0 in C. lra. }
      rewrite Ph. unfold sync_phase. rewrite I10. replace (10 / 199 / 10) with (/ 199) by field. pose proof PI_RGT_0 as P.
      pose proof (exp_ineq1 (/ 199) ltac:(lra)) as A1. pose proof (exp_ineq1 (- / 199) ltac:(lra)) as A2. pose proof (exp_pos (/ 199)).
      assert (A3 : exp (/ 199) * exp (- / 199) = 1) by (rewrite <- exp_plus, Rplus_opp_r; apply exp_0). assert (exp (/ 199) < 1 + / 20) by nra.
      assert (0 < sin (2 * PI * 10 * (exp (/ 199) - 1))); [|lra]. apply sin_gt_0; nra.
Qed.
