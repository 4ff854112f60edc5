(** C64: the quadrature mirror filter crossover; C65: complementary FIR filters. *)
From Coq Require Import List Arith Lia ZArith Bool Reals Lra Psatz.
From Verif Require Import Alg Spec M_arrays P_arrays P_conv Claims_arrays P_ar M_crossover P_crossover.
Import ListNotations.
Local Open Scope R_scope.
Notation rsum := (sum (HA := CRing_R)).

(** ** Specification *)
(** What the two halves of the crossover do to the signal together: the odd samples of twice h * h. *)
Definition transfer (h : list R) : list R := mk (2 * length h) (fun p => if Nat.odd p then 2 * conv h h p else 0).
(** samples added at the front to fill the last pair *)
Definition pad (n : nat) : nat := (n mod 2)%nat.

(** ** Parities *)
Definition par (e : bool) (h : list R) (k : nat) : R := if Bool.eqb (Nat.odd k) e then get h k else 0.
Lemma odd_sub n k : (k <= n)%nat -> Nat.odd (n - k) = xorb (Nat.odd n) (Nat.odd k).
Proof. intros H. replace n with (n - k + k)%nat at 2 by lia. rewrite Nat.odd_add. destruct (Nat.odd (n - k)), (Nat.odd k); reflexivity. Qed.
Lemma get_mirror h k : get (mirror h) k = if Nat.odd k then - get h k else get h k.
Proof.
  destruct (Nat.lt_ge_cases k (length h)). unfold mirror. now rewrite get_mk. rewrite !(get_out (HA := CRing_R)) by (unfold mirror; rewrite ?mk_length; lia). simpl. destruct (Nat.odd k); ring.
Qed.
Lemma get_negated h k : get (negated h) k = - get h k.
Proof.
  destruct (Nat.lt_ge_cases k (length h)). unfold negated, get. rewrite (nth_indep _ _ (- 0)) by (now rewrite map_length). apply (map_nth (fun v => - v)).
  rewrite !(get_out (HA := CRing_R)) by (unfold negated; rewrite ?map_length; lia). simpl. ring.
Qed.
Lemma mirror_length h : length (mirror h) = length h.
Proof. apply mk_length. Qed.
Lemma negated_length h : length (negated h) = length h.
Proof. apply map_length. Qed.
Lemma cross_terms h p : sconv (par false h) (par true h) p = if Nat.odd p then conv h h p / 2 else 0.
Proof.
  assert (E : sconv (par false h) (par true h) p + sconv (par true h) (par false h) p = if Nat.odd p then conv h h p else 0).
  { unfold sconv, conv. rewrite <- (sum_add (HA := CRing_R)). destruct (Nat.odd p) eqn:O.
    - apply (sum_ext (HA := CRing_R)). intros k Hk. unfold par. rewrite odd_sub, O by lia. destruct (Nat.odd k); simpl; ring.
    - apply (sum_zero' (HA := CRing_R)). intros k Hk. unfold par. rewrite odd_sub, O by lia. destruct (Nat.odd k); simpl; ring. }
  rewrite (sconv_comm (par true h)) in E. destruct (Nat.odd p); lra.
Qed.
Lemma branch_difference h x k t : conv h x t - (if Nat.odd k then - conv (mirror h) x t else conv (mirror h) x t) = 2 * sconv (par (negb (Nat.odd k)) h) (get x) t.
Proof.
  unfold conv, sconv. rewrite <- (sum_scal_l (HA := CRing_R) _ 2). destruct (Nat.odd k).
  - transitivity (rsum (S t) (fun i => get h i * get x (t - i)) + rsum (S t) (fun i => get (mirror h) i * get x (t - i))). simpl. ring.
    rewrite <- (sum_add (HA := CRing_R)). apply (sum_ext (HA := CRing_R)). intros i Hi. rewrite get_mirror. unfold par. destruct (Nat.odd i); simpl; ring.
  - rewrite <- (sum_sub (HA := CRing_R)). apply (sum_ext (HA := CRing_R)). intros i Hi. rewrite get_mirror. unfold par. destruct (Nat.odd i); simpl; ring.
Qed.
Lemma transfer_at h x t : (length h <> 0)%nat -> conv (transfer h) x t = 4 * sconv (sconv (par false h) (par true h)) (get x) t.
Proof.
  intros L. unfold conv, sconv at 1. rewrite <- (sum_scal_l (HA := CRing_R) _ 4). apply (sum_ext (HA := CRing_R)). intros p Hp. rewrite cross_terms.
  destruct (Nat.lt_ge_cases p (2 * length h)).
  - unfold transfer. rewrite get_mk by auto. destruct (Nat.odd p); simpl; lra.
  - rewrite (get_out (HA := CRing_R)) by (unfold transfer; now rewrite mk_length). destruct (Nat.odd p); [|simpl; ring]. assert (Z : conv h h p = 0).
    { apply (sum_zero' (HA := CRing_R)). intros i Hi. destruct (Nat.lt_ge_cases i (length h)). rewrite (get_out h (p - i)) by lia. simpl. ring. rewrite (get_out h i) by lia. simpl. ring. }
    rewrite Z. simpl. lra.
Qed.
Lemma even_half n : Nat.odd n = false -> (n = 2 * (n / 2))%nat.
Proof. intros H. rewrite <- Nat.negb_even in H. apply negb_false_iff, Nat.even_spec in H. destruct H as [m ->]. replace (2 * m / 2)%nat with m; auto. rewrite Nat.mul_comm, Nat.div_mul; lia. Qed.
Lemma pad_form n : ((2 - n mod 2) mod 2 = pad n)%nat.
Proof. unfold pad. pose proof (Nat.mod_upper_bound n 2). destruct (n mod 2)%nat as [|[|m]]; try reflexivity. lia. Qed.
Lemma odd_mod n : (n mod 2 = if Nat.odd n then 1 else 0)%nat.
Proof. rewrite <- Nat.bit0_mod, Nat.bit0_odd. destruct (Nat.odd n); reflexivity. Qed.
Lemma resample_down h fs x : (0 < fs)%nat -> Nat.odd fs = false -> resample_fir h fs fs (fs / 2) x = filter_downsample 2 h x.
Proof.
  intros P O. pose proof (even_half fs O) as E. set (k := (fs / 2)%nat) in *. assert (0 < k)%nat by lia. unfold resample_fir.
  assert (G : Nat.gcd k fs = k). { rewrite E. replace (2 * k)%nat with (k * 2)%nat by lia. now rewrite Nat.gcd_mul_diag_l by lia. }
  rewrite G. rewrite Nat.div_same by lia. cbn [Nat.eqb]. rewrite Nat.eqb_refl. f_equal. rewrite E. apply Nat.div_mul. lia.
Qed.
Lemma resample_up h fs x : (0 < fs)%nat -> Nat.odd fs = false -> resample_fir h fs (fs / 2) (2 * (fs / 2)) x = filter_upsample 2 h x.
Proof.
  intros P O. pose proof (even_half fs O) as E. set (k := (fs / 2)%nat) in *. assert (0 < k)%nat by lia. unfold resample_fir.
  assert (G : Nat.gcd (2 * k) k = k). { replace (2 * k)%nat with (k * 2)%nat by lia. rewrite Nat.gcd_comm. now rewrite Nat.gcd_mul_diag_l by lia. }
  rewrite G, Nat.div_mul, Nat.div_same by lia. cbn [Nat.eqb]. replace (k * 2 =? fs)%nat with true. reflexivity. symmetry. apply Nat.eqb_eq. lia.
Qed.

(** ** C64: reconstruction *)
(** Away from the ends the aliasing of the two bands cancels for every prototype and every signal: the reconstruction is the input
    filtered by the odd samples of twice h * h, at a fixed offset. *)
Theorem C64_reconstruction h fs x : (4 <= length h)%nat -> x <> [] -> (0 < fs)%nat -> Nat.odd fs = false ->
  let L := length h in let half := ((L - 1) / 2)%nat in
  exists lo hi rec, qmf_analyse h fs x = Ok (lo, hi) /\ qmf_reconstruct h fs (fs / 2) true (lo, hi) = Ok rec /\
    length lo = length hi /\ (2 * length lo = length x + pad (length x))%nat /\ length rec = (length x + pad (length x))%nat /\
    forall j, (L - 1 <= half + j < length x)%nat ->
      get rec j = conv (transfer h) x (2 * (half / 2) + 1 + half + j - (pad (length x) + pad L)).
Proof.
  intros L4 Hx Pf Of. cbv zeta. set (L := length h) in *. set (half := ((L - 1) / 2)%nat). assert (H1 : (1 <= half)%nat) by (unfold half; apply Nat.div_le_lower_bound; lia).
  assert (HB : (2 * half + 1 = L \/ 2 * half + 2 = L)%nat) by (unfold half; pose proof (Nat.div_mod (L - 1) 2); pose proof (Nat.mod_upper_bound (L - 1) 2); lia).
  assert (PL : (pad L = 1 /\ 2 * half + 1 = L \/ pad L = 0 /\ 2 * half + 2 = L)%nat).
  { unfold pad. destruct HB as [B | B]; [left|right]; split; auto. replace L with (1 + half * 2)%nat by lia. rewrite Nat.mod_add by lia. reflexivity. replace L with (0 + (half + 1) * 2)%nat by lia. rewrite Nat.mod_add by lia. reflexivity. }
  assert (PX : (pad (length x) <= 1)%nat) by (unfold pad; pose proof (Nat.mod_upper_bound (length x) 2); lia).
  assert (HD := even_half). assert (HH : (2 * (half / 2) <= half <= 2 * (half / 2) + 1)%nat) by (pose proof (Nat.div_mod half 2); pose proof (Nat.mod_upper_bound half 2); lia).
  assert (S0 : (pad (length x) + pad L <= 2 * (half / 2) + 1)%nat).
  { destruct PL as [[A B] | [A B]]; [|lia]. assert (2 <= half)%nat by lia. assert (1 <= half / 2)%nat by (apply Nat.div_le_lower_bound; lia). lia. }
  set (P := (pad (length x) + pad L)%nat) in *.
  destruct (C17_downsample_is_decimated_convolution R CRing_R 2 h x ltac:(lia) ltac:(fold L; lia) Hx) as (lo & E1 & LL & V1). fold L in LL, V1. fold half in LL, V1. rewrite !pad_form in LL, V1. fold P in V1.
  destruct (C17_downsample_is_decimated_convolution R CRing_R 2 (mirror h) x ltac:(lia) ltac:(rewrite mirror_length; fold L; lia) Hx) as (hi & E2 & LH & V2). rewrite mirror_length in LH, V2. fold L in LH, V2. fold half in LH, V2. rewrite !pad_form in LH, V2. fold P in V2.
  cbv zeta in *. change (2 - 1)%nat with 1%nat in *. exists lo, hi.
  assert (EQ : length lo = length hi) by congruence.
  assert (CX : (2 * ((length x + pad (length x)) / 2) = length x + pad (length x))%nat).
  { symmetry. apply even_half. unfold pad. rewrite odd_mod. destruct (Nat.odd (length x)) eqn:O; rewrite Nat.odd_add, O; reflexivity. }
  assert (CL : ((L + pad L) / 2 = half + 1)%nat). { replace (L + pad L)%nat with ((half + 1) * 2)%nat by lia. apply Nat.div_mul. lia. }
  assert (HS : (half / 2 + (half + 1) / 2 = half)%nat). { pose proof (Nat.div_mod half 2). pose proof (Nat.div_mod (half + 1) 2). pose proof (Nat.mod_upper_bound half 2). pose proof (Nat.mod_upper_bound (half + 1) 2). lia. }
  assert (LO : (2 * length lo = length x + pad (length x))%nat) by (rewrite LL, CL; lia).
  assert (Nlo : lo <> []) by (intros ->; simpl in LO; destruct x; [congruence|simpl in LO; lia]). assert (Nhi : hi <> []) by (intros ->; simpl in EQ; destruct lo; [congruence|discriminate]).
  assert (Hh : h <> []) by (intros ->; simpl in L4; unfold L in L4; simpl in L4; lia). assert (PH : ((2 - L mod 2) mod 2 < half)%nat) by (rewrite pad_form; lia).
  destruct (C18_upsample_is_interpolated_convolution R CRing_R 2 h lo ltac:(lia) Hh Nlo) as (u & U1 & U2 & U3). exact PH.
  assert (Hm : negated (mirror h) <> []) by (intros E; apply (f_equal (@length R)) in E; rewrite negated_length, mirror_length in E; fold L in E; simpl in E; lia).
  destruct (C18_upsample_is_interpolated_convolution R CRing_R 2 (negated (mirror h)) hi ltac:(lia) Hm Nhi) as (v & W1 & W2 & W3). rewrite negated_length, mirror_length. exact PH.
  rewrite negated_length, mirror_length in W2, W3. fold L in U2, U3, W2, W3. fold half in U2, U3, W2, W3. rewrite pad_form, CL in U2, W2.
  exists (vadd u v). unfold qmf_analyse, qmf_reconstruct. cbn [fst snd]. rewrite !resample_down, !resample_up by auto. rewrite E1, E2. cbn [bind]. rewrite U1, W1. cbn [bind].
  assert (LU : length u = length v) by (rewrite U2, W2, EQ; reflexivity). rewrite LU, Nat.eqb_refl. rewrite vadd_len. split; [auto|]. split; [auto|]. split; [auto|]. split; [auto|].
  clear PH CL CX HD HB LL LH U1 W1 E1 E2. set (hh := (half / 2)%nat) in *. clear HS. clearbody hh half. split; [lia|].
  intros j Hj. set (N := (half + j)%nat) in *. set (s0 := (2 * hh + 1 - P)%nat). replace (2 * hh + 1 + half + j - P)%nat with (N + s0)%nat by (unfold N, s0; lia).
  assert (J : (j < length u)%nat) by (unfold N in *; lia). rewrite vadd_get by auto. rewrite U3, W3 by lia. fold N.
  assert (B1 : forall i, (i < length lo)%nat -> get lo i = conv h x (2 * i + s0)).
  { intros i Hi. rewrite V1 by auto. replace ((hh + i) * 2 + 1 <? P)%nat with false. f_equal. unfold s0. lia. symmetry. apply Nat.ltb_ge. lia. }
  assert (B2 : forall i, (i < length hi)%nat -> get hi i = conv (mirror h) x (2 * i + s0)).
  { intros i Hi. rewrite V2 by auto. replace ((hh + i) * 2 + 1 <? P)%nat with false. f_equal. unfold s0. lia. symmetry. apply Nat.ltb_ge. lia. }
  assert (NL : (N < 2 * length lo)%nat) by lia. clear V1 V2 U3 W3 U2 W2.
  transitivity (2 * conv h (zeros_between 2 lo) N + 2 * conv (negated (mirror h)) (zeros_between 2 hi) N). simpl. ring.
  transitivity (4 * sconv (par (Nat.odd N) h) (sconv (par (negb (Nat.odd N)) h) (get x)) (N + s0)).
  2:{ rewrite transfer_at by (fold L; lia). rewrite <- sconv_assoc. destruct (Nat.odd N); cbn [negb]; [|reflexivity]. f_equal. apply sconv_ext; auto. intros. apply sconv_comm. }
  transitivity (rsum (S N) (fun k => 4 * (par (Nat.odd N) h k * sconv (par (negb (Nat.odd N)) h) (get x) (N + s0 - k)))).
  2:{ rewrite (sum_scal_l (HA := CRing_R)). unfold sconv at 2. symmetry. apply (f_equal (Rmult 4)). apply (sum_trunc (HA := CRing_R)). lia. intros i Hi. unfold par at 1. rewrite (get_out h i) by (fold L; lia). destruct (Bool.eqb _ _); simpl; ring. }
  unfold conv. rewrite <- !(sum_scal_l (HA := CRing_R)), <- (sum_add (HA := CRing_R)). apply (sum_ext (HA := CRing_R)). intros k Hk. rewrite !get_zeros_between by lia. rewrite get_negated, get_mirror.
  rewrite odd_mod, odd_sub by lia. unfold par at 1. destruct (Nat.odd N) eqn:ON, (Nat.odd k) eqn:OK; cbn [xorb Nat.eqb Bool.eqb negb]; try (simpl; ring).
  - assert (Z : Nat.odd (N - k) = false) by (rewrite odd_sub, ON, OK by lia; reflexivity). apply even_half in Z. rewrite B1, B2 by lia. replace (2 * ((N - k) / 2) + s0)%nat with (N + s0 - k)%nat by lia.
    pose proof (branch_difference h x k (N + s0 - k)) as D. rewrite OK in D. cbn [negb] in D. simpl in *. nra.
  - assert (Z : Nat.odd (N - k) = false) by (rewrite odd_sub, ON, OK by lia; reflexivity). apply even_half in Z. rewrite B1, B2 by lia. replace (2 * ((N - k) / 2) + s0)%nat with (N + s0 - k)%nat by lia.
    pose proof (branch_difference h x k (N + s0 - k)) as D. rewrite OK in D. cbn [negb] in D. simpl in *. nra.
Qed.
Print Assumptions C64_reconstruction.

(** A prototype of even length whose h * h has 1/2 in its centre and nothing else at odd places reconstructs the signal exactly. The
    delay depends on the length of the prototype (one sample more if four divides it) and on the parity of the signal's length. *)
Lemma conv_spike (T : list R) x t c : (c <= t)%nat -> get T c = 1 -> (forall p, p <> c -> get T p = 0) -> conv T x t = get x (t - c).
Proof. intros H H1 H0. unfold conv. rewrite (sum_single (HA := CRing_R) _ c) by (try lia; intros i Hi Hn; rewrite H0 by auto; simpl; ring). rewrite H1. simpl. ring. Qed.
Theorem C64_perfect_reconstruction h fs x : (4 <= length h)%nat -> x <> [] -> (0 < fs)%nat -> Nat.odd fs = false -> Nat.even (length h) = true ->
  conv h h (length h - 1) = / 2 -> (forall p, Nat.odd p = true -> p <> (length h - 1)%nat -> conv h h p = 0) ->
  exists lo hi rec, qmf_analyse h fs x = Ok (lo, hi) /\ qmf_reconstruct h fs (fs / 2) true (lo, hi) = Ok rec /\ length rec = (length x + pad (length x))%nat /\
    let late := ((if (length h mod 4 =? 0)%nat then 1 else 0) + length x mod 2)%nat in
    forall j, (length h / 2 <= j)%nat -> (j + length h / 2 <= length x)%nat -> get rec j = get x (j - late).
Proof.
  intros L4 Hx Pf Of Ev H1 H0. destruct (C64_reconstruction h fs x L4 Hx Pf Of) as (lo & hi & rec & A & B & C & D & E & F). exists lo, hi, rec. do 3 (split; [auto|]). cbv zeta.
  apply Nat.even_spec in Ev. destruct Ev as [q Q].
  assert (HF : ((length h - 1) / 2 = q - 1)%nat). { rewrite Q. replace (2 * q - 1)%nat with (1 + (q - 1) * 2)%nat by lia. rewrite Nat.div_add by lia. reflexivity. }
  assert (HQ : (length h / 2 = q)%nat) by (rewrite Q, Nat.mul_comm, Nat.div_mul; lia). assert (HP : pad (length h) = 0%nat) by (unfold pad; rewrite Q, Nat.mul_comm, Nat.mod_mul; lia).
  rewrite HF, HP in F. rewrite HQ. intros j J1 J2. rewrite F by lia.
  assert (PX : (pad (length x) <= 1)%nat) by (unfold pad; pose proof (Nat.mod_upper_bound (length x) 2); lia). fold (pad (length x)).
  assert (M : ((if (length h mod 4 =? 0)%nat then 1 else 0) + 2 * ((q - 1) / 2) + 1 = q)%nat).
  { pose proof (Nat.div_mod (q - 1) 2). pose proof (Nat.mod_upper_bound (q - 1) 2). pose proof (Nat.div_mod (length h) 4). pose proof (Nat.mod_upper_bound (length h) 4). destruct (Nat.eqb_spec (length h mod 4) 0); lia. }
  assert (O : Nat.odd (length h - 1) = true) by (rewrite Q; replace (2 * q - 1)%nat with (1 + 2 * (q - 1))%nat by lia; rewrite Nat.odd_add_mul_2; reflexivity).
  rewrite (conv_spike _ _ _ (length h - 1)).
  - f_equal. set (e := if (_ =? 0)%nat then 1%nat else 0%nat) in *. set (w := ((q - 1) / 2)%nat) in *. clearbody e w. lia.
  - set (e := if (_ =? 0)%nat then 1%nat else 0%nat) in *. set (w := ((q - 1) / 2)%nat) in *. clearbody e w. lia.
  - unfold transfer. rewrite get_mk by lia. rewrite O, H1. simpl. field.
  - intros p Hp. destruct (Nat.lt_ge_cases p (2 * length h)); [|apply (get_out (HA := CRing_R)); unfold transfer; now rewrite mk_length].
    unfold transfer. rewrite get_mk by auto. destruct (Nat.odd p) eqn:Op; auto. rewrite H0 by auto. simpl. ring.
Qed.
Print Assumptions C64_perfect_reconstruction.
Example C64_perfect_example : let h := [0; / 2; / 2; 0] in (4 <= length h)%nat /\ Nat.even (length h) = true /\ conv h h 3 = / 2 /\ (forall p, Nat.odd p = true -> p <> 3%nat -> conv h h p = 0).
Proof.
  cbv zeta. split; [simpl; lia|]. split; [reflexivity|]. split. cbv -[Rplus Rmult Ropp Rinv IZR]. lra.
  intros p O N. apply (sum_zero' (HA := CRing_R)). intros k Hk.
  assert (G : forall i, i <> 1%nat -> i <> 2%nat -> get [0; / 2; / 2; 0] i = 0) by (intros [|[|[|[|[|i]]]]]; unfold get; simpl; auto; congruence).
  destruct (Nat.eq_dec k 1) as [->|]; [|destruct (Nat.eq_dec k 2) as [->|]].
  - rewrite (G (p - 1)%nat). simpl; ring. intros Z. replace p with 2%nat in O by lia. discriminate. lia.
  - rewrite (G (p - 2)%nat). simpl; ring. lia. intros Z. replace p with 4%nat in O by lia. discriminate.
  - rewrite (G k) by auto. simpl. ring.
Qed.

(** Counterexample: with a symmetric prototype of odd length, whatever its coefficients, a tone at a quarter of the sampling rate
    (any signal that changes sign every two samples) is lost. *)
Lemma conv_symmetric h c p : length h = S c -> (forall i, (i <= c)%nat -> get h (c - i) = get h i) -> (p <= 2 * c)%nat -> conv h h (2 * c - p) = conv h h p.
Proof.
  intros L S Hp. assert (G : forall p, conv h h p = rsum (length h) (fun k => get h k * (if (k <=? p)%nat then get h (p - k) else 0))).
  { intros q. unfold conv. destruct (Nat.le_gt_cases (length h) (Datatypes.S q)).
    - rewrite (sum_trunc (HA := CRing_R) (length h)); auto. apply (sum_ext (HA := CRing_R)). intros i Hi. destruct (Nat.leb_spec i q); [reflexivity|lia]. intros i Hi. rewrite (get_out h i) by lia. simpl. ring.
    - symmetry. rewrite (sum_trunc (HA := CRing_R) (Datatypes.S q)); try lia. apply (sum_ext (HA := CRing_R)). intros i Hi. destruct (Nat.leb_spec i q); [reflexivity|lia]. intros i Hi. destruct (Nat.leb_spec i q); [lia|]. simpl. ring. }
  rewrite !G. rewrite (sum_rev (HA := CRing_R)). apply (sum_ext (HA := CRing_R)). intros k Hk. replace (length h - 1 - k)%nat with (c - k)%nat by lia. rewrite S by lia. f_equal.
  destruct (Nat.leb_spec (c - k) (2 * c - p)) as [A|A], (Nat.leb_spec k p) as [B|B]; auto.
  - replace (2 * c - p - (c - k))%nat with (c - (p - k))%nat by lia. apply S. lia.
  - rewrite (get_out (HA := CRing_R)) by lia. reflexivity.
  - rewrite (get_out (HA := CRing_R)) by lia. reflexivity.
Qed.
Lemma antiperiodic (x : list R) : (forall n, (n + 2 < length x)%nat -> get x (n + 2) = - get x n) -> forall k n, (n + 2 * k < length x)%nat -> get x (n + 2 * k) = if Nat.odd k then - get x n else get x n.
Proof.
  intros H k. induction k as [|k IH]; intros n Hn. cbn [Nat.odd Nat.even negb]. change (Nat.odd 0) with false. cbn iota. f_equal. lia. replace (n + 2 * S k)%nat with (n + 2 * k + 2)%nat by lia. rewrite H, IH by lia. rewrite Nat.odd_succ, <- Nat.negb_odd. destruct (Nat.odd k); simpl; ring.
Qed.
Lemma double_zero (s : R) : s = - s -> s = 0. Proof. lra. Qed.
Theorem C64_odd_prototype_refuted h fs x : (5 <= length h)%nat -> Nat.odd (length h) = true -> (forall i, (i < length h)%nat -> get h (length h - 1 - i) = get h i) ->
  (0 < fs)%nat -> Nat.odd fs = false -> x <> [] -> (forall n, (n + 2 < length x)%nat -> get x (n + 2) = - get x n) ->
  exists lo hi rec, qmf_analyse h fs x = Ok (lo, hi) /\ qmf_reconstruct h fs (fs / 2) true (lo, hi) = Ok rec /\ length rec = (length x + pad (length x))%nat /\
    forall j, (2 * length h <= j)%nat -> (j + length h < length x)%nat -> get rec j = 0.
Proof.
  intros L5 Od Sy Pf Of Hx An. destruct (C64_reconstruction h fs x ltac:(lia) Hx Pf Of) as (lo & hi & rec & A & B & C & D & E & F). exists lo, hi, rec. do 3 (split; [auto|]).
  intros j J1 J2. assert (HF : (2 * ((length h - 1) / 2) <= length h - 1)%nat) by (pose proof (Nat.div_mod (length h - 1) 2); lia). assert (HG : (2 * ((length h - 1) / 2 / 2) <= (length h - 1) / 2)%nat) by (pose proof (Nat.div_mod ((length h - 1) / 2) 2); lia).
  rewrite F by lia. assert (PX : (pad (length x) <= 1)%nat) by (unfold pad; pose proof (Nat.mod_upper_bound (length x) 2); lia). assert (PL : (pad (length h) <= 1)%nat) by (unfold pad; pose proof (Nat.mod_upper_bound (length h) 2); lia).
  set (t := (2 * ((length h - 1) / 2 / 2) + 1 + (length h - 1) / 2 + j - (pad (length x) + pad (length h)))%nat). assert (T1 : (2 * length h - 1 <= t)%nat) by lia. assert (T2 : (t < length x)%nat) by lia. clearbody t.
  set (c := (length h - 1)%nat) in *. assert (Oc : Nat.odd c = false). { unfold c. rewrite odd_sub by lia. rewrite Od. reflexivity. }
  unfold conv. rewrite (sum_trunc (HA := CRing_R) (S (2 * c))).
  2: unfold c; lia.
  2:{ intros i Hi. destruct (Nat.lt_ge_cases i (2 * length h)).
      unfold transfer. rewrite get_mk by auto. replace i with (2 * c + 1)%nat by (unfold c in *; lia). assert (Z : conv h h (2 * c + 1) = 0).
      { apply (sum_zero' (HA := CRing_R)). intros k Hk. destruct (Nat.lt_ge_cases k (length h)). rewrite (get_out h (2 * c + 1 - k)) by (unfold c; lia). simpl. ring. rewrite (get_out h k) by lia. simpl. ring. }
      rewrite Z. change (@rmul R CRing_R) with Rmult. change (@r0 R CRing_R) with 0. destruct (Nat.odd (2 * c + 1)); ring.
      rewrite (get_out (HA := CRing_R)) by (unfold transfer; now rewrite mk_length). simpl. ring. }
  apply double_zero. rewrite (sum_rev (HA := CRing_R)) at 1. rewrite <- (sum_opp (HA := CRing_R)). apply (sum_ext (HA := CRing_R)). intros p Hp. replace (S (2 * c) - 1 - p)%nat with (2 * c - p)%nat by lia.
  unfold transfer. rewrite !get_mk by (unfold c in *; lia). rewrite (conv_symmetric h c p) by (try (unfold c; lia); intros i Hi; apply Sy; unfold c in Hi; lia).
  assert (O2 : Nat.odd (2 * c - p) = Nat.odd p). { rewrite odd_sub by lia. rewrite Nat.odd_mul. simpl. now destruct (Nat.odd p). }
  rewrite O2. destruct (Nat.odd p) eqn:Op; [|simpl; ring].
  assert (X : get x (t - (2 * c - p)) = - get x (t - p)).
  { destruct (Nat.le_gt_cases p c) as [Q|Q].
    - replace (t - p)%nat with (t - (2 * c - p) + 2 * (c - p))%nat by (unfold c in *; lia). rewrite (antiperiodic x An) by (unfold c in *; lia). rewrite odd_sub, Oc, Op by lia. simpl. ring.
    - replace (t - (2 * c - p))%nat with (t - p + 2 * (p - c))%nat by (unfold c in *; lia). rewrite (antiperiodic x An) by (unfold c in *; lia). rewrite odd_sub, Oc, Op by lia. reflexivity. }
  rewrite X. simpl. ring.
Qed.
Print Assumptions C64_odd_prototype_refuted.
Example C64_odd_example : let h := [1; 2; 3; 2; 1] in let x := concat (repeat [1; 1; -1; -1] 5) in
  (5 <= length h)%nat /\ Nat.odd (length h) = true /\ (forall i, (i < length h)%nat -> get h (length h - 1 - i) = get h i) /\ (forall n, (n + 2 < length x)%nat -> get x (n + 2) = - get x n) /\ exists j, (2 * length h <= j)%nat /\ (j + length h < length x)%nat.
Proof.
  cbv zeta. cbn [concat repeat app length]. split; [lia|]. split; [reflexivity|]. split. intros i Hi. do 5 (destruct i as [|i]; [reflexivity|]). lia.
  split. intros n Hn. do 18 (destruct n as [|n]; [unfold get; simpl; try reflexivity; lra|]). lia. exists 10%nat. lia.
Qed.

(** Prototypes of up to three coefficients reconstruct nothing at all. *)
Theorem C64_short_prototype_refuted h fs lo hi : (1 <= length h <= 3)%nat -> (0 < fs)%nat -> Nat.odd fs = false -> lo <> [] -> hi <> [] -> qmf_reconstruct h fs (fs / 2) true (lo, hi) = Ok [].
Proof.
  intros L Pf Of Nl Nh. unfold qmf_reconstruct. cbn [fst snd]. rewrite !resample_up by auto.
  assert (K : ((length h - 1) / 2 <= (2 - length h mod 2) mod 2)%nat). { assert (length h = 1 \/ length h = 2 \/ length h = 3)%nat as [-> | [-> | ->]] by lia; reflexivity || (simpl; lia). }
  assert (N1 : h <> []) by (intros ->; simpl in L; lia). assert (N2 : negated (mirror h) <> []) by (intros E; apply (f_equal (@length R)) in E; rewrite negated_length, mirror_length in E; simpl in E; lia).
  rewrite (C18_short_filter_output_empty R CRing_R 2 h lo ltac:(lia) N1 Nl K). rewrite (C18_short_filter_output_empty R CRing_R 2 (negated (mirror h)) hi ltac:(lia) N2 Nh) by (rewrite negated_length, mirror_length; exact K). reflexivity.
Qed.
Print Assumptions C64_short_prototype_refuted.

(** Signals with an odd sampling rate are refused. *)
Theorem C64_odd_rate h fs x : Nat.odd fs = true -> fs <> 3%nat -> qmf_analyse h fs x = Err AssertionError.
Proof.
  intros O N. apply Nat.odd_spec in O. destruct O as [k ->]. unfold qmf_analyse, resample_fir. replace ((2 * k + 1) / 2)%nat with k by (rewrite Nat.add_comm, Nat.mul_comm, Nat.div_add by lia; reflexivity).
  assert (G : Nat.gcd k (2 * k + 1) = 1%nat). { rewrite (Nat.add_comm (2 * k)). rewrite Nat.gcd_add_mult_diag_r. apply Nat.gcd_1_r. }
  rewrite G, !Nat.div_1_r. destruct (Nat.eqb_spec k 1); [lia|]. destruct (Nat.eqb_spec (2 * k + 1) 1). assert (k = 0)%nat as -> by lia. reflexivity. reflexivity.
Qed.
Print Assumptions C64_odd_rate.
Example C64_rate_example : Nat.odd (441) = true /\ (0 < 48)%nat /\ Nat.odd 48 = false. Proof. repeat split; try reflexivity; lia. Qed.

(** ** C65: complementary filters *)
Lemma peak_from_spec (b : list R) : forall t i best v, (forall j, (j < i)%nat -> Rabs (get b j) <= v) -> v = Rabs (get b best) -> (best < i)%nat -> (forall j, (j < best)%nat -> Rabs (get b j) < v) ->
  (i + length t = length b)%nat -> (forall j, get t j = get b (i + j)) ->
  let p := peak_from t i best v in (p < length b)%nat /\ (forall j, (j < length b)%nat -> Rabs (get b j) <= Rabs (get b p)) /\ (forall j, (j < p)%nat -> Rabs (get b j) < Rabs (get b p)).
Proof.
  induction t as [|a t IH]; intros i best v H1 H2 H3 H4 HL HT; cbn [peak_from]; cbv zeta.
  - simpl in HL. split; [lia|]. split. intros j Hj. rewrite <- H2. apply H1. lia. intros j Hj. rewrite <- H2. auto.
  - assert (A : a = get b i) by (specialize (HT 0%nat); rewrite Nat.add_0_r in HT; rewrite <- HT; reflexivity). simpl in HL.
    assert (T' : forall j, get t j = get b (S i + j)) by (intros j; rewrite Nat.add_succ_comm, <- HT; reflexivity).
    destruct (Rlt_dec v (Rabs a)) as [Q|Q].
    + apply IH; try lia; auto. intros j Hj. destruct (Nat.eq_dec j i) as [->|]. rewrite A; lra. specialize (H1 j ltac:(lia)). lra. congruence. intros j Hj. specialize (H1 j Hj). lra.
    + apply IH; try lia; auto. intros j Hj. destruct (Nat.eq_dec j i) as [->|]. rewrite <- A; lra. apply H1. lia.
Qed.
Lemma peak_spec b : b <> [] -> (peak b < length b)%nat /\ (forall j, (j < length b)%nat -> Rabs (get b j) <= Rabs (get b (peak b))) /\ (forall j, (j < peak b)%nat -> Rabs (get b j) < Rabs (get b (peak b))).
Proof.
  intros N. destruct b as [|a t]; [congruence|]. unfold peak. apply (peak_from_spec (a :: t)); auto; try (simpl; lia). intros j Hj. replace j with 0%nat by lia. unfold get. simpl. lra.
Qed.
(** The outputs of a filter of odd length and of its complement add up to the input, delayed to the first largest coefficient: for
    every prototype, of linear phase or not. *)
Theorem C65_sum_is_delayed_input sinc b x : Nat.odd (length b) = true -> exists p, (p < length b)%nat /\
  (forall j, (j < length b)%nat -> Rabs (get b j) <= Rabs (get b p)) /\ (forall j, (j < p)%nat -> Rabs (get b j) < Rabs (get b p)) /\
  length (complementary sinc b) = length b /\
  forall n, conv b x n + conv (complementary sinc b) x n = if (n <? p)%nat then 0 else get x (n - p).
Proof.
  intros O. assert (N : b <> []) by (intros ->; discriminate). destruct (peak_spec b N) as (P1 & P2 & P3). exists (peak b). do 3 (split; [auto|]). unfold complementary. rewrite O. split. now rewrite upd_length, negated_length.
  intros n. unfold conv. rewrite <- (sum_add (HA := CRing_R)).
  assert (G : forall k, get b k + get (upd (negated b) (peak b) (- get b (peak b) + 1)) k = if (k =? peak b)%nat then 1 else 0).
  { intros k. rewrite get_upd by (now rewrite negated_length). destruct (Nat.eqb_spec k (peak b)) as [->|]. ring. rewrite get_negated. ring. }
  set (cb := upd _ _ _) in *. destruct (Nat.ltb_spec n (peak b)).
  - apply (sum_zero' (HA := CRing_R)). intros k Hk. transitivity ((get b k + get cb k) * get x (n - k)). simpl. ring. rewrite G. destruct (Nat.eqb_spec k (peak b)). lia. simpl. ring.
  - rewrite (sum_single (HA := CRing_R) _ (peak b)); try lia.
    + transitivity ((get b (peak b) + get cb (peak b)) * get x (n - peak b)). simpl. ring. rewrite G, Nat.eqb_refl. ring.
    + intros k Hk Hn. transitivity ((get b k + get cb k) * get x (n - k)). simpl. ring. rewrite G. destruct (Nat.eqb_spec k (peak b)). congruence. simpl. ring.
Qed.
Print Assumptions C65_sum_is_delayed_input.
Example C65_example : Nat.odd (length [1; 2; 1]) = true. Proof. reflexivity. Qed.
(** For even lengths the sum is the windowed sinc, whatever the prototype. *)
Theorem C65_even_sum sinc b b' x n : Nat.even (length b) = true -> length b' = length b -> length (sinc (length b)) = length b ->
  conv b x n + conv (complementary sinc b) x n = conv (sinc (length b)) x n /\
  conv b' x n + conv (complementary sinc b') x n = conv b x n + conv (complementary sinc b) x n.
Proof.
  assert (G : forall c, Nat.even (length c) = true -> length (sinc (length c)) = length c -> conv c x n + conv (complementary sinc c) x n = conv (sinc (length c)) x n).
  { intros c E L. unfold complementary. rewrite <- Nat.negb_even, E. cbn [negb]. unfold conv. rewrite <- (sum_add (HA := CRing_R)). apply (sum_ext (HA := CRing_R)). intros k Hk.
    destruct (Nat.lt_ge_cases k (length c)). rewrite get_mk by auto. simpl. ring. rewrite (get_out (mk _ _) k) by (rewrite mk_length; lia). rewrite (get_out c k), (get_out (sinc (length c)) k) by lia. simpl. ring. }
  intros E L1 L2. split. auto. rewrite !G; auto; rewrite L1; auto.
Qed.
Print Assumptions C65_even_sum.
(** Counterexample: the complement of a filter of linear phase need not have linear phase. The impulse is put at the first largest
    coefficient, which is the centre only if no other coefficient before it is as large. *)
Theorem C65_linear_phase_refuted : exists b, forall sinc, length b = 3%nat /\ (forall i, (i < 3)%nat -> get b (2 - i) = get b i) /\
  complementary sinc b = [0; 0; -1].
Proof.
  exists [1; 0; 1]. intros sinc. split; auto. split. intros i Hi. do 3 (destruct i as [|i]; [reflexivity|]). lia.
  assert (P : peak [1; 0; 1] = 0%nat). { cbn [peak peak_from]. rewrite Rabs_R1, Rabs_R0. destruct (Rlt_dec 1 0); [lra|]. destruct (Rlt_dec 1 1); [lra|]. reflexivity. }
  unfold complementary. cbn [length Nat.odd Nat.even negb]. rewrite P. unfold negated, get. simpl. unfold upd. simpl. repeat f_equal; lra.
Qed.
Print Assumptions C65_linear_phase_refuted.
Example C65_even_example : exists sinc : nat -> list R, length (sinc 2%nat) = 2%nat /\ complementary sinc [1; 2] = [-1; -2] /\ conv (sinc 2%nat) [5] 0 = 0.
Proof.
  exists (fun n => repeat 0 n). split; auto. split. unfold complementary, get, mk. simpl. repeat f_equal; lra. unfold conv, get. simpl. lra.
Qed.
