(** Property C103: linear phase responses from magnitudes. *)
From Coq Require Import List Arith Lia ZArith Bool Reals Lra Psatz.
From Verif Require Import Alg Spec Dft P_dft2 M_arrays M_signal P_arrays P_signal M_level M_spectrum P_spectrum M_fvec Claims_fvec M_minphase M_groupdelay M_scaling M_irfilter Claims_irfilter M_specdiff Claims_specdiff M_linphase.
Import ListNotations.
Local Open Scope R_scope.
Notation gt := (get (HA := CRing_R)).

(** ** Specification *)
(** a real sequence of N samples whose transform has the magnitudes [m] and the phase of a delay by D samples *)
Definition linear_phase (N : nat) (m : list R) (D : Z) (h : list R) : Prop :=
  length h = N /\ forall k, (k <= N / 2)%nat -> dft N h k = cmul (rc (gt m k)) (root N (- (Z.of_nat k * D))).
(** the frequencies of the bins up to half the sampling rate of N samples *)
Definition grid (fs : R) (N : nat) : list R := mk (N / 2 + 1) (fun k => INR k * fs / INR N).
Definition largest (l : list R) (v : R) : Prop := In v l /\ forall w, In w l -> w <= v.
(** the factor which makes the values of n samples and C channels fit into [-1, 1] *)
Definition fits (C n : nat) (y : nat -> nat -> R) (g : R) : Prop :=
  (g = 1 /\ forall c t, (c < C)%nat -> (t < n)%nat -> Rabs (y c t) <= 1) \/
  (exists p, 1 < p /\ g = / p /\ (forall c t, (c < C)%nat -> (t < n)%nat -> Rabs (y c t) <= p) /\ exists c t, (c < C)%nat /\ (t < n)%nat /\ Rabs (y c t) = p).
(** the delays allowed for each channel: the largest group delay of the minimum phase, 1 ms more, times the factor *)
Definition least (s : spectrum) (fs factor : R) (ds : list R) : Prop :=
  exists N mags mx, (4 <= N)%nat /\ (N mod 4 = 0)%nat /\ mags_at s (grid fs N) = Ok mags /\ length ds = length mags /\ mx = vmax (concat mags) /\
    forall c, (c < length ds)%nat -> exists gd v, group_delay_direct (minimum_phase_mag mx (nth c mags []) false) (fs / INR N) = Ok gd /\ largest gd v /\ nth c ds 0 = factor * (v + 1 / 1000).

(** ** Auxiliary facts *)
Lemma bind_inv {T U} (m : result T) (k : T -> result U) v : bind m k = Ok v -> exists a, m = Ok a /\ k a = Ok v.
Proof. destruct m as [a|e]; cbn [bind]; intros H. exists a. auto. discriminate. Qed.
Lemma freq_vector_ok df r f d n : freq_vector df r = Ok (f, d, n) -> (4 <= n)%nat /\ (n mod 4 = 0)%nat /\ f = grid r n /\ d = r / INR n.
Proof.
  unfold freq_vector. destruct (Req_EM_T df 0); [discriminate|]. set (z0 := truncate _). set (z := if Z.even z0 then (z0 + 1)%Z else z0).
  assert (O : Z.odd z = true). { unfold z. destruct (Z.even z0) eqn:E. rewrite Z.odd_add, <- Z.negb_even, E. reflexivity. now rewrite <- Z.negb_even, E. }
  destruct (Z.ltb_spec z 0); [discriminate|]. set (L := Z.to_nat z). destruct (Nat.ltb_spec L 2) as [|HL]; [discriminate|].
  intros E. injection E as <- <- <-. apply Z.odd_spec in O as (j & Ej). assert (EL : L = (2 * Z.to_nat j + 1)%nat) by lia. set (i := Z.to_nat j) in *. assert (Hi : (1 <= i)%nat) by lia.
  assert (En : ((L - 1) * 2 = i * 4)%nat) by lia. rewrite En. split; [lia|]. split. apply Nat.mod_mul; lia.
  assert (Pi : 0 < INR i) by (apply lt_0_INR; lia).
  assert (EF : linspace 0 (r / 2) L = grid r (i * 4)).
  { unfold linspace, grid. replace (i * 4 / 2 + 1)%nat with L. 2:{ replace (i * 4)%nat with (i * 2 * 2)%nat by lia. rewrite Nat.div_mul by lia. lia. }
    destruct L as [|[|L']]; [lia|lia|]. unfold mk. apply map_ext. intros k. replace (S (S L') - 1)%nat with (2 * i)%nat by lia. rewrite !mult_INR. simpl INR. field. lra. }
  split; auto. rewrite EF. unfold grid. rewrite nth_mk. simpl INR. field. rewrite mult_INR. simpl INR. lra.
  replace (i * 4)%nat with (i * 2 * 2)%nat by lia. rewrite Nat.div_mul by lia. lia.
Qed.
Lemma mags_shape s f mags : mags_at s f = Ok mags -> length mags = length (sp_d s) /\ forall c, (c < length mags)%nat -> length (nth c mags []) = length f.
Proof.
  unfold mags_at. intros H. apply bind_inv in H as (d & E & H). injection H as <-. unfold get_interp in E. cbn [andb] in E. destruct (sp_f s); [discriminate|].
  revert E. repeat match goal with |- context [if ?b then Err _ else _] => destruct b; [discriminate|] end. intros E. injection E as <-. rewrite !map_length. split; auto.
  intros c Hc. rewrite (nth_map' _ _ _ [] []) by (now rewrite map_length). rewrite (nth_map' _ _ _ [] []) by auto. now rewrite !map_length.
Qed.
Lemma last_get (l : list R) : last l 0 = gt l (length l - 1).
Proof.
  induction l as [|a l IH]. reflexivity. destruct l as [|b l]. reflexivity. change (last (a :: b :: l) 0) with (last (b :: l) 0). rewrite IH. cbn [length].
  replace (S (S (length l)) - 1)%nat with (S (S (length l) - 1)) by lia. reflexivity.
Qed.
(** the corrected phase belongs to a delay by a whole number of samples *)
Lemma real_phase_grid r N d k : (4 <= N)%nat -> (N mod 4 = 0)%nat -> (k <= N / 2)%nat ->
  gt (real_phase (map (fun v => - 2 * PI * v * d) (grid r N))) k = 2 * PI * IZR (- (Z.of_nat k * ceil (d * r))) / INR N.
Proof.
  intros HN M Hk. pose proof PI_RGT_0 as PP. assert (exists i, N = (i * 4)%nat /\ (1 <= i)%nat) as (i & EN & Hi). { exists (N / 4)%nat. pose proof (Nat.div_mod N 4 ltac:(lia)). lia. }
  assert (E2 : (N / 2 = 2 * i)%nat). { rewrite EN. replace (i * 4)%nat with (i * 2 * 2)%nat by lia. rewrite Nat.div_mul by lia. lia. }
  assert (Pi : 0 < INR i) by (apply lt_0_INR; lia). assert (IN : INR N = INR i * 4) by (rewrite EN, mult_INR; simpl; lra).
  unfold real_phase. set (ph := map _ (grid r N)). assert (LP : length ph = (2 * i + 1)%nat) by (unfold ph, grid; rewrite map_length, mk_length; lia).
  assert (G : forall j, (j <= 2 * i)%nat -> gt ph j = - 2 * PI * (INR j * r / INR N) * d).
  { intros j Hj. unfold ph, get. rewrite (nth_map' _ _ _ 0 _) by (unfold grid; rewrite mk_length; lia). unfold grid. rewrite nth_mk by lia. reflexivity. }
  rewrite LP. rewrite (get_mk (HA := CRing_R)) by lia. rewrite last_get, LP. replace (2 * i + 1 - 1)%nat with (2 * i)%nat by lia. rewrite !G by lia.
  assert (LS : gt (linspace 0 1 (2 * i + 1)) k = INR k / INR (2 * i)).
  { unfold linspace. destruct (2 * i + 1)%nat as [|[|q]] eqn:Q; [lia|lia|]. rewrite <- Q. rewrite (get_mk (HA := CRing_R)) by lia. replace (2 * i + 1 - 1)%nat with (2 * i)%nat by lia. field. apply not_0_INR. lia. }
  rewrite LS. unfold fmod. replace (- 2 * PI * (INR (2 * i) * r / INR N) * d / PI) with (- (d * r)). 2:{ rewrite IN, mult_INR. simpl INR. field. split; lra. }
  unfold ceil. rewrite opp_IZR, mult_IZR, opp_IZR, <- INR_IZR_INZ. rewrite IN, mult_INR. simpl INR. field. lra.
Qed.
Lemma cexp_cis a : cexp (0, a) = cis a.
Proof. unfold cexp, cis. cbn [fst snd]. rewrite exp_0. apply c_ext; simpl; ring. Qed.
Lemma td_linear r N m d : (4 <= N)%nat -> (N mod 4 = 0)%nat -> length m = (N / 2 + 1)%nat -> linear_phase N m (ceil (d * r)) (lin_phase_td N (grid r N) m d).
Proof.
  intros HN M Lm. split. unfold lin_phase_td, irfft_n. apply mk_length. intros k Hk. unfold lin_phase_td. rewrite Lm. set (D := ceil (d * r)).
  assert (B : forall j, (j <= N / 2)%nat -> nth j (mk (N / 2 + 1) (fun k => cmul (rc (gt m k)) (cexp (0, gt (real_phase (map (fun v => - 2 * PI * v * d) (grid r N))) k)))) (rc 0) = cmul (rc (gt m j)) (root N (- (Z.of_nat j * D)))).
  { intros j Hj. rewrite nth_mk by lia. rewrite cexp_cis. rewrite real_phase_grid by auto. reflexivity. }
  rewrite dft_irfft; auto; try lia.
  - rewrite B by lia. replace (- (Z.of_nat 0 * D))%Z with 0%Z by lia. rewrite root_0. simpl. ring.
  - intros j Hj. rewrite B by (apply Nat.div_le_lower_bound; lia). unfold root. assert (0 < INR N) by (apply lt_0_INR; lia).
    replace (2 * PI * IZR (- (Z.of_nat j * D)) / INR N) with (IZR (- D) * PI). 2:{ rewrite !opp_IZR, mult_IZR, <- INR_IZR_INZ. rewrite <- Hj, mult_INR. simpl INR. field. apply not_0_INR. lia. }
    unfold cis. simpl. rewrite (sin_eq_0_1 (IZR (- D) * PI)) by (exists (- D)%Z; reflexivity). ring.
Qed.
Lemma seq_result_inv {T} (l : list (result T)) vs : seq_result l = Ok vs -> l = map Ok vs.
Proof.
  revert vs. induction l as [|a l IH]; intros vs H; cbn [seq_result] in H. injection H as <-. reflexivity.
  apply bind_inv in H as (v & -> & H). apply bind_inv in H as (ws & E & H). injection H as <-. cbn [map]. f_equal. now apply IH.
Qed.
Lemma vmax_largest l : l <> [] -> largest l (vmax l).
Proof. intros H. destruct (vmax_spec l H). split; auto. Qed.
Lemma least_ok s r factor n mags ds : (4 <= n)%nat -> (n mod 4 = 0)%nat -> mags_at s (grid r n) = Ok mags -> least_delays mags (r / INR n) n factor = Ok ds -> least s r factor ds /\ length ds = length (sp_d s).
Proof.
  intros HN M Em H. destruct (mags_shape _ _ _ Em) as (L1 & L2). unfold least_delays in H. apply bind_inv in H as (gds & E & H). injection H as <-. apply seq_result_inv in E.
  assert (LG : length gds = length mags). { rewrite <- (map_length Ok gds), <- E. apply map_length. } rewrite map_length. split; [|lia].
  exists n, mags, (vmax (concat mags)). repeat (split; auto). now rewrite map_length. rewrite map_length. intros c Hc.
  assert (Q : group_delay_direct (minimum_phase_mag (vmax (concat mags)) (nth c mags []) false) (r / INR n) = Ok (nth c gds [])).
  { assert (Odd : (n mod 2 =? 1)%nat = false). { apply Nat.eqb_neq. pose proof (Nat.div_mod n 4 ltac:(lia)). pose proof (Nat.div_mod n 2 ltac:(lia)). lia. }
    rewrite Odd in E. assert (Q := f_equal (fun l => nth c l (Ok [])) E). cbv beta in Q. rewrite (nth_map' _ _ _ [] _) in Q by lia. rewrite (nth_map' _ _ _ [] _) in Q by lia. exact Q. }
  exists (nth c gds []), (vmax (nth c gds [])). split; auto. split. 2:{ rewrite (nth_map' _ _ _ [] _) by lia. reflexivity. }
  apply vmax_largest. intros Z. rewrite Z in Q. unfold group_delay_direct, gradient in Q. revert Q. destruct (Req_EM_T _ 1); (destruct (Nat.ltb_spec (length (unwrap (minimum_phase_mag (vmax (concat mags)) (nth c mags []) false))) 2) as [|W]; [discriminate|]);
    cbn [bind]; intros Q; injection Q as Q; apply (f_equal (@length R)) in Q; rewrite map_length, mk_length in Q; simpl in Q; lia.
Qed.
Lemma round_len x : 0 <= x -> let len := Z.to_nat (truncate (x + 1 / 2)) in INR len - 1 / 2 <= x < INR len + 1 / 2.
Proof.
  intros H len. unfold len, truncate. destruct (Rlt_dec (x + 1 / 2) 0); [lra|]. pose proof (Int_part_bounds (x + 1 / 2)) as B.
  assert (0 <= Int_part (x + 1 / 2))%Z. { assert (IZR (-1) < IZR (Int_part (x + 1 / 2))) by lra. apply lt_IZR in H0. lia. } rewrite INR_IZR_INZ, Z2Nat.id by auto. lra.
Qed.
(** ** Theorems *)
(** Every response returned is, up to the gain which avoids values above 1, a linear phase response with the interpolated magnitudes, delayed by the
    requested time rounded up to a whole number of samples, cut or zero-padded to twice the (largest) requested delay. *)
Theorem C103_response s fs gd check factor sg : lin_phase_from_mag s fs gd check factor = Ok sg -> sp_d s <> [] ->
  let r := IZR fs in let C := length (sp_d s) in
  exists N ds mags dm len h, (4 <= N)%nat /\ (N mod 4 = 0)%nat /\ mags_at s (grid r N) = Ok mags /\ length ds = C /\ largest ds dm /\ (0 <= 2 * dm * r -> INR len - 1 / 2 <= 2 * dm * r < INR len + 1 / 2) /\
    match gd with Some g => (forall c, (c < C)%nat -> nth c ds 0 = g / 1000) /\ (check = true -> exists ld, length ld = C /\ least s r factor ld /\ forall d, In d ld -> d <= g / 1000)
                | None => least s r factor ds end /\
    (forall c, (c < C)%nat -> linear_phase N (nth c mags []) (ceil (nth c ds 0 * r)) (h c)) /\
    ((2 <= len)%nat -> (C <= len)%nat -> shape (s_re sg) len C /\ s_fs sg = fs /\ exists g, fits C len (fun c t => gt (h c) t) g /\ forall c t, (c < C)%nat -> (t < len)%nat -> entry (s_re sg) t c = g * gt (h c) t).
Proof.
  intros H ND r C. assert (HC : (0 < C)%nat) by (unfold C; destruct (sp_d s); [easy|simpl; lia]). unfold lin_phase_from_mag in H. fold r in H.
  apply bind_inv in H as (df & _ & H). apply bind_inv in H as (((f & df') & n0) & EF & H). apply freq_vector_ok in EF as (HN0 & M0 & -> & ->).
  apply bind_inv in H as (mags0 & EM0 & H). destruct (mags_shape _ _ _ EM0) as (L1 & L2).
  apply bind_inv in H as ((((f & N) & mags) & ds) & E & H). 
  assert (Main : exists ds' : list R, ds' = ds /\ (4 <= N)%nat /\ (N mod 4 = 0)%nat /\ f = grid r N /\ mags_at s (grid r N) = Ok mags /\ length ds = C /\
    match gd with Some g => (forall c, (c < C)%nat -> nth c ds 0 = g / 1000) /\ (check = true -> exists ld, length ld = C /\ least s r factor ld /\ forall d, In d ld -> d <= g / 1000) | None => least s r factor ds end).
  { assert (Stage : forall ds1 (P : list R -> Prop), length ds1 = C -> P ds1 ->
      (if existsb (fun d => if Rlt_dec (INR n0 / r) (d * 2) then true else false) ds1 then
        if Req_EM_T (vmax ds1 * 2) 0 then Err ZeroDivisionError else
        bind (freq_vector (1 / (vmax ds1 * 2) * (9 / 10)) r) (fun '(f, _, n) => bind (mags_at s f) (fun mags => Ok (f, n, mags, ds1)))
      else Ok (grid r n0, n0, mags0, ds1)) = Ok (f, N, mags, ds) -> (4 <= N)%nat /\ (N mod 4 = 0)%nat /\ f = grid r N /\ mags_at s (grid r N) = Ok mags /\ length ds = C /\ P ds).
    { intros ds1 P Ld HP HE. destruct (existsb _ ds1).
      - destruct (Req_EM_T _ 0); [discriminate|]. apply bind_inv in HE as (((f1 & d1) & n1) & EF & HE). apply bind_inv in HE as (m1 & EM & HE). injection HE as <- <- <- <-. apply freq_vector_ok in EF as (A & B & -> & _). auto 10.
      - injection HE as <- <- <- <-. auto 10. }
    exists ds. split; auto. destruct gd as [g|].
    - assert (RepG : forall c, (c < C)%nat -> nth c (repeat (g / 1000) C) 0 = g / 1000) by (intros; now apply nth_repeat_lt).
      destruct check.
      + destruct (Rlt_dec factor 1); [discriminate|]. apply bind_inv in E as (ld & EL & E). destruct (least_ok _ _ _ _ _ _ HN0 M0 EM0 EL) as (Q1 & Q2). apply bind_inv in E as (ds1 & E1 & E). destruct (forallb _ ld) eqn:FB; [|discriminate]. injection E1 as <-.
        rewrite forallb_forall in FB. apply (Stage _ (fun ds => (forall c, (c < C)%nat -> nth c ds 0 = g / 1000) /\ (true = true -> exists ld, length ld = C /\ least s r factor ld /\ forall d, In d ld -> d <= g / 1000))) in E; auto. apply repeat_length.
        split; auto. intros _. exists ld. split; auto. split; auto. intros d Hd. specialize (FB d Hd). destruct (Rle_dec d (g / 1000)); [auto|discriminate].
      + injection E as <- <- <- <-. split; [exact HN0|]. split; [exact M0|]. split; [reflexivity|]. split; [exact EM0|]. split; [apply repeat_length|]. split; [exact RepG|discriminate].
    - assert (E' : (if Rlt_dec factor 1 then Err AssertionError else bind (least_delays mags0 (r / INR n0) n0 factor) (fun ld => bind (Ok ld) (fun ds1 => (if existsb (fun d => if Rlt_dec (INR n0 / r) (d * 2) then true else false) ds1 then
        if Req_EM_T (vmax ds1 * 2) 0 then Err ZeroDivisionError else
        bind (freq_vector (1 / (vmax ds1 * 2) * (9 / 10)) r) (fun '(f, _, n) => bind (mags_at s f) (fun mags => Ok (f, n, mags, ds1)))
      else Ok (grid r n0, n0, mags0, ds1))))) = Ok (f, N, mags, ds)) by (destruct check; exact E).
      destruct (Rlt_dec factor 1); [discriminate|]. apply bind_inv in E' as (ld & EL & E'). destruct (least_ok _ _ _ _ _ _ HN0 M0 EM0 EL) as (Q1 & Q2). cbn [bind] in E'. apply (Stage ld (fun ds => least s r factor ds)) in E'; auto. }
  destruct Main as (_ & _ & HN & M & -> & EM & Ld & Hd). destruct (mags_shape _ _ _ EM) as (Lm & Lc). fold C in Lm.
  set (len := Z.to_nat (truncate (2 * vmax ds * r + 1 / 2))) in *. set (h := fun c => lin_phase_td N (grid r N) (nth c mags []) (nth c ds 0)).
  exists N, ds, mags, (vmax ds), len, h. split; auto. split; auto. split; auto. split; auto. split. { apply vmax_largest. intros Z. rewrite Z in Ld. simpl in Ld. lia. }
  split. { intros H0. exact (round_len _ H0). } split; auto. split. { intros c Hc. apply td_linear; auto. rewrite Lc by lia. unfold grid. apply mk_length. }
  intros Hl HCl. set (y := map _ (combine mags ds)) in H.
  assert (Sh : shape y len C). { split. unfold y. rewrite map_length, combine_length. lia. apply Forall_forall. intros col Hc. unfold y in Hc. apply in_map_iff in Hc as (p & <- & _). apply pad_trim_length. }
  assert (Ey : forall c t, (c < C)%nat -> (t < len)%nat -> entry y t c = gt (h c) t).
  { intros c t Hc Ht. unfold entry, y. rewrite (nth_map' _ _ _ ([], 0) []) by (rewrite combine_length; lia). rewrite combine_nth by lia. cbn [fst snd]. exact (pad_trim_end (HA := CRing_R) len _ t Ht). }
  destruct (is_peak_exists (mkIn y None false) len C) as (p & Hp); try lia. { split; [exact Sh|discriminate]. } destruct (ir_set y fs len C p Sh ltac:(lia) HC ltac:(clear -Hl HC HCl; nia) Hp) as (s' & E' & _ & Efs & _ & _ & Sh' & V). rewrite E' in H. injection H as <-.
  rewrite Nat.max_l, Nat.min_r in * by lia. split; auto. split; auto. exists (if Rlt_dec 1 p then / p else 1). split.
  - destruct Hp as (P1 & (i & c & Hi & Hc & [P2|(im & Q & _)])); [|discriminate]. destruct (Rlt_dec 1 p).
    + right. exists p. split; auto. split; auto. split. intros c' t Hc' Ht. rewrite <- Ey by auto. exact (proj1 (P1 t c' Ht Hc')). exists c, i. split; auto. split; auto. rewrite <- Ey by auto. symmetry. exact P2.
    + left. split; auto. intros c' t Hc' Ht. rewrite <- Ey by auto. destruct (P1 t c' Ht Hc') as (Q & _). cbn [i_re] in Q. lra.
  - intros c t Hc Ht. rewrite V by auto. f_equal. unfold oriented. destruct (Nat.ltb_spec len C); [lia|]. now apply Ey.
Qed.
Print Assumptions C103_response.

(** The response is a sum of cosines around the delay, so it is symmetric (around D, modulo its length), and it is determined by the magnitudes and the delay. *)
Theorem C103_symmetric N m D h : (0 < N)%nat -> linear_phase N m D h ->
  (forall t, (t < N)%nat -> gt h t = sum (HA := CRing_R) N (fun k => gt m (Nat.min k (N - k)) * cos (2 * PI * IZR (Z.of_nat k * (Z.of_nat t - D)) / INR N)) / INR N) /\
  (forall t u, (t < N)%nat -> (u < N)%nat -> ((Z.of_nat t + Z.of_nat u - 2 * D) mod Z.of_nat N = 0)%Z -> gt h t = gt h u) /\
  (forall k, (k <= N / 2)%nat -> cabs2 (dft N h k) = gt m k ^ 2) /\
  (forall h', linear_phase N m D h' -> h' = h).
Proof.
  intros HN (L & H). assert (PN : 0 < INR N) by (apply lt_0_INR; lia).
  assert (F : forall t, (t < N)%nat -> gt h t = sum (HA := CRing_R) N (fun k => gt m (Nat.min k (N - k)) * cos (2 * PI * IZR (Z.of_nat k * (Z.of_nat t - D)) / INR N)) / INR N).
  { intros t Ht. rewrite <- (irfft_rfft N h t) by auto. unfold irfft_n. rewrite (get_mk (HA := CRing_R)) by auto. f_equal. rewrite csum_fst. apply (sum_ext (HA := CRing_R)). intros k Hk. rewrite herm_real by auto.
    assert (E : dft N h k = cmul (rc (gt m (Nat.min k (N - k)))) (root N (- (Z.of_nat k * D)))).
    { destruct (Nat.leb_spec k (N / 2)) as [A|A].
      - rewrite H by auto. pose proof (Nat.div_mod N 2 ltac:(lia)). rewrite Nat.min_l by lia. reflexivity.
      - pose proof (Nat.div_mod N 2 ltac:(lia)). pose proof (Nat.mod_upper_bound N 2 ltac:(lia)). replace k with (N - (N - k))%nat at 1 by lia. rewrite dft_conj by lia. rewrite H by lia. rewrite Nat.min_r by lia. rewrite cconj_mul, <- root_opp. f_equal. { apply c_ext; simpl; ring. }
        rewrite Nat2Z.inj_sub by lia. replace (- - ((Z.of_nat N - Z.of_nat k) * D))%Z with (- (Z.of_nat k * D) + Z.of_nat N * D)%Z by ring. rewrite root_add, root_period by auto. apply c_ext; simpl; ring. }
    rewrite E. change (@rmul C CRing_C) with cmul.
    assert (RA : cmul (root N (- (Z.of_nat k * D))) (root N (Z.of_nat k * Z.of_nat t)) = root N (Z.of_nat k * (Z.of_nat t - D))) by (rewrite <- root_add; f_equal; ring).
    transitivity (fst (cmul (rc (gt m (Nat.min k (N - k)))) (root N (Z.of_nat k * (Z.of_nat t - D))))). rewrite <- RA. simpl. ring. unfold root, cis. simpl. ring. }
  split; auto. split; [|split].
  - intros t u Ht Hu E. rewrite !F by auto. f_equal. apply (sum_ext (HA := CRing_R)). intros k Hk. f_equal. apply Z.mod_divide in E as (q & E); [|lia].
    replace (Z.of_nat t - D)%Z with (- (Z.of_nat u - D) + Z.of_nat N * q)%Z by lia.
    pose proof (f_equal fst (root_add N (- (Z.of_nat k * (Z.of_nat u - D))) (Z.of_nat N * (Z.of_nat k * q)))) as Q. rewrite root_period in Q by auto.
    replace (Z.of_nat k * (- (Z.of_nat u - D) + Z.of_nat N * q))%Z with (- (Z.of_nat k * (Z.of_nat u - D)) + Z.of_nat N * (Z.of_nat k * q))%Z by ring. unfold root, cis, cmul, rc in Q. cbn [fst snd] in Q. rewrite Q.
    rewrite opp_IZR. replace (2 * PI * - IZR (Z.of_nat k * (Z.of_nat u - D)) / INR N) with (- (2 * PI * IZR (Z.of_nat k * (Z.of_nat u - D)) / INR N)) by (field; lra). rewrite cos_neg. ring.
  - intros k Hk. rewrite H by auto. unfold root, cis, cabs2. simpl. set (a := _ / INR N). pose proof (sin2_cos2 a) as Q. unfold Rsqr in Q. replace 1 with (sin a * sin a + cos a * cos a). ring_simplify. nra.
  - intros h' (L' & H'). apply (nth_ext _ _ 0 0). lia. intros t Ht. apply (dft_inj_half N h' h). intros k Hk. now rewrite H, H' by auto. lia.
Qed.
Print Assumptions C103_symmetric.

(** The delay is rounded up to whole samples: never less than requested, less than one sample more. *)
Theorem C103_delay d r : 0 < r -> d <= IZR (ceil (d * r)) / r < d + 1 / r /\ (forall z, d * r = IZR z -> ceil (d * r) = z).
Proof.
  intros Hr. pose proof (ceil_bounds (d * r)) as B. split; [split|].
  - apply Rmult_le_reg_r with r; auto. unfold Rdiv. rewrite Rmult_assoc, Rinv_l by lra. lra.
  - apply Rmult_lt_reg_r with r; auto. unfold Rdiv. rewrite Rmult_assoc, Rinv_l by lra. rewrite Rmult_plus_distr_r. rewrite Rmult_1_l, Rinv_l by lra. lra.
  - intros z ->. apply ceil_IZR.
Qed.
Print Assumptions C103_delay.

(** A delay of 23 samples or more: twice the rounded delay fits into the transform, so nothing wraps around before the axis of symmetry or in its mirror image. *)
Theorem C103_room g r f d n : 0 < r -> 23 <= g / 1000 * r -> freq_vector (1 / (g / 1000 * 2) * (9 / 10)) r = Ok (f, d, n) -> (2 * ceil (g / 1000 * r) <= Z.of_nat n)%Z.
Proof.
  intros Hr Hg E. unfold freq_vector in E. destruct (Req_EM_T _ 0); [discriminate|]. set (x := g / 1000 * r) in *. assert (Hg0 : 0 < g). { unfold x in Hg. destruct (Rlt_dec 0 g); auto. exfalso. assert (g / 1000 * r <= 0); [|lra]. replace 0 with (0 / 1000 * r) by field. apply Rmult_le_compat_r; lra. }
  replace (r / 2 / (1 / (g / 1000 * 2) * (9 / 10)) + 1 / 2) with (x / (9 / 10) + 1 / 2) in E by (unfold x; field; lra).
  unfold truncate in E. destruct (Rlt_dec _ 0); [lra|]. pose proof (Int_part_bounds (x / (9 / 10) + 1 / 2)) as B. set (z0 := Int_part _) in *. set (z := if Z.even z0 then (z0 + 1)%Z else z0) in E.
  assert (z0 <= z)%Z by (unfold z; destruct (Z.even z0); lia). destruct (Z.ltb_spec z 0); [discriminate|]. destruct (Nat.ltb_spec (Z.to_nat z) 2); [discriminate|]. injection E as _ _ <-.
  pose proof (ceil_bounds x) as Bc. assert (IZR z0 <= IZR z) by (now apply IZR_le). assert (W : IZR (2 * ceil x) <= IZR (Z.of_nat ((Z.to_nat z - 1) * 2)) + 1 - 1).
  2:{ apply le_IZR. lra. }
  replace (Z.of_nat ((Z.to_nat z - 1) * 2)) with (2 * (z - 1))%Z by lia. rewrite !mult_IZR, minus_IZR. lra.
Qed.
Print Assumptions C103_room.

(** Delays of less than 1.35 samples are refused with an unrelated error, a delay of zero too. *)
Theorem C103_short_refuted s fs g check factor : (0 < fs)%Z -> 0 <= g -> g / 1000 * IZR fs < 135 / 100 ->
  lin_phase_from_mag s fs (Some g) check factor = Err (if Req_EM_T g 0 then ZeroDivisionError else IndexError).
Proof.
  intros Hf Hg Hs. apply IZR_lt in Hf. unfold lin_phase_from_mag. destruct (Req_EM_T g 0) as [->|N]. { destruct (Req_EM_T _ 0) as [|W]; [reflexivity|]. exfalso. apply W. field. }
  destruct (Req_EM_T _ 0); [lra|]. cbn [bind]. unfold freq_vector. set (r := IZR fs) in *. destruct (Req_EM_T (1 / (g / 1000 * 2) * (9 / 10)) 0) as [Z|_]. { exfalso. assert (0 < 1 / (g / 1000 * 2) * (9 / 10)); [|lra]. apply Rmult_lt_0_compat; [|lra]. apply Rdiv_lt_0_compat; lra. }
  replace (r / 2 / (1 / (g / 1000 * 2) * (9 / 10)) + 1 / 2) with (g / 1000 * r / (9 / 10) + 1 / 2) by (field; lra). set (x := g / 1000 * r) in *. assert (0 <= x) by (unfold x; apply Rmult_le_pos; lra).
  unfold truncate. destruct (Rlt_dec _ 0); [lra|]. pose proof (Int_part_bounds (x / (9 / 10) + 1 / 2)) as B. set (z := Int_part _) in *.
  assert (0 <= z <= 1)%Z. { assert (IZR (-1) < IZR z) by lra. assert (IZR z < IZR 2) by lra. apply lt_IZR in H0. apply lt_IZR in H1. lia. }
  assert (z = 0 \/ z = 1)%Z as [-> | ->] by lia; reflexivity.
Qed.
Print Assumptions C103_short_refuted.

(** a constant magnitude gives a single value at the delay *)
Lemma flat_response N m D h : (0 < N)%nat -> linear_phase N (repeat m (N / 2 + 1)) (Z.of_nat D) h -> (D < N)%nat -> forall t, (t < N)%nat -> gt h t = if (t =? D)%nat then m else 0.
Proof.
  intros HN (L & H) HD t Ht. assert (E : gt h t = gt (mk N (fun i => if (i =? D)%nat then m else 0)) t). 2:{ rewrite E. now rewrite (get_mk (HA := CRing_R)) by auto. }
  apply (dft_inj_half N); auto. intros k Hk. rewrite H by auto. unfold get at 1. rewrite nth_repeat_lt by lia. unfold dft.
  transitivity (csum N (fun i => if (i =? D)%nat then cmul (rc m) (root N (- (Z.of_nat k * Z.of_nat D))) else rc 0)).
  - clear -HD. revert HD. set (v := cmul _ _). clearbody v. induction N as [|N IH]; intros HD. lia. cbn [sum]. change (@radd C CRing_C) with cadd. destruct (Nat.eqb_spec N D) as [->|].
    + rewrite (sum_zero' (HA := CRing_C)). apply c_ext; simpl; ring. intros i Hi. destruct (Nat.eqb_spec i D); [lia|reflexivity].
    + rewrite <- IH by lia. apply c_ext; simpl; ring.
  - apply (sum_ext (HA := CRing_C)). intros i Hi. rewrite (get_mk (HA := CRing_R)) by auto. change (@rmul C CRing_C) with cmul. destruct (Nat.eqb_spec i D) as [->|]. do 2 f_equal. lia. apply c_ext; simpl; ring.
Qed.

(** The documentation promises the same magnitudes and a length of twice the delay. A constant magnitude m and a delay of 10.2 ms at 1 kHz: 20 samples, whose axis
    of symmetry (the only nonzero value) is sample 11; it is min (m, 1). *)
Theorem C103_flat_refuted m : 0 < m ->
  exists sg, lin_phase_from_mag (mkSp [0; 500] true [[(m, 0); (m, 0)]] None DMagnitude ZeroPad) 1000 (Some (102 / 10)) false 1 = Ok sg /\ shape (s_re sg) 20 1 /\
    (forall t, (t < 20)%nat -> entry (s_re sg) t 0 = if (t =? 11)%nat then Rmin m 1 else 0) /\ s_scale sg = 1.
Proof.
  intros Hm. unfold lin_phase_from_mag. destruct (Req_EM_T _ 0); [lra|]. cbn [bind].
  assert (EF : freq_vector (1 / (102 / 10 / 1000 * 2) * (9 / 10)) 1000 = Ok (grid 1000 20, 50, 20%nat)).
  { assert (T : truncate (1000 / 2 / (1 / (102 / 10 / 1000 * 2) * (9 / 10)) + 1 / 2) = 11%Z). { unfold truncate. replace (1000 / 2 / (1 / (102 / 10 / 1000 * 2) * (9 / 10)) + 1 / 2) with (34 / 3 + 1 / 2) by field. destruct (Rlt_dec _ 0); [lra|]. apply Int_part_unique. lra. }
    unfold freq_vector. destruct (Req_EM_T _ 0); [lra|]. rewrite T. change (Z.even 11) with false. cbv iota zeta. change (11 <? 0)%Z with false. change (Z.to_nat 11) with 11%nat. change (11 <? 2)%nat with false. cbv iota.
    assert (LS : linspace 0 (1000 / 2) 11 = grid 1000 20). { unfold linspace, grid. change (20 / 2 + 1)%nat with 11%nat. unfold mk. apply map_ext. intros k. simpl (11 - 1)%nat. replace (INR 10) with 10 by (simpl; lra). replace (INR 20) with 20 by (simpl; lra). field. }
    rewrite LS. f_equal. f_equal. f_equal. unfold grid. rewrite nth_mk by (simpl; lia). simpl INR. field. }
  rewrite EF. cbn [bind]. assert (EM : mags_at (mkSp [0; 500] true [[(m, 0); (m, 0)]] None DMagnitude ZeroPad) (grid 1000 20) = Ok [repeat m (20 / 2 + 1)]).
  { unfold mags_at, get_interp. cbn [sp_f sp_edge sp_mag sp_d sp_dom bind map]. do 2 f_equal. rewrite map_map. unfold grid, mk. rewrite map_map. change (repeat m (20 / 2 + 1)) with (map (fun _ => m) (seq 0 (20 / 2 + 1))). apply map_ext_in. intros k Hk. apply in_seq in Hk. simpl (20 / 2 + 1)%nat in Hk.
    unfold convert_out, interp_col. cbn [sp_dom sp_edge sp_f idata map edge_values fst]. assert (Cm : cabsv (m, 0) = m). { unfold cabsv, cabs_sq. cbn [fst snd]. replace (m * m + 0 * 0) with (m * m) by ring. apply sqrt_square; lra. } rewrite Cm.
    assert (B : 0 <= INR k * 1000 / INR 20 <= 500). { replace (INR 20) with 20 by (simpl; lra). assert (0 <= INR k <= INR 10) by (split; [apply pos_INR|apply le_INR; lia]). replace (INR 10) with 10 in H by (simpl; lra). lra. }
    unfold np_interp. cbn [nth last interp_in]. repeat destruct (Rlt_dec _ _); try lra. }
  rewrite EM. cbn [bind sp_d length repeat combine map fst snd vmax fold_left].
  assert (TL : Z.to_nat (truncate (2 * (102 / 10 / 1000) * 1000 + 1 / 2)) = 20%nat). { unfold truncate. destruct (Rlt_dec _ 0); [lra|]. rewrite (Int_part_unique _ 20) by lra. reflexivity. } rewrite TL.
  assert (LP : linear_phase 20 (repeat m (20 / 2 + 1)) (Z.of_nat 11) (lin_phase_td 20 (grid 1000 20) (repeat m (20 / 2 + 1)) (102 / 10 / 1000))).
  { pose proof (td_linear 1000 20 (repeat m (20 / 2 + 1)) (102 / 10 / 1000) ltac:(lia) eq_refl ltac:(now rewrite repeat_length)) as Q. replace (ceil (102 / 10 / 1000 * 1000)) with (Z.of_nat 11) in Q; auto. unfold ceil. rewrite (Int_part_unique _ (-11)) by (simpl; lra). reflexivity. }
  change (m :: m :: m :: m :: m :: m :: m :: m :: m :: m :: m :: []) with (repeat m (20 / 2 + 1)). 
  set (h := lin_phase_td 20 _ _ _) in *. pose proof (flat_response 20 m 11 h ltac:(lia) LP ltac:(lia)) as V.
  set (y := [pad_trim_col 20 true h]). assert (Ey : forall t, (t < 20)%nat -> entry y t 0 = if (t =? 11)%nat then m else 0). { intros t Ht. unfold entry, y. cbn [nth]. rewrite <- V by auto. exact (pad_trim_end (HA := CRing_R) 20 h t Ht). }
  assert (Sh : shape y 20 1). { split. reflexivity. repeat constructor. }
  destruct (ir_set y 1000 20 1 m Sh ltac:(lia) ltac:(lia) ltac:(lia)) as (sg & E & _ & _ & Sc & _ & Sh' & Vs).
  { split. intros i c Hi Hc. split; [|discriminate]. cbn [i_re]. assert (c = 0)%nat by lia. subst c. rewrite Ey by auto. destruct (i =? 11)%nat. rewrite Rabs_pos_eq; lra. rewrite Rabs_R0; lra.
    exists 11%nat, 0%nat. split; [lia|]. split; [lia|]. left. cbn [i_re]. rewrite Ey by lia. rewrite Rabs_pos_eq; simpl; lra. }
  exists sg. split; [exact E|]. split; [exact Sh'|]. split; [|exact Sc]. intros t Ht. rewrite Vs by (simpl; lia). unfold oriented. change (20 <? 1)%nat with false. cbv iota. rewrite Ey by auto.
  unfold Rmin. destruct (t =? 11)%nat, (Rlt_dec 1 m), (Rle_dec m 1); try lra; field; lra.
Qed.
Print Assumptions C103_flat_refuted.

Example C103_example : exists h, linear_phase 4 [1; 1 / 2; 1 / 4] 3 h.
Proof.
  exists (lin_phase_td 4 (grid 1000 4) [1; 1 / 2; 1 / 4] (25 / 10000)). replace 3%Z with (ceil (25 / 10000 * 1000)). apply td_linear; auto.
  unfold ceil. rewrite (Int_part_unique _ (-3)) by (simpl; lra). reflexivity.
Qed.
(** 40 ms at 1 kHz: 88 samples *)
Example C103_room_example : 23 <= 40 / 1000 * 1000 /\ exists f d, freq_vector (1 / (40 / 1000 * 2) * (9 / 10)) 1000 = Ok (f, d, 88%nat).
Proof.
  split; [lra|]. assert (T : truncate (1000 / 2 / (1 / (40 / 1000 * 2) * (9 / 10)) + 1 / 2) = 44%Z).
  { unfold truncate. replace (1000 / 2 / (1 / (40 / 1000 * 2) * (9 / 10)) + 1 / 2) with (400 / 9 + 1 / 2) by field. destruct (Rlt_dec _ 0); [lra|]. apply Int_part_unique. lra. }
  unfold freq_vector. destruct (Req_EM_T _ 0); [lra|]. rewrite T. eexists. eexists. reflexivity.
Qed.
