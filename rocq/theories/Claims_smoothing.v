(** C99: fractional-octave smoothing. *)
From Coq Require Import List Arith Lia ZArith Bool Reals Lra Psatz.
From Verif Require Import Alg Spec M_smoothing P_arrays.
From Verif Require Claims_fvec.
Import ListNotations.
Local Open Scope R_scope.

(** ** spec *)
Definition within (lo hi : R) (l : list R) : Prop := Forall (fun v => lo <= v <= hi) l.
(** windows for odd lengths that only average: not negative, not all zero *)
Definition averaging (w : nat -> list R) : Prop := forall m, Nat.Odd m -> length (w m) = m /\ Forall (fun v => 0 <= v) (w m) /\ 0 < sum m (get (w m)).
(** sample z of the signal, continued by its first and last value *)
Definition held (x : list R) (z : Z) : R := get x (Z.to_nat (Z.max 0 (Z.min z (Z.of_nat (length x) - 1)))).

(** ** lemmas *)
Lemma sum_le n (f g : nat -> R) : (forall i, (i < n)%nat -> f i <= g i) -> sum n f <= sum n g.
Proof. induction n as [|n IH]; intro H; cbn; [lra|]. apply Rplus_le_compat; [apply IH; intros; apply H; lia|apply H; lia]. Qed.
Lemma sum_const n (c : R) f : sum n (fun i => f i * c) = sum n f * c.
Proof. apply (sum_scal_r (HA := CRing_R)). Qed.
Definition box (m d : R) : Prop := exists r, 0 <= r <= 3 /\ d = r * m.
Lemma same_sign_spec : forall a b, same_sign a b = true <-> (0 < a /\ 0 < b) \/ (a < 0 /\ b < 0) \/ (a = 0 /\ b = 0).
Proof.
  intros a b. unfold same_sign. destruct (Rlt_dec 0 a), (Rlt_dec 0 b), (Rlt_dec a 0), (Rlt_dec b 0), (Req_EM_T b 0); split; intro H; try discriminate; try reflexivity; try lra.
  all: try (left; lra). all: try (right; left; lra). all: right; right; lra.
Qed.
Lemma inner_box : forall m0 m1, box m0 (inner_slope m0 m1) /\ box m1 (inner_slope m0 m1).
Proof.
  intros m0 m1. unfold inner_slope. assert (Z : forall m, box m 0) by (intro m; exists 0; lra). destruct (Req_EM_T m0 0) as [E|N0]; [split; apply Z|]. destruct (Req_EM_T m1 0) as [E|N1]; [split; apply Z|]. destruct (same_sign m0 m1) eqn:S; [|split; apply Z].
  apply same_sign_spec in S. assert (NS : m0 + m1 <> 0) by lra.
  assert (Q : 0 <= m1 / (m0 + m1) <= 1 /\ 0 <= m0 / (m0 + m1) <= 1).
  { destruct S as [S|[S|S]]; [| |lra].
    - assert (I : 0 < / (m0 + m1)) by (apply Rinv_0_lt_compat; lra). assert (E : (m0 + m1) * / (m0 + m1) = 1) by (apply Rinv_r; lra). unfold Rdiv. split; split; nra.
    - assert (I : / (m0 + m1) < 0) by (apply Rinv_lt_0_compat; lra). assert (E : (m0 + m1) * / (m0 + m1) = 1) by (apply Rinv_r; lra). unfold Rdiv. split; split; nra. }
  split; [exists (2 * (m1 / (m0 + m1)))|exists (2 * (m0 / (m0 + m1)))]; (split; [lra|]); field; repeat split; lra.
Qed.
Lemma edge_box : forall m0 m1, box m0 (edge_slope m0 m1).
Proof.
  intros m0 m1. unfold edge_slope. set (d := (3 * m0 - m1) / 2). destruct (same_sign d m0) eqn:S; cbn [negb]; [|exists 0; lra]. apply same_sign_spec in S. destruct (Req_EM_T m0 0) as [Z|N].
  - assert (D0 : d = 0) by lra. destruct (negb _); [destruct (Rlt_dec _ _); exists 0; lra|exists 0; lra].
  - assert (D : forall u, 0 <= u / m0 <= 3 -> box m0 u) by (intros u Hu; exists (u / m0); split; [exact Hu|field; exact N]).
    assert (P : 0 <= d / m0). { unfold Rdiv. destruct S as [S|[S|S]]; [|assert (/ m0 < 0) by (apply Rinv_lt_0_compat; lra); nra|lra]. assert (0 < / m0) by (apply Rinv_0_lt_compat; lra). nra. }
    destruct (same_sign m0 m1) eqn:T; cbn [negb].
    + apply same_sign_spec in T. apply D. split; [exact P|]. assert (E : d / m0 = (3 - m1 * / m0) / 2) by (unfold d; field; exact N). rewrite E. destruct T as [T|[T|T]]; [assert (0 < / m0) by (apply Rinv_0_lt_compat; lra); nra|assert (/ m0 < 0) by (apply Rinv_lt_0_compat; lra); nra|lra].
    + destruct (Rlt_dec (3 * Rabs m0) (Rabs d)) as [L|L]; [exists 3; lra|]. apply D. split; [exact P|]. apply Rnot_lt_le in L. apply Rmult_le_reg_r with (Rabs m0); [apply Rabs_pos_lt; exact N|].
      replace (d / m0 * Rabs m0) with (Rabs d); [exact L|]. rewrite <- (Rabs_right (d / m0)) by lra. rewrite <- Rabs_mult. f_equal. field. exact N.
Qed.
Lemma slope_box : forall x i, (i + 2 <= length x)%nat -> box (step x i) (slope x i) /\ box (step x i) (slope x (S i)).
Proof.
  intros x i H. assert (One : forall m, box m m) by (intro m; exists 1; lra). unfold slope. destruct (Nat.eqb_spec (length x) 2) as [L2|L2]; [replace i with 0%nat by lia; split; apply One|]. split.
  - destruct (Nat.eqb_spec i 0) as [->|N0]; [apply edge_box|]. destruct (Nat.eqb_spec i (length x - 1)); [lia|]. apply inner_box.
  - destruct (Nat.eqb_spec (S i) 0); [lia|]. destruct (Nat.eqb_spec (S i) (length x - 1)) as [E|E].
    + replace (length x - 2)%nat with i by lia. apply edge_box.
    + replace (S i - 1)%nat with i by lia. apply inner_box.
Qed.
Lemma hermite_between : forall lo hi y0 y1 d0 d1 s, lo <= y0 <= hi -> lo <= y1 <= hi -> box (y1 - y0) d0 -> box (y1 - y0) d1 -> 0 <= s <= 1 -> lo <= hermite y0 y1 d0 d1 s <= hi.
Proof.
  intros lo hi y0 y1 d0 d1 s H0 H1 (r0 & R0 & ->) (r1 & R1 & ->) Hs. set (c := s ^ 2 * (3 - 2 * s) + r0 * s * (1 - s) ^ 2 - r1 * s ^ 2 * (1 - s)).
  assert (E : hermite y0 y1 (r0 * (y1 - y0)) (r1 * (y1 - y0)) s = (1 - c) * y0 + c * y1) by (unfold hermite, c; ring). rewrite E.
  assert (A1 : 0 <= s ^ 2 * (1 - s)) by (apply Rmult_le_pos; [apply pow2_ge_0|lra]). assert (A2 : 0 <= s * (1 - s) ^ 2) by (apply Rmult_le_pos; [lra|apply pow2_ge_0]).
  assert (C0 : 0 <= c). { assert (c = s ^ 3 + r0 * (s * (1 - s) ^ 2) + (3 - r1) * (s ^ 2 * (1 - s))) by (unfold c; ring). assert (0 <= s ^ 3) by (apply pow_le; lra). nra. }
  assert (C1 : c <= 1). { assert (1 - c = (1 - s) ^ 3 + (3 - r0) * (s * (1 - s) ^ 2) + r1 * (s ^ 2 * (1 - s))) by (unfold c; ring). assert (0 <= (1 - s) ^ 3) by (apply pow_le; lra). nra. }
  split; nra.
Qed.
Lemma within_get : forall lo hi l i, within lo hi l -> (i < length l)%nat -> lo <= get l i <= hi.
Proof. intros lo hi l i H Hi. unfold within in H. rewrite Forall_forall in H. apply H. apply nth_In. exact Hi. Qed.
Lemma get_within : forall lo hi l, (forall i, (i < length l)%nat -> lo <= get l i <= hi) -> within lo hi l.
Proof. intros lo hi l H. apply Forall_forall. intros v Hv. destruct (In_nth l v 0 Hv) as (i & Hi & <-). apply H, Hi. Qed.
Lemma pchip_between : forall lo hi x t, (2 <= length x)%nat -> within lo hi x -> 1 <= t <= INR (length x) -> lo <= pchip x t <= hi.
Proof.
  intros lo hi x t L W Ht. unfold pchip. set (i := Nat.min (Z.to_nat (Int_part t) - 1) (length x - 2)). assert (Hi : (i + 2 <= length x)%nat) by (unfold i; lia). destruct (slope_box x i Hi) as (B0 & B1). apply hermite_between; try (apply within_get; [exact W|lia]); [exact B0|exact B1|].
  pose proof (Claims_fvec.Int_part_bounds t) as (F1 & F2). set (z := Int_part t) in *. assert (Z1 : (1 <= z)%Z). { destruct (Z.lt_ge_cases z 1) as [K|K]; [|exact K]. assert (z <= 0)%Z as K' by lia. apply IZR_le in K'. lra. }
  assert (EI : INR (Z.to_nat z) = IZR z) by (rewrite INR_IZR_INZ, Z2Nat.id by lia; reflexivity). rewrite S_INR. unfold i. destruct (Nat.le_gt_cases (Z.to_nat z - 1) (length x - 2)) as [K|K].
  - rewrite Nat.min_l by exact K. rewrite minus_INR by lia. rewrite EI. cbn [INR]. lra.
  - rewrite Nat.min_r by lia. assert (Z.to_nat z = length x) as K2. { assert (K3 : INR (Z.to_nat z) <= INR (length x)) by lra. apply INR_le in K3. lia. }
    rewrite K2 in EI. assert (t = INR (length x)) as -> by lra. rewrite minus_INR by lia. cbn [INR]. lra.
Qed.
Lemma INR_ge2 : forall n, (2 <= n)%nat -> 2 <= INR n.
Proof. intros n H. apply (le_INR 2 n) in H. cbn in H. lra. Qed.
Lemma k_log_lt : forall n l l', (2 <= n)%nat -> (l < l')%nat -> k_log n l < k_log n l'.
Proof.
  intros n l l' Hn Hl. unfold k_log. apply Rpower_lt; [pose proof (INR_ge2 n Hn); lra|]. unfold Rdiv. apply Rmult_lt_compat_r; [apply Rinv_0_lt_compat, lt_0_INR; lia|]. apply lt_INR. exact Hl.
Qed.
Lemma k_log_0 : forall n, (2 <= n)%nat -> k_log n 0 = 1.
Proof. intros n H. unfold k_log. cbn [INR]. unfold Rdiv. rewrite Rmult_0_l. apply Rpower_O. apply lt_0_INR. lia. Qed.
Lemma k_log_last : forall n, (2 <= n)%nat -> k_log n (n - 1) = INR n.
Proof. intros n H. unfold k_log. unfold Rdiv. rewrite Rinv_r by (apply not_0_INR; lia). apply Rpower_1. apply lt_0_INR. lia. Qed.
Lemma k_log_range : forall n l, (2 <= n)%nat -> (l < n)%nat -> 1 <= k_log n l <= INR n.
Proof.
  intros n l H Hl. rewrite <- (k_log_last n H). rewrite <- (k_log_0 n H) at 1. split.
  - destruct l; [lra|]. apply Rlt_le, k_log_lt; lia.
  - destruct (Nat.eq_dec l (n - 1)) as [->|K]; [lra|]. apply Rlt_le, k_log_lt; lia.
Qed.
Lemma search_lt : forall g t i, (i < search g t)%nat -> get g i < t.
Proof. induction g as [|v g IH]; intros t i H; cbn in H; [lia|]. destruct (Rlt_dec v t) as [K|K]; [|lia]. destruct i; [exact K|]. apply (IH t i). lia. Qed.
Lemma search_ge : forall g t, (search g t < length g)%nat -> t <= get g (search g t).
Proof. induction g as [|v g IH]; intros t H; cbn [search length] in *; [lia|]. destruct (Rlt_dec v t) as [K|K]; [apply (IH t); lia|apply Rnot_lt_le; exact K]. Qed.
Lemma search_le : forall g t, (search g t <= length g)%nat.
Proof. induction g as [|v g IH]; intro t; cbn; [lia|]. destruct (Rlt_dec v t); [|lia]. specialize (IH t). lia. Qed.
(** where the search ends on the logarithmic grid *)
Lemma bracket : forall n t, (2 <= n)%nat -> 1 <= t <= INR n -> let hi := Nat.min (Nat.max (search (mk n (k_log n)) t) 1) (length (mk n (k_log n)) - 1) in
  (1 <= hi <= n - 1)%nat /\ k_log n (hi - 1) <= t <= k_log n hi.
Proof.
  intros n t Hn Ht. rewrite mk_length. set (s := search (mk n (k_log n)) t). cbv zeta. assert (S1 : (s <= n - 1)%nat).
  { destruct (Nat.le_gt_cases s (n - 1)) as [K|K]; [exact K|]. pose proof (search_lt (mk n (k_log n)) t (n - 1) ltac:(unfold s in K; exact K)) as Q. rewrite (get_mk (HA := CRing_R)) in Q by lia. rewrite k_log_last in Q by exact Hn. lra. }
  split; [lia|]. pose proof (search_ge (mk n (k_log n)) t) as G. fold s in G. rewrite mk_length in G. specialize (G ltac:(lia)). rewrite (get_mk (HA := CRing_R)) in G by lia. destruct (Nat.eq_dec s 0) as [Z|Z].
  - rewrite Z in *. rewrite Nat.max_r, Nat.min_l by lia. rewrite k_log_0 in G by exact Hn. replace (1 - 1)%nat with 0%nat by lia. rewrite k_log_0 by exact Hn. split; [lra|]. pose proof (k_log_range n 1 Hn ltac:(lia)). lra.
  - rewrite Nat.max_l, Nat.min_l by lia. split; [|exact G]. apply Rlt_le. pose proof (search_lt (mk n (k_log n)) t (s - 1) ltac:(fold s; lia)) as Q. rewrite (get_mk (HA := CRing_R)) in Q by lia. exact Q.
Qed.
(** linear interpolation as a mean of neighbours *)
Lemma interp_mean : forall n y t, (2 <= n)%nat -> 1 <= t <= INR n -> exists i u, (S i < n)%nat /\ 0 <= u <= 1 /\ interp (mk n (k_log n)) y t = (1 - u) * get y i + u * get y (S i).
Proof.
  intros n y t Hn Ht. destruct (bracket n t Hn Ht) as (H1 & H2). unfold interp. set (hi := Nat.min _ _) in *. clearbody hi. destruct hi as [|i]; [lia|]. replace (S i - 1)%nat with i in * by lia. rewrite !(get_mk (HA := CRing_R)) by lia. pose proof (k_log_lt n i (S i) Hn ltac:(lia)) as K.
  exists i, ((t - k_log n i) / (k_log n (S i) - k_log n i)). split; [lia|]. assert (I : 0 < / (k_log n (S i) - k_log n i)) by (apply Rinv_0_lt_compat; lra). assert (E : (k_log n (S i) - k_log n i) * / (k_log n (S i) - k_log n i) = 1) by (apply Rinv_r; lra). split.
  - unfold Rdiv. split; nra.
  - field. lra.
Qed.
Lemma norm_length : forall w, length (norm_window w) = length w.
Proof. intros. apply map_length. Qed.
Lemma norm_get : forall w k, (k < length w)%nat -> get (norm_window w) k = get w k / sum (length w) (get w).
Proof. intros w k H. unfold norm_window. apply (nth_map' (fun v => v / sum (length w) (get w)) w k r0 r0). exact H. Qed.
Lemma norm_sum : forall w, sum (length w) (get w) <> 0 -> sum (length w) (get (norm_window w)) = 1.
Proof. intros w H. rewrite (sum_ext _ _ (fun k => get w k * / sum (length w) (get w))) by (intros k Hk; apply norm_get; exact Hk). rewrite sum_const. apply Rinv_r. exact H. Qed.
Lemma edge_pad_length : forall h x, length (edge_pad h x) = (length x + 2 * h)%nat.
Proof. intros. unfold edge_pad. rewrite !app_length, !repeat_length. lia. Qed.
Lemma edge_pad_get : forall h x i, (0 < length x)%nat -> (i < length x + 2 * h)%nat -> get (edge_pad h x) i = held x (Z.of_nat i - Z.of_nat h).
Proof.
  intros h x i L H. unfold edge_pad, held. destruct (Nat.lt_ge_cases i h) as [K|K].
  - rewrite (get_app_l (HA := CRing_R)) by (rewrite repeat_length; exact K). replace (Z.to_nat _) with 0%nat by lia. unfold get. rewrite (nth_indep _ _ (nth 0 x r0)) by (rewrite repeat_length; exact K). apply nth_repeat.
  - rewrite (get_app_r (HA := CRing_R)) by (rewrite repeat_length; exact K). rewrite repeat_length. destruct (Nat.lt_ge_cases (i - h) (length x)) as [K2|K2].
    + rewrite (get_app_l (HA := CRing_R)) by exact K2. f_equal. lia.
    + rewrite (get_app_r (HA := CRing_R)) by exact K2. replace (Z.to_nat _) with (length x - 1)%nat by lia. unfold get at 1. rewrite (nth_indep _ _ (get x (length x - 1))) by (rewrite repeat_length; lia). apply nth_repeat.
Qed.
Lemma n_window_odd : forall f b, Nat.Odd (n_window f b).
Proof.
  intros f b. unfold n_window. set (n := Z.to_nat _). pose proof (Nat.div_mod n 2 ltac:(lia)) as D. pose proof (Nat.mod_upper_bound n 2 ltac:(lia)) as U. exists (n / 2)%nat. lia.
Qed.
(** what the convolution gives when the window has the expected length *)
Lemma centred : forall x w nw, (0 < length x)%nat -> Nat.Odd nw -> length w = nw -> length (conv_valid (edge_pad (nw / 2) x) w) = length x /\
  forall i, (i < length x)%nat -> get (conv_valid (edge_pad (nw / 2) x) w) i = sum nw (fun k => get w k * held x (Z.of_nat i + Z.of_nat (nw / 2) - Z.of_nat k)).
Proof.
  intros x w nw L (q & Oq) Lw. assert (H2 : (2 * (nw / 2) + 1 = nw)%nat) by (rewrite Oq; replace (2 * q + 1)%nat with (1 + q * 2)%nat by lia; rewrite Nat.div_add by lia; cbn [Nat.div Nat.divmod fst]; lia). set (h := (nw / 2)%nat) in *. clearbody h. unfold conv_valid. rewrite edge_pad_length, Lw.
  destruct (Nat.leb_spec nw (length x + 2 * h)); [|lia]. unfold valid. rewrite mk_length, edge_pad_length, Lw. split; [lia|]. intros i Hi. rewrite (get_mk (HA := CRing_R)) by lia. apply sum_ext. intros k Hk. rewrite edge_pad_get by lia. f_equal. f_equal. lia.
Qed.
Lemma held_within : forall lo hi x z, (0 < length x)%nat -> within lo hi x -> lo <= held x z <= hi.
Proof. intros lo hi x z L W. apply within_get; [exact W|lia]. Qed.
Lemma mean_within : forall lo hi n w (v : nat -> R), (forall k, (k < n)%nat -> 0 <= w k) -> sum n w = 1 -> (forall k, (k < n)%nat -> lo <= v k <= hi) -> lo <= sum n (fun k => w k * v k) <= hi.
Proof.
  intros lo hi n w v W S V. replace lo with (sum n (fun k => w k * lo)) by (rewrite sum_const, S; ring). replace hi with (sum n (fun k => w k * hi)) by (rewrite sum_const, S; ring). split; apply sum_le; intros k Hk; apply Rmult_le_compat_l; try (apply W; exact Hk); apply V; exact Hk.
Qed.
Lemma map_within : forall lo hi n (g : nat -> R) (f : R -> R), (forall l, (l < n)%nat -> lo <= f (g l) <= hi) -> within lo hi (map f (mk n g)).
Proof. intros lo hi n g f H. apply Forall_forall. intros v Hv. apply in_map_iff in Hv. destruct Hv as (u & <- & Hu). unfold mk in Hu. apply in_map_iff in Hu. destruct Hu as (l & <- & Hl). apply in_seq in Hl. apply H. lia. Qed.

(** the shape of a call with a window that fits *)
Lemma smooth_fits : forall spacing fr wt wv clip x nw w, (1 <= length x)%nat -> (spacing = None -> (2 <= length x)%nat) ->
  nw = n_window fr (match spacing with None => log2 (k_log (length x) 1) | Some b => b end) -> (wt = Some w /\ wv = None \/ wt = None /\ exists u, wv = Some u /\ w = (fun _ => u)) -> length (w nw) = nw ->
  let v := match spacing with None => map (pchip x) (mk (length x) (k_log (length x))) | Some _ => x end in
  let s := conv_valid (edge_pad (nw / 2) v) (norm_window (w nw)) in
  let y := match spacing with None => mk (length x) (fun i => interp (mk (length x) (k_log (length x))) s (INR (S i))) | Some _ => s end in
  smooth spacing fr wt wv clip x = (Ok (if clip then map (Rmax 0) y else y), match wv with None => None | Some u => Some (norm_window u) end) /\ length v = length x /\ length s = length x /\ length y = length x /\
  forall i, (i < length x)%nat -> get s i = sum nw (fun k => get (norm_window (w nw)) k * held v (Z.of_nat i + Z.of_nat (nw / 2) - Z.of_nat k)).
Proof.
  intros spacing fr wt wv clip x nw w L1 L2 Enw Hw Lw. cbv zeta. set (v := match spacing with None => map _ _ | Some _ => x end). assert (Lv : length v = length x) by (unfold v; destruct spacing; [reflexivity|rewrite map_length; apply mk_length]).
  destruct (centred v (norm_window (w nw)) nw) as (C1 & C2); [lia|rewrite Enw; apply n_window_odd|rewrite norm_length; exact Lw|]. set (s := conv_valid _ _) in *. rewrite Lv in C1, C2. split; [|split; [exact Lv|split; [exact C1|split; [destruct spacing; [exact C1|apply mk_length]|exact C2]]]].
  unfold smooth. destruct spacing as [b|]; [|destruct (Nat.leb_spec (length x) 1); [specialize (L2 eq_refl); lia|]].
  - cbv beta in Enw. assert (G : conv_valid (edge_pad (n_window fr b / 2) x) (norm_window (w (n_window fr b))) = s) by (rewrite <- Enw; reflexivity).
    destruct Hw as [(-> & ->)|(-> & u & -> & ->)]; rewrite G; [reflexivity|]. reflexivity.
  - assert (G : conv_valid (edge_pad (n_window fr (log2 (k_log (length x) 1)) / 2) v) (norm_window (w (n_window fr (log2 (k_log (length x) 1))))) = s) by (rewrite <- Enw; reflexivity). fold v.
    destruct Hw as [(-> & ->)|(-> & u & -> & ->)]; rewrite G, C1, Nat.eqb_refl; reflexivity.
Qed.

(** The hann window (the default) only averages. *)
Lemma hann_get : forall m i, (i < m)%nat -> 0 <= get (hann m) i.
Proof. intros m i H. unfold hann. rewrite (get_mk (HA := CRing_R)) by exact H. destruct (m =? 1)%nat; [lra|]. pose proof (COS_bound (2 * PI * INR i / INR (m - 1))). lra. Qed.
Theorem C99_hann : averaging hann.
Proof.
  intros m (q & Hm). split; [apply mk_length|]. split.
  - apply Forall_forall. intros v Hv. destruct (In_nth _ v 0 Hv) as (i & Hi & <-). unfold hann in Hi. rewrite mk_length in Hi. apply (hann_get m i Hi).
  - apply Rlt_le_trans with (get (hann m) q).
    + unfold hann. rewrite (get_mk (HA := CRing_R)) by lia. destruct (Nat.eqb_spec m 1); [lra|]. replace (m - 1)%nat with (2 * q)%nat by lia. rewrite mult_INR. replace (2 * PI * INR q / (INR 2 * INR q)) with PI by (cbn [INR]; field; apply not_0_INR; lia). rewrite cos_PI. lra.
    + rewrite <- (sum_delta (HA := CRing_R) m q (fun i => get (hann m) i)) by lia. apply sum_le. intros i Hi. pose proof (hann_get m i Hi). change (@r0 R CRing_R) with 0. destruct (Nat.eqb i q); lra.
Qed.
Print Assumptions C99_hann.

(** Smoothing never leaves the range of the data and keeps its length, for linear and logarithmic data and any averaging window. *)
Theorem C99_range : forall spacing fr w x lo hi, averaging w -> (1 <= length x)%nat -> (spacing = None -> (2 <= length x)%nat) -> within lo hi x ->
  exists y, smooth spacing fr (Some w) None false x = (Ok y, None) /\ length y = length x /\ within lo hi y.
Proof.
  intros spacing fr w x lo hi A L1 L2 W. set (nw := n_window fr (match spacing with None => log2 (k_log (length x) 1) | Some b => b end)). destruct (A nw (n_window_odd _ _)) as (Lw & Pw & Sw).
  destruct (smooth_fits spacing fr (Some w) None false x nw w L1 L2 eq_refl (or_introl (conj eq_refl eq_refl)) Lw) as (E & Lv & Ls & Ly & G). eexists. split; [exact E|]. split; [exact Ly|]. clear E.
  set (v := match spacing with None => map _ _ | Some _ => x end) in *. set (s := conv_valid _ _) in *.
  assert (Wv : within lo hi v). { unfold v. destruct spacing; [exact W|]. apply map_within. intros l Hl. apply pchip_between; [auto|exact W|apply k_log_range; auto]. }
  assert (Ws : within lo hi s).
  { apply get_within. intros i Hi. rewrite Ls in Hi. rewrite G by exact Hi. apply mean_within.
    - intros k Hk. rewrite norm_get by (rewrite Lw; exact Hk). rewrite Lw. rewrite Forall_forall in Pw. apply Rmult_le_pos; [apply Pw, nth_In; rewrite Lw; exact Hk|]. apply Rlt_le, Rinv_0_lt_compat, Sw.
    - rewrite <- Lw at 1. apply norm_sum. rewrite Lw. lra.
    - intros k Hk. apply held_within; [lia|exact Wv]. }
  destruct spacing as [b|]; [exact Ws|]. apply get_within. rewrite mk_length. intros i Hi. rewrite (get_mk (HA := CRing_R)) by exact Hi. destruct (interp_mean (length x) s (INR (S i)) (L2 eq_refl)) as (j & u & Hj & Hu & Ei).
  { split; [rewrite S_INR; pose proof (pos_INR i); lra|apply le_INR; lia]. }
  rewrite Ei. pose proof (within_get lo hi s j Ws ltac:(lia)). pose proof (within_get lo hi s (S j) Ws ltac:(lia)). split; nra.
Qed.
Print Assumptions C99_range.
Example C99_range_example : within 0 2 [1; 2; 0] /\ (2 <= length [1; 2; 0])%nat.
Proof. split; [repeat constructor; lra|cbn; lia]. Qed.

(** Clipping at zero changes nothing for data without negative values, and gives no negative values in any case. *)
Theorem C99_clip : forall spacing fr w x, averaging w -> (1 <= length x)%nat -> (spacing = None -> (2 <= length x)%nat) ->
  (exists y, smooth spacing fr (Some w) None true x = (Ok y, None) /\ Forall (fun v => 0 <= v) y) /\
  (Forall (fun v => 0 <= v) x -> smooth spacing fr (Some w) None true x = smooth spacing fr (Some w) None false x).
Proof.
  intros spacing fr w x A L1 L2. set (nw := n_window fr (match spacing with None => log2 (k_log (length x) 1) | Some b => b end)). destruct (A nw (n_window_odd _ _)) as (Lw & Pw & Sw).
  destruct (smooth_fits spacing fr (Some w) None true x nw w L1 L2 eq_refl (or_introl (conj eq_refl eq_refl)) Lw) as (E & _). destruct (smooth_fits spacing fr (Some w) None false x nw w L1 L2 eq_refl (or_introl (conj eq_refl eq_refl)) Lw) as (E' & _).
  set (y := match spacing with None => mk _ _ | Some _ => _ end) in *. split.
  - eexists. split; [exact E|]. apply Forall_forall. intros v Hv. apply in_map_iff in Hv. destruct Hv as (u & <- & _). apply Rmax_l.
  - intro Px. rewrite E, E'. f_equal. f_equal. assert (B : exists hi, within 0 hi x).
    { clear -Px. induction Px as [|v x H Px (hi & IH)]; [exists 0; constructor|]. exists (Rmax v hi). constructor; [split; [exact H|apply Rmax_l]|]. eapply Forall_impl; [|exact IH]. intros u Hu. pose proof (Rmax_r v hi). cbv beta in Hu. lra. }
    destruct B as (hi & B). destruct (C99_range spacing fr w x 0 hi A L1 L2 B) as (y' & E2 & _ & Wy). rewrite E' in E2. injection E2 as <-. rewrite <- (map_id y) at 2. apply map_ext_in. intros v Hv. apply Rmax_right. unfold within in Wy. rewrite Forall_forall in Wy. apply Wy, Hv.
Qed.
Print Assumptions C99_clip.

(** Scaling and offset go through the smoothing: in particular constants are kept. *)
Lemma same_sign_scale : forall a u v, a <> 0 -> same_sign (a * u) (a * v) = same_sign u v.
Proof.
  intros a u v H. destruct (same_sign u v) eqn:E.
  - apply same_sign_spec in E. apply same_sign_spec. destruct (Rlt_dec 0 a).
    + destruct E as [E|[E|E]]; [left; split; apply Rmult_lt_0_compat; lra|right; left; split; nra|right; right; destruct E as [-> ->]; split; ring].
    + assert (a < 0) by lra. destruct E as [E|[E|E]]; [right; left; split; nra|left; split; nra|right; right; destruct E as [-> ->]; split; ring].
  - destruct (same_sign (a * u) (a * v)) eqn:F; [|reflexivity]. rewrite <- E. symmetry. apply same_sign_spec in F. apply same_sign_spec. destruct (Rlt_dec 0 a).
    + destruct F as [F|[F|F]]; [left; split; nra|right; left; split; nra|right; right; split; nra].
    + assert (a < 0) by lra. destruct F as [F|[F|F]]; [right; left; split; nra|left; split; nra|right; right; split; nra].
Qed.
Lemma inner_scale : forall a u v, inner_slope (a * u) (a * v) = a * inner_slope u v.
Proof.
  intros a u v. destruct (Req_EM_T a 0) as [->|N]; [unfold inner_slope; rewrite !Rmult_0_l; destruct (Req_EM_T 0 0); [reflexivity|lra]|]. unfold inner_slope. rewrite same_sign_scale by exact N.
  destruct (Req_EM_T (a * u) 0) as [E|E], (Req_EM_T u 0) as [F|F]; try (exfalso; nra); [ring|]. destruct (Req_EM_T (a * v) 0) as [E2|E2], (Req_EM_T v 0) as [F2|F2]; try (exfalso; nra); [ring|]. destruct (same_sign u v) eqn:S; [|ring]. apply same_sign_spec in S. assert (u + v <> 0) by lra. assert (a * u + a * v <> 0) by nra. field. repeat split; lra.
Qed.
Lemma edge_scale : forall a u v, edge_slope (a * u) (a * v) = a * edge_slope u v.
Proof.
  intros a u v. unfold edge_slope. replace ((3 * (a * u) - a * v) / 2) with (a * ((3 * u - v) / 2)) by field. set (d := (3 * u - v) / 2). destruct (Req_EM_T a 0) as [->|N].
  - rewrite !Rmult_0_l. assert (S : same_sign 0 0 = true) by (apply same_sign_spec; lra). rewrite S. cbn [negb]. reflexivity.
  - rewrite !same_sign_scale by exact N. destruct (same_sign d u); cbn [negb]; [|ring]. destruct (same_sign u v); cbn [negb]; [reflexivity|]. rewrite !Rabs_mult. pose proof (Rabs_pos_lt a N). destruct (Rlt_dec (3 * (Rabs a * Rabs u)) (Rabs a * Rabs d)), (Rlt_dec (3 * Rabs u) (Rabs d)); try (exfalso; nra); ring.
Qed.
Definition affine (a b : R) (x : list R) : list R := map (fun v => a * v + b) x.
Lemma affine_get : forall a b x i, (i < length x)%nat -> get (affine a b x) i = a * get x i + b.
Proof. intros. unfold affine, get. apply (nth_map' (fun v => a * v + b) x i 0 0). assumption. Qed.
Lemma affine_length : forall a b x, length (affine a b x) = length x.
Proof. intros. apply map_length. Qed.
Lemma step_affine : forall a b x i, (S i < length x)%nat -> step (affine a b x) i = a * step x i.
Proof. intros a b x i H. unfold step. rewrite !affine_get by lia. ring. Qed.
Lemma slope_affine : forall a b x i, (2 <= length x)%nat -> (i < length x)%nat -> slope (affine a b x) i = a * slope x i.
Proof.
  intros a b x i L H. unfold slope. rewrite affine_length. destruct (Nat.eqb_spec (length x) 2); [apply step_affine; lia|]. destruct (Nat.eqb_spec i 0); [rewrite !step_affine by lia; apply edge_scale|]. destruct (Nat.eqb_spec i (length x - 1)); [rewrite !step_affine by lia; apply edge_scale|]. rewrite !step_affine by lia. apply inner_scale.
Qed.
Lemma pchip_affine : forall a b x t, (2 <= length x)%nat -> pchip (affine a b x) t = a * pchip x t + b.
Proof. intros a b x t L. unfold pchip. rewrite affine_length. set (i := Nat.min _ _). assert (i + 2 <= length x)%nat by (unfold i; lia). rewrite !affine_get, !slope_affine by lia. unfold hermite. ring. Qed.
Lemma held_affine : forall a b x z, (0 < length x)%nat -> held (affine a b x) z = a * held x z + b.
Proof. intros a b x z L. unfold held. rewrite affine_length. apply affine_get. lia. Qed.
Theorem C99_affine : forall spacing fr w x a b y, (forall m, Nat.Odd m -> length (w m) = m /\ sum m (get (w m)) <> 0) -> (1 <= length x)%nat -> smooth spacing fr (Some w) None false x = (Ok y, None) ->
  smooth spacing fr (Some w) None false (map (fun v => a * v + b) x) = (Ok (map (fun v => a * v + b) y), None).
Proof.
  intros spacing fr w x a b y A L1 E. assert (L2 : spacing = None -> (2 <= length x)%nat). { intros ->. unfold smooth in E. destruct (Nat.leb_spec (length x) 1); [discriminate|lia]. }
  fold (affine a b x). fold (affine a b y). set (nw := n_window fr (match spacing with None => log2 (k_log (length x) 1) | Some b => b end)). destruct (A nw (n_window_odd _ _)) as (Lw & Sw).
  destruct (smooth_fits spacing fr (Some w) None false x nw w L1 L2 eq_refl (or_introl (conj eq_refl eq_refl)) Lw) as (E1 & Lv & Ls & Ly & G).
  destruct (smooth_fits spacing fr (Some w) None false (affine a b x) nw w) as (E2 & Lv2 & Ls2 & Ly2 & G2); [rewrite affine_length; exact L1|rewrite affine_length; exact L2|rewrite affine_length; reflexivity|left; split; reflexivity|exact Lw|].
  rewrite E1 in E. injection E as <-. rewrite E2. f_equal. f_equal. clear E1 E2. rewrite affine_length in *.
  set (v := match spacing with None => map (pchip x) _ | Some _ => x end) in *. set (v2 := match spacing with None => map (pchip (affine a b x)) _ | Some _ => affine a b x end) in *.
  assert (Ev : v2 = affine a b v). { unfold v, v2. destruct spacing; [reflexivity|]. unfold affine at 2. rewrite map_map. apply map_ext. intro t. apply pchip_affine. auto. }
  rewrite Ev in *. set (s := conv_valid (edge_pad (nw / 2) v) _) in *. set (s2 := conv_valid (edge_pad (nw / 2) (affine a b v)) _) in *.
  assert (Es : s2 = affine a b s).
  { apply list_eq_nth with (d := 0); [rewrite affine_length, Ls2, Ls; reflexivity|]. intros i Hi. rewrite Ls2 in Hi. change (get s2 i = get (affine a b s) i). rewrite affine_get by (rewrite Ls; exact Hi). rewrite G, G2 by exact Hi.
    rewrite (sum_ext _ _ (fun k => a * (get (norm_window (w nw)) k * held v (Z.of_nat i + Z.of_nat (nw / 2) - Z.of_nat k)) + get (norm_window (w nw)) k * b)) by (intros k Hk; rewrite held_affine by lia; ring).
    etransitivity; [apply (sum_add (HA := CRing_R))|]. change (@radd R CRing_R) with Rplus. f_equal; [apply (sum_scal_l (HA := CRing_R))|]. rewrite sum_const. rewrite <- Lw at 1. rewrite norm_sum by (rewrite Lw; exact Sw). ring. }
  destruct spacing as [q|]; [exact Es|]. rewrite Es. apply list_eq_nth with (d := 0); [rewrite affine_length, !mk_length; reflexivity|]. intros i Hi. rewrite mk_length in Hi. change (get (mk (length x) (fun i => interp (mk (length x) (k_log (length x))) (affine a b s) (INR (S i)))) i = get (affine a b (mk (length x) (fun i => interp (mk (length x) (k_log (length x))) s (INR (S i))))) i).
  rewrite affine_get by (rewrite mk_length; exact Hi). rewrite !(get_mk (HA := CRing_R)) by exact Hi. unfold interp. rewrite !mk_length. set (hi := Nat.min _ _). assert (hi < length x)%nat by (unfold hi; specialize (L2 eq_refl); lia). rewrite !affine_get by (rewrite Ls; lia). unfold Rdiv. ring.
Qed.
Print Assumptions C99_affine.
Example C99_affine_example : forall m, Nat.Odd m -> length (hann m) = m /\ sum m (get (hann m)) <> 0.
Proof. intros m H. destruct (C99_hann m H) as (A & _ & B). split; [exact A|lra]. Qed.

(** Data with logarithmic spacing: the exact weighted mean, the ends held. *)
Theorem C99_weighted_mean : forall b fr w x i, (forall m, Nat.Odd m -> length (w m) = m) -> (i < length x)%nat ->
  let nw := n_window fr b in
  exists y, smooth (Some b) fr (Some w) None false x = (Ok y, None) /\ length y = length x /\
    get y i = sum nw (fun k => get (w nw) k / sum nw (get (w nw)) * held x (Z.of_nat i + Z.of_nat (nw / 2) - Z.of_nat k)).
Proof.
  intros b fr w x i A Hi nw. pose proof (A nw (n_window_odd _ _)) as Lw. destruct (smooth_fits (Some b) fr (Some w) None false x nw w ltac:(lia) ltac:(discriminate) eq_refl (or_introl (conj eq_refl eq_refl)) Lw) as (E & _ & Ls & _ & G).
  eexists. split; [exact E|]. split; [exact Ls|]. cbv beta iota in *. rewrite G by exact Hi. apply sum_ext. intros k Hk. rewrite norm_get by (rewrite Lw; exact Hk). rewrite Lw. reflexivity.
Qed.
Print Assumptions C99_weighted_mean.
Example C99_weighted_mean_example : (1 < length [1; 2; 3])%nat /\ forall m, Nat.Odd m -> length (hann m) = m.
Proof. split; [cbn; lia|]. intros m H. apply (C99_hann m H). Qed.

(** The window is as wide as the band asked for, to one and a half bins, and has an odd number of them. *)
Theorem C99_width : forall fr beta, 0 < fr -> 0 < beta -> Nat.Odd (n_window fr beta) /\ 1 / fr - beta / 2 <= INR (n_window fr beta) * beta <= 1 / fr + 3 / 2 * beta.
Proof.
  intros fr beta Hf Hb. split; [apply n_window_odd|]. unfold n_window. set (q := 1 / (fr * beta)). assert (Q : q * beta = 1 / fr) by (unfold q; field; lra). assert (P : 0 < q) by (unfold q; unfold Rdiv; rewrite Rmult_1_l; apply Rinv_0_lt_compat; nra).
  pose proof (Claims_fvec.Int_part_bounds (q + 1 / 2)) as (F1 & F2). set (z := Int_part (q + 1 / 2)) in *. assert (Z0 : (0 <= z)%Z). { destruct (Z.lt_ge_cases z 0) as [K|K]; [|exact K]. assert (K' : (z <= -1)%Z) by lia. apply IZR_le in K'. lra. }
  rewrite plus_INR. assert (EI : INR (Z.to_nat z) = IZR z) by (rewrite INR_IZR_INZ, Z2Nat.id by lia; reflexivity). rewrite EI. assert (U : 0 <= INR (1 - Z.to_nat z mod 2) <= 1) by (split; [apply pos_INR|apply (le_INR _ 1); lia]). split; nra.
Qed.
Print Assumptions C99_width.
Example C99_width_example : 0 < 3 /\ 0 < log2 (k_log 5 1).
Proof.
  split; [lra|]. unfold log2. apply Rdiv_lt_0_compat; [|pose proof (ln_increasing 1 2 ltac:(lra) ltac:(lra)) as H; rewrite ln_1 in H; exact H]. rewrite <- ln_1. apply ln_increasing; [lra|]. rewrite <- (k_log_0 5) by lia. apply k_log_lt; lia.
Qed.

(** Linear data of three points and bands of half an octave or less: the window is a single point. *)
Lemma k31 : 1 < k_log 3 1 < 2.
Proof.
  unfold k_log. replace (INR 3) with 3 by (cbn; lra). replace (INR 1 / INR (3 - 1)) with (/ 2) by (cbn; lra). rewrite Rpower_sqrt by lra. pose proof (sqrt_sqrt 3 ltac:(lra)). pose proof (sqrt_pos 3). split; nra.
Qed.
Lemma one_point : forall fr, 2 <= fr -> n_window fr (log2 (k_log 3 1)) = 1%nat.
Proof.
  intros fr H. unfold n_window. assert (L2 : 0 < ln 2) by (pose proof (ln_increasing 1 2 ltac:(lra) ltac:(lra)) as K; rewrite ln_1 in K; exact K). assert (B : 1 / 2 <= log2 (k_log 3 1)).
  { unfold log2, k_log, Rpower. rewrite ln_exp. replace (INR 3) with 3 by (cbn; lra). replace (INR 1 / INR (3 - 1)) with (1 / 2) by (cbn; lra). pose proof (ln_increasing 2 3 ltac:(lra) ltac:(lra)). apply Rmult_le_reg_r with (ln 2); [exact L2|]. replace (1 / 2 * ln 3 / ln 2 * ln 2) with (1 / 2 * ln 3) by (field; lra). lra. }
  set (q := 1 / (fr * log2 (k_log 3 1))). assert (P : 0 < q <= 1). { unfold q. assert (1 <= fr * log2 (k_log 3 1)) by nra. split; [apply Rdiv_lt_0_compat; lra|]. apply Rmult_le_reg_r with (fr * log2 (k_log 3 1)); [lra|]. unfold Rdiv. rewrite Rmult_assoc, Rinv_l by lra. lra. }
  pose proof (Claims_fvec.Int_part_bounds (q + 1 / 2)) as (F1 & F2). set (z := Int_part (q + 1 / 2)) in *. assert ((0 <= z)%Z /\ (z <= 1)%Z) as (Z0 & Z1).
  { split; [destruct (Z.lt_ge_cases z 0) as [K|K]; [|exact K]; assert (K' : (z <= -1)%Z) by lia; apply IZR_le in K'; lra|destruct (Z.le_gt_cases z 1) as [K|K]; [exact K|]; assert (K' : (2 <= z)%Z) by lia; apply IZR_le in K'; lra]. }
  assert (z = 0 \/ z = 1)%Z as [-> | ->] by lia; reflexivity.
Qed.
Lemma three : forall fr a b c, 2 <= fr -> let u := (2 - k_log 3 1) / (3 - k_log 3 1) in exists y, 0 < u < 1 /\ smooth None fr (Some hann) None false [a; b; c] = (Ok y, None) /\
  get y 1 = (1 - u) * hermite a b (edge_slope (b - a) (c - b)) (inner_slope (b - a) (c - b)) (k_log 3 1 - 1) + u * c.
Proof.
  intros fr a b c Hf u. pose proof k31 as K. unfold u. clear u. set (q := k_log 3 1) in *. assert (K2 : k_log 3 2 = 3) by (pose proof (k_log_last 3 ltac:(lia)) as Q; change (k_log 3 2 = INR 3) in Q; rewrite Q; cbn; lra). assert (K0 : k_log 3 0 = 1) by (apply k_log_0; lia).
  destruct (smooth_fits None fr (Some hann) None false [a; b; c] 1 hann) as (E & _ & Ls & _ & G); [cbn; lia|cbn; lia|symmetry; apply one_point; exact Hf|left; split; reflexivity|reflexivity|].
  eexists. split; [split; [apply Rdiv_lt_0_compat; lra|apply Rmult_lt_reg_r with (3 - q); [lra|]; unfold Rdiv; rewrite Rmult_assoc, Rinv_l by lra; lra]|]. split; [exact E|]. cbv beta iota. cbn [length] in *. rewrite (get_mk (HA := CRing_R)) by lia.
  set (s := conv_valid _ _) in *. assert (W1 : get (norm_window (hann 1)) 0 = 1) by (unfold norm_window, hann; cbn; field).
  assert (S1 : get s 1 = pchip [a; b; c] q). { rewrite G by lia. cbn [sum]. rewrite W1. change (0 + 1 * pchip [a; b; c] (k_log 3 1) = pchip [a; b; c] q). unfold q. ring. }
  assert (S2 : get s 2 = c). { rewrite G by lia. cbn [sum]. rewrite W1. change (0 + 1 * pchip [a; b; c] (k_log 3 2) = c). unfold pchip. rewrite K2. rewrite (Claims_fvec.Int_part_unique 3 3) by lra. change (Nat.min (Z.to_nat 3 - 1) (length [a; b; c] - 2)) with 1%nat. replace (3 - INR 2) with 1 by (cbn; lra). unfold hermite. change (get [a; b; c] 2) with c. ring. }
  assert (SE : search (mk 3 (k_log 3)) (INR 2) = 2%nat). { cbn [mk seq map search]. rewrite K0, K2. fold q. replace (INR 2) with 2 by (cbn; lra). destruct (Rlt_dec 1 2); [|lra]. destruct (Rlt_dec q 2); [|lra]. destruct (Rlt_dec 3 2); [lra|reflexivity]. }
  unfold interp. rewrite SE, mk_length. cbn [Nat.max Nat.min Nat.sub]. rewrite !(get_mk (HA := CRing_R)) by lia. rewrite S1, S2, K2. fold q. replace (INR 2) with 2 by (cbn; lra).
  assert (P : pchip [a; b; c] q = hermite a b (edge_slope (b - a) (c - b)) (inner_slope (b - a) (c - b)) (q - 1)). { unfold pchip. rewrite (Claims_fvec.Int_part_unique q 1) by lra. reflexivity. }
  rewrite P. field. lra.
Qed.
Lemma slopes_flat_rise : edge_slope 0 1 = 0 /\ inner_slope 0 1 = 0.
Proof.
  split; [|unfold inner_slope; destruct (Req_EM_T 0 0); [reflexivity|lra]]. unfold edge_slope. destruct (same_sign ((3 * 0 - 1) / 2) 0) eqn:S; cbn [negb]; [|reflexivity]. apply same_sign_spec in S. lra.
Qed.
Lemma slopes_rise_flat : edge_slope 1 0 = 3 / 2 /\ inner_slope 1 0 = 0.
Proof.
  split; [|unfold inner_slope; destruct (Req_EM_T 1 0); [lra|]; destruct (Req_EM_T 0 0); [reflexivity|lra]]. unfold edge_slope. destruct (same_sign ((3 * 1 - 0) / 2) 1) eqn:S; cbn [negb].
  - destruct (same_sign 1 0) eqn:T; cbn [negb]; [apply same_sign_spec in T; lra|]. destruct (Rlt_dec _ _) as [L|L]; [rewrite !Rabs_right in L by lra; lra|lra].
  - assert (same_sign ((3 * 1 - 0) / 2) 1 = true) by (apply same_sign_spec; lra). congruence.
Qed.
Lemma slopes_rise : edge_slope 1 1 = 1 /\ inner_slope 1 1 = 1.
Proof.
  assert (T : same_sign 1 1 = true) by (apply same_sign_spec; lra). split.
  - unfold edge_slope. replace ((3 * 1 - 1) / 2) with 1 by field. rewrite T. reflexivity.
  - unfold inner_slope. rewrite T. destruct (Req_EM_T 1 0); [lra|]. field.
Qed.
(** The sum of two spectra is not smoothed to the sum, and a window of a single point does not give the data back. *)
Theorem C99_additive_refuted : forall fr, 2 <= fr -> exists y1 y2 y3, smooth None fr (Some hann) None false [0; 0; 1] = (Ok y1, None) /\ smooth None fr (Some hann) None false [0; 1; 1] = (Ok y2, None) /\
  smooth None fr (Some hann) None false [0; 1; 2] = (Ok y3, None) /\ get y3 1 < get y1 1 + get y2 1 /\ get y2 1 < 1.
Proof.
  intros fr Hf. pose proof k31 as K. destruct (three fr 0 0 1 Hf) as (y1 & Hu & E1 & G1). destruct (three fr 0 1 1 Hf) as (y2 & _ & E2 & G2). destruct (three fr 0 1 2 Hf) as (y3 & _ & E3 & G3).
  exists y1, y2, y3. split; [exact E1|]. split; [exact E2|]. split; [exact E3|]. rewrite G1, G2, G3. set (u := (2 - k_log 3 1) / (3 - k_log 3 1)) in *. set (s := k_log 3 1 - 1). assert (Hs : 0 < s < 1) by (unfold s; lra).
  replace (0 - 0) with 0 by ring. replace (1 - 0) with 1 by ring. replace (1 - 1) with 0 by ring. replace (2 - 1) with 1 by ring. destruct slopes_flat_rise as [-> ->]. destruct slopes_rise_flat as [-> ->]. destruct slopes_rise as [-> ->].
  assert (H1 : hermite 0 0 0 0 s = 0) by (unfold hermite; ring). assert (H2 : hermite 0 1 (3 / 2) 0 s = s + s * (1 - s) * (1 + s) / 2) by (unfold hermite; field). assert (H2' : hermite 0 1 (3 / 2) 0 s = 1 - (1 - s) * (1 - s) * (s + 2) / 2) by (unfold hermite; field). assert (H3 : hermite 0 1 1 1 s = s) by (unfold hermite; ring).
  rewrite H1, H3. assert (P1 : 0 < s * (1 - s) * (1 + s)) by (apply Rmult_lt_0_compat; [apply Rmult_lt_0_compat|]; lra). assert (P2 : 0 < (1 - s) * (1 - s) * (s + 2)) by (apply Rmult_lt_0_compat; [apply Rmult_lt_0_compat|]; lra). split; [rewrite H2; nra|rewrite H2'; nra].
Qed.
Print Assumptions C99_additive_refuted.

(** A window given as a vector: the caller's array is normalised in place; its length may differ from the one the band needs, and then logarithmic data change
    their length and linear data are refused. A window type with a vector is refused, as is neither of them. *)
Theorem C99_window_vector : forall spacing fr u x clip b, (1 <= length x)%nat -> (spacing = None -> (2 <= length x)%nat) ->
  let nw := n_window fr (match spacing with None => log2 (k_log (length x) 1) | Some b => b end) in
  snd (smooth spacing fr None (Some u) clip x) = Some (map (fun v => v / sum (length u) (get u)) u) /\
  (length u = nw -> forall w, w nw = u -> fst (smooth spacing fr None (Some u) clip x) = fst (smooth spacing fr (Some w) None clip x)) /\
  (length u <> nw -> (length u <= length x + 2 * (nw / 2))%nat ->
     (spacing = None -> fst (smooth spacing fr None (Some u) clip x) = Err ValueError) /\
  (spacing = Some b -> exists y, fst (smooth spacing fr None (Some u) clip x) = Ok y /\ length y = (length x + 2 * (nw / 2) + 1 - length u)%nat /\ length y <> length x)) /\
  (forall w, fst (smooth spacing fr (Some w) (Some u) clip x) = Err AssertionError) /\ fst (smooth spacing fr None None clip x) = Err AttributeError.
Proof.
  intros spacing fr u x clip b L1 L2 nw. assert (C : match spacing, (length x <=? 1)%nat with None, true => False | _, _ => True end) by (destruct spacing; [exact I|]; destruct (Nat.leb_spec (length x) 1); [specialize (L2 eq_refl); lia|exact I]).
  assert (O : (2 * (nw / 2) + 1 = nw)%nat) by (destruct (n_window_odd fr (match spacing with None => log2 (k_log (length x) 1) | Some b => b end)) as (q & Oq); fold nw in Oq; rewrite Oq; replace (2 * q + 1)%nat with (1 + q * 2)%nat by lia; rewrite Nat.div_add by lia; cbn [Nat.div Nat.divmod fst]; lia).
  split; [|split; [|split; [|split]]].
  - unfold smooth. destruct spacing; [reflexivity|]. destruct (length x <=? 1)%nat; [destruct C|reflexivity].
  - intros Lu w Ew. destruct (smooth_fits spacing fr None (Some u) clip x nw (fun _ => u) L1 L2 eq_refl) as (E1 & _); [right; split; [reflexivity|exists u; split; reflexivity]|exact Lu|]. destruct (smooth_fits spacing fr (Some w) None clip x nw w L1 L2 eq_refl) as (E2 & _); [left; split; reflexivity|rewrite Ew; exact Lu|]. rewrite E1, E2, Ew. reflexivity.
  - intros Nu Hu. assert (G : forall v, length v = length x -> length (conv_valid (edge_pad (nw / 2) v) (norm_window u)) = (length x + 2 * (nw / 2) + 1 - length u)%nat).
    { intros v Lv. unfold conv_valid. rewrite edge_pad_length, norm_length, Lv. destruct (Nat.leb_spec (length u) (length x + 2 * (nw / 2))); [|lia]. unfold valid. rewrite mk_length, edge_pad_length, norm_length. lia. }
    split; intros ->; unfold smooth.
    + destruct (length x <=? 1)%nat; [destruct C|]. fold nw. rewrite (G (map (pchip x) (mk (length x) (k_log (length x))))) by (rewrite map_length; apply mk_length). destruct (Nat.eqb_spec (length x + 2 * (nw / 2) + 1 - length u) (length x)); [lia|reflexivity].
    + fold nw. eexists. split; [reflexivity|]. destruct clip; [rewrite map_length|]; rewrite (G x eq_refl); split; lia.
  - intro w. unfold smooth. destruct spacing; [reflexivity|]. destruct (length x <=? 1)%nat; [destruct C|reflexivity].
  - unfold smooth. destruct spacing; [reflexivity|]. destruct (length x <=? 1)%nat; [destruct C|reflexivity].
Qed.
Print Assumptions C99_window_vector.
Example C99_window_vector_example : fst (smooth (Some 1) 1 None (Some [1; 1]) false [1; 2; 3; 4]) = Ok [3 / 2; 5 / 2; 7 / 2].
Proof.
  unfold smooth, n_window. replace (1 / (1 * 1) + 1 / 2) with (3 / 2) by field. rewrite (Claims_fvec.Int_part_unique (3 / 2) 1) by lra. change (Z.to_nat 1) with 1%nat. cbn. repeat (f_equal; try field).
Qed.
