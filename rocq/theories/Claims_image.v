(** C58: the image source model. *)
From Coq Require Import List Arith Lia ZArith Bool Reals Lra Permutation.
From Verif Require Import Alg Spec Dft M_arrays M_shoebox Claims_level Claims_fade Claims_shoebox.
Import ListNotations.
Local Open Scope R_scope.

(** ** Specification *)
Fixpoint lsum {A} (f : A -> R) (l : list A) : R := match l with [] => 0 | a :: t => f a + lsum f t end.
Definition image := (triple * triple)%type.
(** All images up to order m in every direction. *)
Definition images (m : Z) : list image := flat_map (fun l => map (fun u => (l, u)) u_vectors) (cells m).
(** The pressure amplitude of an image: the reflection factors, one for each reflection, over 4 pi times the distance. *)
Definition amplitude (dims s r b1 b2 : R * R * R) (i : image) : R :=
  image_damping b1 b2 (fst i) (snd i) / (4 * PI * image_dist dims s r (fst i) (snd i)).
(** The response at sample k: the sum over all images that arrive there. *)
Definition response (dims s r b1 b2 : R * R * R) (m : Z) (sr : R) (k : nat) : R :=
  lsum (fun i => if (sample_of sr (image_dist dims s r (fst i) (snd i)) =? k)%nat then amplitude dims s r b1 b2 i else 0) (images m).
(** No two of the eight images of a cell arrive at the same sample. *)
Definition separate (dims s r : R * R * R) (m : Z) (sr : R) : Prop :=
  forall l, In l (cells m) -> NoDup (map (fun u => sample_of sr (image_dist dims s r l u)) u_vectors).
(** Every image arrives within n samples. *)
Definition within (dims s r : R * R * R) (m : Z) (sr : R) (n : nat) : Prop :=
  forall l u, In l (cells m) -> In u u_vectors -> (sample_of sr (image_dist dims s r l u) < n)%nat.
Definition rir_length (rt sr : R) : nat := Z.to_nat (Int_part (rt * (11 / 10) * 5 * sr)).

(** ** Sums over lists *)
Lemma lsum_app {A} (f : A -> R) l k : lsum f (l ++ k) = lsum f l + lsum f k.
Proof. induction l; cbn; [|rewrite IHl]; ring. Qed.
Lemma lsum_ext {A} (f g : A -> R) l : (forall a, In a l -> f a = g a) -> lsum f l = lsum g l.
Proof. induction l; intros H; cbn; auto. rewrite H by now left. f_equal. apply IHl. intros; apply H; now right. Qed.
Lemma lsum_flat {A B} (f : B -> R) (g : A -> list B) l : lsum f (flat_map g l) = lsum (fun a => lsum f (g a)) l.
Proof. induction l; cbn; auto. rewrite lsum_app. now rewrite IHl. Qed.
Lemma lsum_map {A B} (f : B -> R) (g : A -> B) l : lsum f (map g l) = lsum (fun a => f (g a)) l.
Proof. induction l; cbn; auto. now rewrite IHl. Qed.
Lemma lsum_perm {A} (f : A -> R) l k : Permutation l k -> lsum f l = lsum f k.
Proof. induction 1; cbn; try congruence; try lra. Qed.
Lemma lsum_le {A} (f g : A -> R) l : (forall a, In a l -> f a <= g a) -> lsum f l <= lsum g l.
Proof. induction l; intros H; cbn. lra. specialize (IHl (fun a Ha => H a (or_intror Ha))). specialize (H a (or_introl eq_refl)). lra. Qed.
Lemma lsum_zero {A} (f : A -> R) l : (forall a, In a l -> f a = 0) -> lsum f l = 0.
Proof. induction l; intros H; cbn. lra. rewrite IHl, H; auto. lra. now left. intros; apply H; now right. Qed.

(** ** The writes *)
Definition last_of (p : list (nat * R)) (k : nat) : R := fold_left (fun a e => if (fst e =? k)%nat then snd e else a) p 0.
Lemma fold_upd_length {A} (f : A -> nat) (g : A -> R) p : forall acc, length (fold_left (fun acc e => upd acc (f e) (g e)) p acc) = length acc.
Proof. induction p; intros acc; cbn; auto. rewrite IHp, upd_length. reflexivity. Qed.
Lemma fold_upd_get v k p : forall acc, length acc = length v -> (forall e, In e p -> (fst e < length v)%nat) ->
  get (fold_left (fun acc e => upd acc (fst e) (get v (fst e) + snd e)) p acc) k =
  fold_left (fun a e => if (fst e =? k)%nat then get v k + snd e else a) p (get acc k).
Proof.
  induction p as [|[i x] t IH]; intros acc L H; cbn [fold_left fst snd]; auto. rewrite IH.
  - rewrite (get_upd (HA := CRing_R)) by (rewrite L; apply (H (i, x)); now left). rewrite (Nat.eqb_sym i k). destruct (k =? i)%nat eqn:E; auto. apply Nat.eqb_eq in E. subst. reflexivity.
  - now rewrite upd_length.
  - intros; apply H; now right.
Qed.
Lemma fold_last v0 k p : forall a b, a = v0 + b ->
  fold_left (fun a e => if (fst e =? k)%nat then v0 + snd e else a) p a = v0 + fold_left (fun a (e : nat * R) => if (fst e =? k)%nat then snd e else a) p b.
Proof. induction p as [|[i x] t IH]; intros a b E; cbn; auto. apply IH. destruct (i =? k)%nat; auto. Qed.
Lemma fancy_ok v p : (forall e, In e p -> (fst e < length v)%nat) ->
  exists w, fancy_add v p = Ok w /\ length w = length v /\ forall k, get w k = get v k + last_of p k.
Proof.
  intros H. unfold fancy_add. replace (forallb _ p) with true. eexists. split; [reflexivity|]. split. apply fold_upd_length.
  intros k. rewrite fold_upd_get by auto. apply fold_last. ring. symmetry. apply forallb_forall. intros e He. apply Nat.ltb_lt. auto.
Qed.
Lemma fancy_err v p e : In e p -> (length v <= fst e)%nat -> fancy_add v p = Err IndexError.
Proof.
  intros He Hl. unfold fancy_add. replace (forallb _ p) with false; auto. symmetry. apply not_true_iff_false. intros X. rewrite forallb_forall in X. specialize (X e He). apply Nat.ltb_lt in X. lia.
Qed.
Definition run_cells {A} (f : A -> list (nat * R)) cs v : result (list R) := fold_left (fun acc l => bind acc (fun v => fancy_add v (f l))) cs v.
Lemma run_err {A} (f : A -> list (nat * R)) cs e : run_cells f cs (Err e) = Err e.
Proof. induction cs; cbn; auto. Qed.
Lemma run_ok {A} (f : A -> list (nat * R)) cs : forall v, (forall l e, In l cs -> In e (f l) -> (fst e < length v)%nat) ->
  exists w, run_cells f cs (Ok v) = Ok w /\ length w = length v /\ forall k, get w k = get v k + lsum (fun l => last_of (f l) k) cs.
Proof.
  induction cs as [|l t IH]; intros v H. exists v. repeat split; auto. intros. cbn. ring.
  destruct (fancy_ok v (f l)) as (w & E & L & G). intros e He. apply (H l); auto. now left.
  destruct (IH w) as (w' & E' & L' & G'). intros l' e Hl He. rewrite L. apply (H l'); auto. now right.
  exists w'. unfold run_cells in *. cbn [fold_left bind]. rewrite E. repeat split; auto. congruence. intros k. rewrite G', G. cbn. ring.
Qed.
Lemma run_bad {A} (f : A -> list (nat * R)) cs : forall v, (exists l e, In l cs /\ In e (f l) /\ (length v <= fst e)%nat) -> run_cells f cs (Ok v) = Err IndexError.
Proof.
  induction cs as [|c t IH]; intros v (l & e & Hl & He & Hn). contradiction.
  unfold run_cells. cbn [fold_left bind]. destruct (forallb (fun e => fst e <? length v)%nat (f c)) eqn:F.
  - destruct (fancy_ok v (f c)) as (w & E & L & _). intros e' He'. rewrite forallb_forall in F. apply Nat.ltb_lt, F; auto. rewrite E. apply IH. destruct Hl as [->|Hl].
    + exfalso. rewrite forallb_forall in F. specialize (F e He). apply Nat.ltb_lt in F. lia.
    + exists l, e. rewrite L. auto.
  - unfold fancy_add. rewrite F. apply run_err.
Qed.
Lemma get_zeros n k : get (repeat 0 n) k = 0.
Proof. unfold get. revert k. induction n; destruct k; cbn; auto. Qed.
Lemma gen_run dims alpha s r rt mo sr b : betas alpha = Ok b ->
  generate_rir dims alpha s r rt mo sr = run_cells (cell_values dims s r (fst b) (snd b) sr) (cells (image_limit dims rt mo)) (Ok (repeat 0 (rir_length rt sr))).
Proof. intros H. unfold generate_rir. rewrite H. reflexivity. Qed.

(** ** What is computed *)
(** The call succeeds exactly if every image arrives within the length of the vector, which is five times 1.1 times the
    reverberation time; otherwise it raises IndexError. *)
Theorem C58_success dims alpha s r rt mo sr b : betas alpha = Ok b ->
  let m := image_limit dims rt mo in
  (within dims s r m sr (rir_length rt sr) -> exists out, generate_rir dims alpha s r rt mo sr = Ok out /\ length out = rir_length rt sr) /\
  (~ within dims s r m sr (rir_length rt sr) -> generate_rir dims alpha s r rt mo sr = Err IndexError).
Proof.
  intros HB m. rewrite (gen_run _ _ _ _ _ _ _ _ HB). fold m. split.
  - intros W. destruct (run_ok (cell_values dims s r (fst b) (snd b) sr) (cells m) (repeat 0 (rir_length rt sr))) as (w & E & L & _).
    + intros l e Hl He. unfold cell_values in He. apply in_map_iff in He. destruct He as (u & <- & Hu). cbn [fst]. rewrite repeat_length. now apply W.
    + exists w. rewrite repeat_length in L. auto.
  - intros NW.
    assert (D : (forall l, In l (cells m) -> forall u, In u u_vectors -> (sample_of sr (image_dist dims s r l u) < rir_length rt sr)%nat) \/
                exists l u, In l (cells m) /\ In u u_vectors /\ (rir_length rt sr <= sample_of sr (image_dist dims s r l u))%nat).
    { clear. induction (cells m) as [|l t IH]. left. contradiction. destruct IH as [IH|(l' & u & H)].
      - assert (U : forall us, (forall u, In u us -> (sample_of sr (image_dist dims s r l u) < rir_length rt sr)%nat) \/ exists u, In u us /\ (rir_length rt sr <= sample_of sr (image_dist dims s r l u))%nat).
        { induction us as [|u us IU]. left. contradiction. destruct IU as [IU|(u' & H1 & H2)]; [|right; exists u'; split; [now right|auto]].
          destruct (Nat.lt_ge_cases (sample_of sr (image_dist dims s r l u)) (rir_length rt sr)). left. intros v [<-|Hv]; auto. right. exists u. split; [now left|auto]. }
        destruct (U u_vectors) as [U1|(u & H1 & H2)]. left. intros v [<-|Hv]; auto. right. exists l, u. repeat split; auto. now left.
      - right. exists l', u. intuition. }
    destruct D as [D|(l & u & Hl & Hu & Hn)]. exfalso. apply NW. intros l u Hl Hu. now apply D.
    apply run_bad. exists l, (sample_of sr (image_dist dims s r l u), image_damping (fst b) (snd b) l u / (4 * PI * image_dist dims s r l u)). repeat split; auto.
    unfold cell_values. apply (in_map (fun u => (sample_of sr (image_dist dims s r l u), image_damping (fst b) (snd b) l u / (4 * PI * image_dist dims s r l u)))). auto.
    cbn [fst]. rewrite repeat_length. auto.
Qed.
Print Assumptions C58_success.
Lemma gen_law dims alpha s r rt mo sr b out : betas alpha = Ok b -> generate_rir dims alpha s r rt mo sr = Ok out ->
  length out = rir_length rt sr /\ within dims s r (image_limit dims rt mo) sr (rir_length rt sr) /\
  forall k, get out k = lsum (fun l => last_of (cell_values dims s r (fst b) (snd b) sr l) k) (cells (image_limit dims rt mo)).
Proof.
  intros HB E. rewrite (gen_run _ _ _ _ _ _ _ _ HB) in E.
  assert (W : within dims s r (image_limit dims rt mo) sr (rir_length rt sr)).
  { intros l u Hl Hu. apply Nat.nle_gt. intros Hn. rewrite (run_bad (cell_values dims s r (fst b) (snd b) sr)) in E. discriminate.
    exists l. eexists. split; [auto|]. split. unfold cell_values. apply in_map_iff. exists u. split; [reflexivity|auto]. cbn [fst]. rewrite repeat_length. auto. }
  destruct (run_ok (cell_values dims s r (fst b) (snd b) sr) (cells (image_limit dims rt mo)) (repeat 0 (rir_length rt sr))) as (w & E' & L & G).
  - intros l e Hl He. unfold cell_values in He. apply in_map_iff in He. destruct He as (u & <- & Hu). cbn [fst]. rewrite repeat_length. now apply W.
  - rewrite E' in E. injection E as <-. rewrite repeat_length in L. repeat split; auto. intros k. rewrite G, get_zeros. ring.
Qed.
Lemma last_nodup p k : forall a, NoDup (map fst p) -> ~ In k (map fst p) \/ a = 0 ->
  fold_left (fun a (e : nat * R) => if (fst e =? k)%nat then snd e else a) p a = a + lsum (fun e => if (fst e =? k)%nat then snd e else 0) p.
Proof.
  induction p as [|[i x] t IH]; intros a N H; cbn [fold_left map fst snd lsum]. ring. inversion N as [|? ? N1 N2]; subst. cbn [fst snd].
  destruct (i =? k)%nat eqn:E.
  - apply Nat.eqb_eq in E. subst i. destruct H as [H| ->]. exfalso. apply H. now left. rewrite IH; auto. ring.
  - rewrite IH; auto. ring. destruct H as [H|H]; auto. left. intros X. apply H. now right.
Qed.
(** If no two images of a cell coincide, the response is the sum over all images, each at the sample nearest to its arrival. *)
Theorem C58_images dims alpha s r rt mo sr b out : betas alpha = Ok b -> generate_rir dims alpha s r rt mo sr = Ok out ->
  let m := image_limit dims rt mo in separate dims s r m sr ->
  forall k, get out k = response dims s r (fst b) (snd b) m sr k.
Proof.
  intros HB E m S k. destruct (gen_law _ _ _ _ _ _ _ _ _ HB E) as (_ & _ & G). rewrite G. fold m. unfold response, images. rewrite lsum_flat. apply lsum_ext. intros l Hl.
  unfold last_of. rewrite last_nodup; auto.
  - unfold cell_values. rewrite !lsum_map. cbn [fst snd]. rewrite Rplus_0_l. reflexivity.
  - unfold cell_values. rewrite map_map. cbn [fst]. apply S. auto.
Qed.
Print Assumptions C58_images.

(** ** Reciprocity *)
Definition swap1 (l u : Z) : Z := if (u =? 0)%Z then (- l)%Z else l.
Definition swap_image (i : image) : image := let '((l1, l2, l3), (u1, u2, u3)) := i in ((swap1 l1 u1, swap1 l2 u2, swap1 l3 u3), (u1, u2, u3)).
Lemma zrange_in m z : In z (zrange m) <-> (- m <= z <= m)%Z.
Proof.
  unfold zrange. rewrite in_map_iff. split. intros (i & <- & Hi). apply in_seq in Hi. lia. intros H. exists (Z.to_nat (z + m)). rewrite in_seq. lia.
Qed.
Lemma zrange_nodup m : NoDup (zrange m).
Proof. unfold zrange. apply FinFun.Injective_map_NoDup. intros a b E. lia. apply seq_NoDup. Qed.
Lemma cells_in m a b c : In (a, b, c) (cells m) <-> (- m <= a <= m /\ - m <= b <= m /\ - m <= c <= m)%Z.
Proof.
  unfold cells. rewrite in_flat_map. split.
  - intros (i & Hi & H). rewrite in_flat_map in H. destruct H as (j & Hj & H). rewrite in_map_iff in H. destruct H as (k & E & Hk). injection E as <- <- <-. rewrite !zrange_in in *. lia.
  - intros H. exists a. rewrite zrange_in. split. lia. rewrite in_flat_map. exists b. rewrite zrange_in. split. lia. apply in_map_iff. exists c. rewrite zrange_in. split; auto. lia.
Qed.
Lemma cells_nodup m : NoDup (cells m).
Proof.
  unfold cells. apply NoDup_flat. apply zrange_nodup.
  - intros a _. apply NoDup_flat. apply zrange_nodup.
    + intros b _. apply FinFun.Injective_map_NoDup. intros c d E. congruence. apply zrange_nodup.
    + intros b c x _ _ H1 H2. rewrite in_map_iff in *. destruct H1 as (? & <- & _), H2 as (? & E & _). congruence.
  - intros a b x _ _ H1 H2. rewrite in_flat_map in *. destruct H1 as (? & _ & H1), H2 as (? & _ & H2). rewrite in_map_iff in *.
    destruct H1 as (? & <- & _), H2 as (? & E & _). congruence.
Qed.
Lemma u_nodup : NoDup u_vectors.
Proof. unfold u_vectors. repeat constructor; cbn; intuition congruence. Qed.
Lemma u_in u1 u2 u3 : In (u1, u2, u3) u_vectors -> (u1 = 0 \/ u1 = 1)%Z /\ (u2 = 0 \/ u2 = 1)%Z /\ (u3 = 0 \/ u3 = 1)%Z.
Proof. unfold u_vectors. cbn. intuition (match goal with H : _ = _ |- _ => injection H as <- <- <- end; auto). Qed.
Lemma images_in m l u : In (l, u) (images m) <-> In l (cells m) /\ In u u_vectors.
Proof.
  unfold images. rewrite in_flat_map. split. intros (l' & Hl & H). apply in_map_iff in H. destruct H as (u' & E & Hu). injection E as <- <-. auto.
  intros [Hl Hu]. exists l. split; auto. apply in_map_iff. eauto.
Qed.
Lemma images_nodup m : NoDup (images m).
Proof.
  unfold images. apply NoDup_flat. apply cells_nodup. intros l _. apply FinFun.Injective_map_NoDup. intros u v E. congruence. apply u_nodup.
  intros a b x _ _ H1 H2. rewrite in_map_iff in *. destruct H1 as (? & <- & _), H2 as (? & E & _). congruence.
Qed.
Lemma swap_invol i : swap_image (swap_image i) = i.
Proof.
  destruct i as [[[l1 l2] l3] [[u1 u2] u3]]. unfold swap_image, swap1. destruct (u1 =? 0)%Z, (u2 =? 0)%Z, (u3 =? 0)%Z; rewrite ?Z.opp_involutive; reflexivity.
Qed.
Lemma swap_in m i : In i (images m) -> In (swap_image i) (images m).
Proof.
  destruct i as [[[l1 l2] l3] [[u1 u2] u3]]. unfold swap_image. rewrite !images_in, !cells_in. intros [H Hu]. split; auto. unfold swap1. destruct (u1 =? 0)%Z, (u2 =? 0)%Z, (u3 =? 0)%Z; lia.
Qed.
Lemma swap_perm m : Permutation (map swap_image (images m)) (images m).
Proof.
  apply NoDup_Permutation. apply FinFun.Injective_map_NoDup; [|apply images_nodup]. intros a b E. rewrite <- (swap_invol a), <- (swap_invol b). congruence. apply images_nodup.
  intros i. rewrite in_map_iff. split. intros (j & <- & Hj). now apply swap_in. intros H. exists (swap_image i). split. apply swap_invol. now apply swap_in.
Qed.
Lemma swap_coord L s r l u : u = 0%Z \/ u = 1%Z -> image_coord L r s (swap1 l u) u * image_coord L r s (swap1 l u) u = image_coord L s r l u * image_coord L s r l u.
Proof.
  intros [-> | ->]; unfold image_coord, swap1; cbn [Z.eqb]; rewrite ?opp_IZR; ring.
Qed.
Lemma swap_dist dims s r i : In (snd i) u_vectors -> image_dist dims r s (fst (swap_image i)) (snd (swap_image i)) = image_dist dims s r (fst i) (snd i).
Proof.
  destruct i as [[[l1 l2] l3] [[u1 u2] u3]], dims as [[L1 L2] L3], s as [[s1 s2] s3], r as [[r1 r2] r3]. cbn [snd]. intros H. apply u_in in H. destruct H as (H1 & H2 & H3).
  unfold image_dist, swap_image. cbn [fst snd]. rewrite !swap_coord; auto.
Qed.
Lemma swap_damping b1 b2 i : In (snd i) u_vectors -> image_damping b1 b2 (fst (swap_image i)) (snd (swap_image i)) = image_damping b1 b2 (fst i) (snd i).
Proof.
  destruct i as [[[l1 l2] l3] [[u1 u2] u3]], b1 as [[p1 p2] p3], b2 as [[q1 q2] q3]. cbn [snd]. intros H. apply u_in in H. destruct H as (H1 & H2 & H3).
  unfold image_damping, swap_image. cbn [fst snd].
  assert (A : forall l u, u = 0%Z \/ u = 1%Z -> Z.abs_nat (swap1 l u - u) = Z.abs_nat (l - u) /\ Z.abs_nat (swap1 l u) = Z.abs_nat l).
  { intros l u [-> | ->]; unfold swap1; cbn [Z.eqb]; split; auto; lia. }
  destruct (A l1 u1 H1) as [-> ->], (A l2 u2 H2) as [-> ->], (A l3 u3 H3) as [-> ->]. reflexivity.
Qed.
(** Source and receiver can be swapped, as long as no two images coincide. *)
Theorem C58_reciprocity dims alpha s r rt mo sr out out' : generate_rir dims alpha s r rt mo sr = Ok out -> generate_rir dims alpha r s rt mo sr = Ok out' ->
  separate dims s r (image_limit dims rt mo) sr -> separate dims r s (image_limit dims rt mo) sr -> out = out'.
Proof.
  intros E1 E2 S1 S2. destruct (betas alpha) as [b|e] eqn:HB; [|unfold generate_rir in E1; rewrite HB in E1; discriminate].
  destruct (gen_law _ _ _ _ _ _ _ _ _ HB E1) as (L1 & _). destruct (gen_law _ _ _ _ _ _ _ _ _ HB E2) as (L2 & _).
  apply (nth_ext _ _ 0 0). congruence. intros k _. change (get out k = get out' k). rewrite (C58_images _ _ _ _ _ _ _ _ _ HB E1 S1), (C58_images _ _ _ _ _ _ _ _ _ HB E2 S2).
  unfold response. rewrite <- (lsum_perm _ _ _ (swap_perm (image_limit dims rt mo))). rewrite lsum_map. apply lsum_ext. intros i Hi. destruct i as [l u]. apply images_in in Hi. destruct Hi as [_ Hu].
  unfold amplitude. pose proof (swap_dist dims r s (l, u) Hu) as D. pose proof (swap_damping (fst b) (snd b) (l, u) Hu) as G. rewrite D. cbn [fst snd] in *.
  destruct (_ =? _)%nat; auto. now rewrite G.
Qed.
Print Assumptions C58_reciprocity.

(** ** The direct sound comes first *)
Lemma coord_min L s r l u : 0 <= s <= L -> 0 <= r <= L -> u = 0%Z \/ u = 1%Z -> (s - r) * (s - r) <= image_coord L s r l u * image_coord L s r l u.
Proof.
  intros Hs Hr Hu. apply Rsqr_le_abs_1. unfold image_coord.
  assert (C : (l <= -1 \/ l = 0 \/ 1 <= l)%Z) by lia. destruct Hu as [-> | ->].
  - destruct C as [C|[->|C]]. 
    + assert (IZR l <= -1) by (change (-1) with (IZR (-1)); now apply IZR_le). assert (IZR l * L <= -1 * L) by (apply Rmult_le_compat_r; lra). unfold Rabs; repeat destruct (Rcase_abs _); lra.
    + unfold Rabs; repeat destruct (Rcase_abs _); lra.
    + assert (1 <= IZR l) by (change 1 with (IZR 1); now apply IZR_le). assert (1 * L <= IZR l * L) by (apply Rmult_le_compat_r; lra). unfold Rabs; repeat destruct (Rcase_abs _); lra.
  - destruct C as [C|[->|C]].
    + assert (IZR l <= -1) by (change (-1) with (IZR (-1)); now apply IZR_le). assert (IZR l * L <= -1 * L) by (apply Rmult_le_compat_r; lra). unfold Rabs; repeat destruct (Rcase_abs _); lra.
    + unfold Rabs; repeat destruct (Rcase_abs _); lra.
    + assert (1 <= IZR l) by (change 1 with (IZR 1); now apply IZR_le). assert (1 * L <= IZR l * L) by (apply Rmult_le_compat_r; lra). unfold Rabs; repeat destruct (Rcase_abs _); lra.
Qed.
Definition distance (p q : R * R * R) : R := let '(a, b, c) := p in let '(d, e, f) := q in sqrt ((a - d) * (a - d) + (b - e) * (b - e) + (c - f) * (c - f)).
Lemma dist_min dims s r l u : inside dims s -> inside dims r -> In u u_vectors -> distance s r <= image_dist dims s r l u.
Proof.
  destruct dims as [[L1 L2] L3], s as [[s1 s2] s3], r as [[r1 r2] r3], l as [[l1 l2] l3], u as [[u1 u2] u3]. unfold inside. intros (A1 & A2 & A3) (B1 & B2 & B3) H. apply u_in in H. destruct H as (H1 & H2 & H3).
  unfold distance, image_dist. apply sqrt_le_1_alt. pose proof (coord_min L1 s1 r1 l1 u1 A1 B1 H1). pose proof (coord_min L2 s2 r2 l2 u2 A2 B2 H2). pose proof (coord_min L3 s3 r3 l3 u3 A3 B3 H3). lra.
Qed.
Lemma int_part_mono a b : a <= b -> (Int_part a <= Int_part b)%Z.
Proof.
  intros H. destruct (base_Int_part a) as [A1 A2], (base_Int_part b) as [B1 B2]. apply Zlt_succ_le. apply lt_IZR. rewrite succ_IZR. lra.
Qed.
Lemma int_part_nonneg r : 0 <= r -> (0 <= Int_part r)%Z.
Proof. intros H. destruct (base_Int_part r). assert (-1 < IZR (Int_part r)) by lra. apply lt_IZR in H2. lia. Qed.
Lemma sample_mono sr d d' : 0 <= sr -> d <= d' -> (sample_of sr d <= sample_of sr d')%nat.
Proof.
  intros Hs Hd. unfold sample_of. assert (H : (Int_part (d / 343 * sr + 1 / 2) <= Int_part (d' / 343 * sr + 1 / 2))%Z). { apply int_part_mono. assert (d / 343 * sr <= d' / 343 * sr) by (apply Rmult_le_compat_r; lra). lra. }
  lia.
Qed.
Lemma last_none p k : (forall e, In e p -> fst e <> k) -> last_of p k = 0.
Proof. intros H. unfold last_of. induction p as [|e t IH]; cbn; auto. replace (fst e =? k)%nat with false. apply IH. intros; apply H; now right. symmetry. apply Nat.eqb_neq. apply H. now left. Qed.
(** Nothing arrives before the direct sound, if source and receiver are in the room. *)
Theorem C58_direct_first dims alpha s r rt mo sr out k : inside dims s -> inside dims r -> 0 <= sr -> generate_rir dims alpha s r rt mo sr = Ok out ->
  (k < sample_of sr (distance s r))%nat -> get out k = 0.
Proof.
  intros Hs Hr Hsr E Hk. destruct (betas alpha) as [b|e] eqn:HB; [|unfold generate_rir in E; rewrite HB in E; discriminate].
  destruct (gen_law _ _ _ _ _ _ _ _ _ HB E) as (_ & _ & G). rewrite G. apply lsum_zero. intros l Hl. apply last_none. intros e He. unfold cell_values in He. apply in_map_iff in He. destruct He as (u & <- & Hu). cbn [fst].
  pose proof (sample_mono sr _ _ Hsr (dist_min dims s r l u Hs Hr Hu)). lia.
Qed.
Print Assumptions C58_direct_first.

(** ** Levels *)
Definition bnonneg (b : R * R * R) : Prop := let '(x, y, z) := b in 0 <= x /\ 0 <= y /\ 0 <= z.
Definition bnle (b c : R * R * R) : Prop := let '(x, y, z) := b in let '(u, v, w) := c in 0 <= x <= u /\ 0 <= y <= v /\ 0 <= z <= w.
Lemma betas_nonneg alpha b : betas alpha = Ok b -> bnonneg (fst b) /\ bnonneg (snd b).
Proof.
  unfold betas. destruct alpha as [|a1 [|a2 [|a3 [|a4 [|a5 [|a6 [|? ?]]]]]]]; cbn; try discriminate; intros [= <-]; cbn; repeat split; apply sqrt_pos.
Qed.
Lemma betas_le alpha alpha' b : Forall2 Rle alpha alpha' -> betas alpha = Ok b -> exists c, betas alpha' = Ok c /\ bnle (fst c) (fst b) /\ bnle (snd c) (snd b).
Proof.
  intros F E. assert (M : forall x y, x <= y -> 0 <= sqrt (1 - y) <= sqrt (1 - x)) by (intros; split; [apply sqrt_pos|apply sqrt_le_1_alt; lra]).
  unfold betas in *. destruct alpha as [|a1 [|a2 [|a3 [|a4 [|a5 [|a6 [|? ?]]]]]]]; cbn in E; try discriminate; injection E as <-;
    repeat match goal with H : Forall2 _ (_ :: _) _ |- _ => inversion H; subst; clear H | H : Forall2 _ [] _ |- _ => inversion H; subst; clear H end;
    cbn; eexists; (split; [reflexivity|]); cbn; repeat split; try apply M; auto; try apply sqrt_pos.
Qed.
Lemma damping_le b1 b2 c1 c2 l u : bnle b1 c1 -> bnle b2 c2 -> 0 <= image_damping b1 b2 l u <= image_damping c1 c2 l u.
Proof.
  destruct b1 as [[x1 x2] x3], b2 as [[y1 y2] y3], c1 as [[p1 p2] p3], c2 as [[q1 q2] q3], l as [[l1 l2] l3], u as [[u1 u2] u3]. unfold bnle, image_damping. intros (A1 & A2 & A3) (B1 & B2 & B3).
  assert (P : forall x p n, 0 <= x <= p -> 0 <= x ^ n <= p ^ n) by (intros; split; [apply pow_le; lra|apply pow_incr; auto]).
  assert (M : forall a b c d, 0 <= a <= b -> 0 <= c <= d -> 0 <= a * c <= b * d) by (intros a b c d [? ?] [? ?]; split; [now apply Rmult_le_pos|apply Rmult_le_compat; auto]).
  repeat apply M; now apply P.
Qed.
Lemma damping_nonneg b1 b2 l u : bnonneg b1 -> bnonneg b2 -> 0 <= image_damping b1 b2 l u.
Proof.
  intros H1 H2. assert (X : forall b, bnonneg b -> bnle b b) by (intros [[? ?] ?]; cbn; intuition lra). destruct (damping_le b1 b2 b1 b2 l u); auto.
Qed.
Lemma last_mono p q k : Forall2 (fun e f => fst e = fst f /\ 0 <= snd e <= snd f) p q -> 0 <= last_of p k <= last_of q k.
Proof.
  unfold last_of. assert (G : forall a b, 0 <= a <= b -> Forall2 (fun e f => fst e = fst f /\ 0 <= snd e <= snd f) p q ->
    0 <= fold_left (fun a (e : nat * R) => if (fst e =? k)%nat then snd e else a) p a <= fold_left (fun a (e : nat * R) => if (fst e =? k)%nat then snd e else a) q b).
  { intros a b H F. revert a b H. induction F as [|e f p' q' [E1 E2] F IH]; intros a b H; cbn [fold_left]; auto. apply IH. rewrite E1. destruct (fst f =? k)%nat; auto. }
  intros F. apply G; auto. lra.
Qed.
Lemma den_pos d : 0 < d -> 0 < / (4 * PI * d).
Proof. intros H. apply Rinv_0_lt_compat. pose proof PI_RGT_0. apply Rmult_lt_0_compat; lra. Qed.
(** No sample is negative, and more absorbing walls never make a sample larger. *)
Theorem C58_absorption dims alpha alpha' s r rt mo sr out : inside dims s -> inside dims r -> 0 < distance s r ->
  Forall2 Rle alpha alpha' -> generate_rir dims alpha s r rt mo sr = Ok out ->
  exists out', generate_rir dims alpha' s r rt mo sr = Ok out' /\ length out' = length out /\ forall k, 0 <= get out' k <= get out k.
Proof.
  intros Hs Hr Hd F E. destruct (betas alpha) as [b|e] eqn:HB; [|unfold generate_rir in E; rewrite HB in E; discriminate].
  destruct (betas_le _ _ _ F HB) as (c & HC & C1 & C2). destruct (gen_law _ _ _ _ _ _ _ _ _ HB E) as (L & W & G).
  destruct (proj1 (C58_success dims alpha' s r rt mo sr c HC) W) as (out' & E' & L'). exists out'. split; [auto|]. split; [congruence|].
  destruct (gen_law _ _ _ _ _ _ _ _ _ HC E') as (_ & _ & G'). intros k. rewrite G, G'.
  assert (X : forall l, 0 <= last_of (cell_values dims s r (fst c) (snd c) sr l) k <= last_of (cell_values dims s r (fst b) (snd b) sr l) k).
  { intros l. apply last_mono. unfold cell_values. assert (U : forall u, In u u_vectors -> In u u_vectors) by auto. revert U. generalize u_vectors at 1 3 4. induction l0 as [|u t IH]; intros U; cbn [map]; constructor.
    - cbn [fst snd]. split; auto. pose proof (dist_min dims s r l u Hs Hr (U u (or_introl eq_refl))) as D. pose proof (den_pos (image_dist dims s r l u) ltac:(lra)) as P.
      destruct (damping_le _ _ _ _ l u C1 C2) as [D1 D2]. unfold Rdiv. split. apply Rmult_le_pos; lra. apply Rmult_le_compat_r; lra.
    - apply IH. intros v Hv. apply U. now right. }
  split. rewrite <- (lsum_zero (fun _ => 0) (cells (image_limit dims rt mo))) by auto. apply lsum_le. intros l _. apply X. apply lsum_le. intros l _. apply X.
Qed.
Print Assumptions C58_absorption.
Lemma lsum_ge {A} (f : A -> R) l a : In a l -> (forall a, In a l -> 0 <= f a) -> f a <= lsum f l.
Proof.
  induction l as [|b t IH]; intros H P; cbn. contradiction. assert (T : 0 <= lsum f t). { rewrite <- (lsum_zero (fun _ : A => 0) t) by auto. apply lsum_le. intros; apply P; now right. }
  pose proof (P b (or_introl eq_refl)) as Pb. destruct H as [<-|H]; [lra|]. specialize (IH H (fun a Ha => P a (or_intror Ha))). lra.
Qed.
(** If no two images coincide, the sample of the direct sound has at least the level of the free field. *)
Theorem C58_direct_level dims alpha s r rt mo sr out : inside dims s -> inside dims r -> 0 < distance s r -> (0 <= image_limit dims rt mo)%Z ->
  generate_rir dims alpha s r rt mo sr = Ok out -> separate dims s r (image_limit dims rt mo) sr ->
  1 / (4 * PI * distance s r) <= get out (sample_of sr (distance s r)).
Proof.
  intros Hs Hr Hd Hm E S. destruct (betas alpha) as [b|e] eqn:HB; [|unfold generate_rir in E; rewrite HB in E; discriminate].
  destruct (betas_nonneg _ _ HB) as [N1 N2]. rewrite (C58_images _ _ _ _ _ _ _ _ _ HB E S). unfold response.
  assert (D0 : image_dist dims s r (0, 0, 0)%Z (0, 0, 0)%Z = distance s r).
  { destruct dims as [[L1 L2] L3], s as [[s1 s2] s3], r as [[r1 r2] r3]. unfold image_dist, distance, image_coord. f_equal. ring. }
  assert (A0 : amplitude dims s r (fst b) (snd b) ((0, 0, 0), (0, 0, 0))%Z = 1 / (4 * PI * distance s r)).
  { unfold amplitude. cbn [fst snd]. rewrite D0. f_equal. destruct (fst b) as [[? ?] ?], (snd b) as [[? ?] ?]. unfold image_damping. cbn. ring. }
  eapply Rle_trans; [|apply (lsum_ge _ _ ((0, 0, 0), (0, 0, 0))%Z)].
  - cbn [fst snd]. rewrite D0, Nat.eqb_refl, A0. lra.
  - apply images_in. split. apply cells_in. lia. now left.
  - intros [l u] Hi. apply images_in in Hi. cbn [fst snd]. destruct (_ =? _)%nat; [|lra]. unfold amplitude. cbn [fst snd]. pose proof (dist_min dims s r l u Hs Hr (proj2 Hi)).
    pose proof (den_pos (image_dist dims s r l u) ltac:(lra)). pose proof (damping_nonneg (fst b) (snd b) l u N1 N2). unfold Rdiv. apply Rmult_le_pos; lra.
Qed.
Print Assumptions C58_direct_level.

(** ** When the call succeeds *)
Lemma ceil_ge r : r <= IZR (ceil r) < r + 1.
Proof. unfold ceil. rewrite opp_IZR. destruct (base_Int_part (- r)). lra. Qed.
Lemma ceil_nonneg r : 0 <= r -> (0 <= ceil r)%Z.
Proof. intros H. apply le_IZR. destruct (ceil_ge r). lra. Qed.
Definition diagonal (dims : R * R * R) : R := let '(x, y, z) := dims in sqrt (x * x + y * y + z * z).
Lemma coord_max L s r l u m : 0 <= s <= L -> 0 <= r <= L -> u = 0%Z \/ u = 1%Z -> (- m <= l <= m)%Z ->
  image_coord L s r l u * image_coord L s r l u <= (2 * (IZR m + 1)) * (2 * (IZR m + 1)) * (L * L).
Proof.
  intros Hs Hr Hu [M1 M2]. apply IZR_le in M1. apply IZR_le in M2. rewrite opp_IZR in M1.
  replace (2 * (IZR m + 1) * (2 * (IZR m + 1)) * (L * L)) with ((2 * (IZR m + 1) * L) * (2 * (IZR m + 1) * L)) by ring. apply Rsqr_le_abs_1.
  assert (X1 : IZR l * L <= IZR m * L) by (apply Rmult_le_compat_r; lra). assert (X2 : - IZR m * L <= IZR l * L) by (apply Rmult_le_compat_r; lra).
  unfold image_coord. destruct Hu as [-> | ->]; unfold Rabs; repeat destruct (Rcase_abs _); lra.
Qed.
Lemma dist_max dims s r l u m : inside dims s -> inside dims r -> In l (cells m) -> In u u_vectors -> image_dist dims s r l u <= 2 * (IZR m + 1) * diagonal dims.
Proof.
  destruct dims as [[L1 L2] L3], s as [[s1 s2] s3], r as [[r1 r2] r3], l as [[l1 l2] l3], u as [[u1 u2] u3]. unfold inside. intros (A1 & A2 & A3) (B1 & B2 & B3) Hl Hu.
  apply cells_in in Hl. destruct Hl as (M1 & M2 & M3). apply u_in in Hu. destruct Hu as (U1 & U2 & U3). unfold image_dist, diagonal.
  assert (HM : 0 <= 2 * (IZR m + 1)). { assert (0 <= m)%Z by lia. apply IZR_le in H. lra. }
  rewrite <- (sqrt_square (2 * (IZR m + 1))) by auto. rewrite <- sqrt_mult by nra. apply sqrt_le_1_alt.
  pose proof (coord_max L1 s1 r1 l1 u1 m A1 B1 U1 M1). pose proof (coord_max L2 s2 r2 l2 u2 m A2 B2 U2 M2). pose proof (coord_max L3 s3 r3 l3 u3 m A3 B3 U3 M3). lra.
Qed.
Lemma within_compact dims s r m rt sr : inside dims s -> inside dims r -> 0 <= sr -> 2 * (IZR m + 1) * diagonal dims / 343 * sr + 3 / 2 <= rt * (11 / 10) * 5 * sr -> within dims s r m sr (rir_length rt sr).
Proof.
  intros Hs Hr Hsr H l u Hl Hu. pose proof (dist_max dims s r l u m Hs Hr Hl Hu) as D.
  assert (D0 : 0 <= image_dist dims s r l u). { unfold image_dist. destruct dims as [[? ?] ?], s as [[? ?] ?], r as [[? ?] ?], l as [[? ?] ?], u as [[? ?] ?]. apply sqrt_pos. }
  unfold sample_of, rir_length. assert (B : image_dist dims s r l u / 343 * sr <= 2 * (IZR m + 1) * diagonal dims / 343 * sr) by (apply Rmult_le_compat_r; lra).
  assert (B0 : 0 <= image_dist dims s r l u / 343 * sr) by (apply Rmult_le_pos; lra).
  set (a := image_dist dims s r l u / 343 * sr) in *. set (q := rt * (11 / 10) * 5 * sr) in *. apply Z2Nat.inj_lt.
  - apply le_IZR. destruct (base_Int_part (a + 1 / 2)). assert (-1 < IZR (Int_part (a + 1 / 2))) by lra. apply IZR_le. change (-1) with (IZR (-1)) in H2. apply lt_IZR in H2. lia.
  - apply le_IZR. destruct (base_Int_part q). assert (-1 < IZR (Int_part q)) by lra. apply IZR_le. change (-1) with (IZR (-1)) in H2. apply lt_IZR in H2. lia.
  - apply lt_IZR. destruct (base_Int_part (a + 1 / 2)), (base_Int_part q). lra.
Qed.
(** Cubic rooms are computed whenever the reverberation time is not tiny (for a side of 5 m and 8 kHz: 47 ms). *)
Theorem C58_cube L alpha b s r rt mo sr : 0 < L -> 0 < sr -> betas alpha = Ok b -> inside (L, L, L) s -> inside (L, L, L) r -> 7 * L + 515 / sr <= 754 * rt ->
  exists out, generate_rir (L, L, L) alpha s r rt mo sr = Ok out /\ length out = rir_length rt sr.
Proof.
  intros HL Hsr HB Hs Hr H. apply (proj1 (C58_success (L, L, L) alpha s r rt mo sr b HB)). apply within_compact; auto; try lra.
  set (h := 343 * (rt * (11 / 10)) / 2).
  assert (P0 : 0 < 515 / sr) by (apply Rdiv_lt_0_compat; lra). assert (RT : 0 < rt) by lra. assert (H0 : 0 < h) by (unfold h; lra).
  assert (E3 : sqrt (h / L * (h / L) + h / L * (h / L) + h / L * (h / L)) = sqrt 3 * (h / L)).
  { replace (h / L * (h / L) + h / L * (h / L) + h / L * (h / L)) with (3 * ((h / L) * (h / L))) by ring. assert (0 < h / L) by (apply Rdiv_lt_0_compat; auto). rewrite sqrt_mult, sqrt_square; nra. }
  assert (M : IZR (image_limit (L, L, L) rt mo) <= sqrt 3 * (h / L) + 1).
  { unfold image_limit. fold h. rewrite E3. destruct (ceil_ge (sqrt 3 * (h / L))) as [C1 C2]. destruct mo as [o|]; [|lra]. destruct (_ <? o)%Z eqn:Q; [lra|]. apply Z.ltb_ge in Q. apply IZR_le in Q. lra. }
  assert (ED : diagonal (L, L, L) = sqrt 3 * L). { unfold diagonal. replace (L * L + L * L + L * L) with (3 * (L * L)) by ring. rewrite sqrt_mult, sqrt_square; try nra. }
  assert (S3 : sqrt 3 * sqrt 3 = 3) by (apply sqrt_sqrt; lra). assert (S0 : 0 <= sqrt 3) by apply sqrt_pos. assert (S1 : sqrt 3 <= 7 / 4) by nra.
  rewrite ED. assert (K : 2 * (IZR (image_limit (L, L, L) rt mo) + 1) * (sqrt 3 * L) <= 6 * h + 4 * sqrt 3 * L).
  { apply Rle_trans with (2 * (sqrt 3 * (h / L) + 1 + 1) * (sqrt 3 * L)). apply Rmult_le_compat_r. apply Rmult_le_pos; lra. lra.
    right. replace (2 * (sqrt 3 * (h / L) + 1 + 1) * (sqrt 3 * L)) with (2 * (sqrt 3 * sqrt 3) * h + 4 * sqrt 3 * L) by (field; lra). rewrite S3. ring. }
  apply Rle_trans with ((6 * h + 7 * L) / 343 * sr + 3 / 2).
  - apply Rplus_le_compat_r. apply Rmult_le_compat_r. lra. apply Rmult_le_compat_r. lra. assert (4 * sqrt 3 * L <= 7 * L) by (apply Rmult_le_compat_r; lra). lra.
  - replace (rt * (11 / 10) * 5 * sr) with (10 * h / 343 * sr) by (unfold h; field). assert (Q : 515 / sr * sr = 515) by (field; lra).
    assert (X : (7 * L + 515 / sr) * sr <= 754 * rt * sr) by (apply Rmult_le_compat_r; lra). rewrite Rmult_plus_distr_r, Q in X. unfold h. assert (0 < rt * sr) by (apply Rmult_lt_0_compat; lra). lra.
Qed.
Print Assumptions C58_cube.
Example C58_cube_example : betas [1 / 10] = Ok ((sqrt (1 - 1 / 10), sqrt (1 - 1 / 10), sqrt (1 - 1 / 10)), (sqrt (1 - 1 / 10), sqrt (1 - 1 / 10), sqrt (1 - 1 / 10))) /\
  inside (5, 5, 5) (1, 2, 3) /\ inside (5, 5, 5) (4, 1, 1) /\ 7 * 5 + 515 / 8000 <= 754 * (47 / 1000).
Proof. repeat split; try reflexivity; cbn; lra. Qed.
Lemma big_square a p q : 2000 <= a -> 2000 * 2000 <= a * a + p * p + q * q.
Proof. intros H. pose proof (Rle_0_sqr p). pose proof (Rle_0_sqr q). unfold Rsqr in *. assert (2000 * 2000 <= a * a) by (apply Rmult_le_compat; lra). lra. Qed.
(** In a long room the call fails with IndexError, for all positions, absorptions and sampling rates: the largest order is taken
    from the short sides, and the images of that order in the long direction arrive after the end of the vector. *)
Theorem C58_long_room_refuted alpha b s r sr : betas alpha = Ok b -> inside (8, 1, 1) s -> inside (8, 1, 1) r -> 0 < sr ->
  generate_rir (8, 1, 1) alpha s r 1 None sr = Err IndexError.
Proof.
  intros HB Hs Hr Hsr. apply (proj2 (C58_success (8, 1, 1) alpha s r 1 None sr b HB)). intros W.
  set (m := image_limit (8, 1, 1) 1 None) in *.
  assert (M : 188 <= IZR m).
  { unfold m, image_limit. set (h := 343 * (1 * (11 / 10)) / 2). destruct (ceil_ge (sqrt (h / 8 * (h / 8) + h / 1 * (h / 1) + h / 1 * (h / 1)))) as [C _]. eapply Rle_trans; [|exact C].
    rewrite <- (sqrt_square 188) by lra. apply sqrt_le_1_alt. unfold h. lra. }
  assert (M0 : (0 <= m)%Z) by (apply le_IZR; lra).
  specialize (W (m, 0, 0)%Z (0, 0, 0)%Z). assert (I1 : In (m, 0, 0)%Z (cells m)) by (apply cells_in; lia). specialize (W I1 (or_introl eq_refl)).
  apply Nat.lt_nge in W. apply W. unfold rir_length, sample_of. apply Z2Nat.inj_le; try apply Z.le_refl.
  all: destruct s as [[s1 s2] s3], r as [[r1 r2] r3]; unfold inside in *; unfold image_dist, image_coord;
    set (a := (1 - 2 * 0) * s1 + 2 * IZR m * 8 - r1); assert (A : 2000 <= a) by (unfold a; lra).
  all: match goal with |- context [sqrt ?X] => assert (D : 2000 <= sqrt X) by (rewrite <- (sqrt_square 2000) by lra; apply sqrt_le_1_alt, big_square; exact A) | _ => idtac end.
  - apply int_part_nonneg. nra.
  - match goal with |- context [sqrt ?X] => set (d := sqrt X) in * end. apply int_part_nonneg. assert (0 <= d / 343 * sr) by (apply Rmult_le_pos; lra). lra.
  - match goal with |- context [sqrt ?X] => set (d := sqrt X) in * end. apply int_part_mono. assert (11 / 2 * sr <= d / 343 * sr) by (apply Rmult_le_compat_r; lra). lra.
Qed.
Print Assumptions C58_long_room_refuted.
Example C58_long_room_example : (exists q, shoebox_new [8; 1; 1] (Some 1) None = Ok q) /\ inside (8, 1, 1) (1, 1/2, 1/2) /\ inside (8, 1, 1) (7, 1/2, 1/2).
Proof.
  split. unfold shoebox_new. repeat match goal with |- context [Rlt_dec 0 ?v] => destruct (Rlt_dec 0 v) as [|X]; [clear|exfalso; apply X; lra] end. apply C57_accepted; lra. cbn. lra.
Qed.

(** ** Lost images *)
Lemma sample_sqrt sr c X n : sr = 343 * c -> 0 < c -> 0 <= X -> (1 <= n)%nat ->
  (IZR (Z.of_nat n) - 1 / 2) * (IZR (Z.of_nat n) - 1 / 2) <= c * c * X < (IZR (Z.of_nat n) + 1 / 2) * (IZR (Z.of_nat n) + 1 / 2) -> sample_of sr (sqrt X) = n.
Proof.
  intros -> Hc HX Hn [A B]. unfold sample_of. apply floor_nat. rewrite INR_IZR_INZ. set (N := IZR (Z.of_nat n)) in *.
  assert (HN : 1 <= N) by (change 1 with (IZR 1); apply IZR_le; lia). replace (sqrt X / 343 * (343 * c) + 1 / 2) with (c * sqrt X + 1 / 2) by field.
  assert (S : (c * sqrt X) * (c * sqrt X) = c * c * X) by (rewrite <- (sqrt_sqrt X HX) at 3; ring). assert (S0 : 0 <= c * sqrt X) by (apply Rmult_le_pos; [lra|apply sqrt_pos]). rewrite <- S in A, B.
  assert (N - 1 / 2 <= c * sqrt X) by (apply Rsqr_incr_0; unfold Rsqr; lra). assert (c * sqrt X < N + 1 / 2) by (apply Rsqr_incrst_0; unfold Rsqr; lra). lra.
Qed.
Tactic Notation "samples" constr(c) := repeat match goal with
  | |- sample_of _ _ = _ => unfold image_dist, image_coord; apply (sample_sqrt _ c); [lra|lra|lra|lia|cbn [Z.of_nat Pos.of_succ_nat Pos.succ]; lra] | |- _ :: _ = _ :: _ => f_equal | |- [] = [] => reflexivity end.
Lemma limit_zero dims rt : image_limit dims rt (Some 0%Z) = 0%Z.
Proof.
  unfold image_limit. destruct dims as [[x y] z]. match goal with |- context [ceil (sqrt ?X)] => pose proof (ceil_nonneg (sqrt X) (sqrt_pos X)) as C end.
  destruct (_ <? 0)%Z eqn:E; auto. apply Z.ltb_lt in E. lia.
Qed.
Definition lost_dims : R * R * R := (2, 2, 4).
Definition lost_s : R * R * R := (1, 1, 1).
Definition lost_r : R * R * R := (1, 1, 3 / 2).
Lemma lost_samples : map (fun u => sample_of 343 (image_dist lost_dims lost_s lost_r (0, 0, 0)%Z u)) u_vectors = [1; 3; 2; 2; 3; 3; 3; 4]%nat.
Proof. unfold u_vectors, lost_dims, lost_s, lost_r. cbn [map]. samples 1. Qed.
(** The response is not the sum over the images in general: of several images of the same cell that arrive at the same sample only
    the last one counts. Here the reflections from two walls at the same distance. *)
Theorem C58_lost_images_refuted :
  ~ (forall dims alpha s r rt mo sr b out, inside dims s -> inside dims r -> 0 < sr -> betas alpha = Ok b -> generate_rir dims alpha s r rt mo sr = Ok out ->
       forall k, get out k = response dims s r (fst b) (snd b) (image_limit dims rt mo) sr k).
Proof.
  intros H. set (b := (((sqrt (1 - 0), sqrt (1 - 0), sqrt (1 - 0)), (sqrt (1 - 0), sqrt (1 - 0), sqrt (1 - 0))) : (R * R * R) * (R * R * R))).
  assert (HB : betas [0] = Ok b) by reflexivity. pose proof lost_samples as LS. unfold u_vectors in LS. cbn [map] in LS. 
  pose proof (f_equal (fun l => nth 0 l 0%nat) LS) as L1; cbn [nth] in L1. pose proof (f_equal (fun l => nth 1 l 0%nat) LS) as L2; cbn [nth] in L2. pose proof (f_equal (fun l => nth 2 l 0%nat) LS) as L3; cbn [nth] in L3. pose proof (f_equal (fun l => nth 3 l 0%nat) LS) as L4; cbn [nth] in L4. pose proof (f_equal (fun l => nth 4 l 0%nat) LS) as L5; cbn [nth] in L5. pose proof (f_equal (fun l => nth 5 l 0%nat) LS) as L6; cbn [nth] in L6. pose proof (f_equal (fun l => nth 6 l 0%nat) LS) as L7; cbn [nth] in L7. pose proof (f_equal (fun l => nth 7 l 0%nat) LS) as L8; cbn [nth] in L8.
  destruct (proj1 (C58_success lost_dims [0] lost_s lost_r 1 (Some 0%Z) 343 b HB)) as (out & E & LO).
  { rewrite limit_zero. intros l u Hl Hu. assert (l = (0, 0, 0)%Z) by (destruct l as [[a1 a2] a3]; apply cells_in in Hl; repeat f_equal; lia). subst l.
    assert (RL : (1000 <= rir_length 1 343)%nat). { unfold rir_length. assert (1000 <= Int_part (1 * (11 / 10) * 5 * 343))%Z; [|lia]. apply Z.le_trans with (Int_part (INR 1000)). rewrite Int_part_INR. lia. apply int_part_mono. rewrite INR_IZR_INZ. change (Z.of_nat 1000) with 1000%Z. lra. }
    unfold u_vectors in Hu. cbn in Hu. destruct Hu as [<-|[<-|[<-|[<-|[<-|[<-|[<-|[<-|[]]]]]]]]]; rewrite ?L1, ?L2, ?L3, ?L4, ?L5, ?L6, ?L7, ?L8; lia. }
  specialize (H lost_dims [0] lost_s lost_r 1 (Some 0%Z) 343 b out). specialize (H ltac:(cbn; lra) ltac:(cbn; lra) ltac:(lra) HB E 2%nat).
  destruct (gen_law _ _ _ _ _ _ _ _ _ HB E) as (_ & _ & G). rewrite G, limit_zero in H. unfold response, images in H. change (cells 0) with [(0, 0, 0)%Z] in H. rewrite lsum_flat in H. cbn [lsum map flat_map app] in H.
  unfold last_of, cell_values, u_vectors in H. cbn [map fold_left fst snd lsum] in H. rewrite L1, L2, L3, L4, L5, L6, L7, L8 in H. cbn [Nat.eqb] in H. unfold amplitude in H. cbn [fst snd] in H.
  assert (D : image_dist lost_dims lost_s lost_r (0, 0, 0)%Z (0, 1, 0)%Z = image_dist lost_dims lost_s lost_r (0, 0, 0)%Z (1, 0, 0)%Z).
  { unfold image_dist, lost_dims, lost_s, lost_r, image_coord. cbn zeta. f_equal. ring. }
  assert (P : 0 < image_damping (fst b) (snd b) (0, 0, 0)%Z (0, 1, 0)%Z / (4 * PI * image_dist lost_dims lost_s lost_r (0, 0, 0)%Z (1, 0, 0)%Z)).
  { unfold Rdiv. apply Rmult_lt_0_compat. { unfold b, image_damping. cbn [fst snd]. rewrite Rminus_0_r, sqrt_1, !pow1. lra. } apply den_pos. unfold image_dist, lost_dims, lost_s, lost_r, image_coord. apply sqrt_lt_R0. lra. }
  rewrite D in H. lra.
Qed.
Print Assumptions C58_lost_images_refuted.
(** A case without coincidences: the hypothesis of the theorems above can be met. *)
Example C58_separate_example : separate (3, 4, 5) (1, 1, 1) (1, 2, 5 / 2) 0 3430 /\ inside (3, 4, 5) (1, 1, 1) /\ inside (3, 4, 5) (1, 2, 5 / 2) /\ 0 < distance (1, 1, 1) (1, 2, 5 / 2).
Proof.
  split; [|split; [cbn; lra|split; [cbn; lra|]]].
  - intros l Hl. assert (l = (0, 0, 0)%Z) by (destruct l as [[a1 a2] a3]; apply cells_in in Hl; repeat f_equal; lia). subst l.
    assert (E : map (fun u => sample_of 3430 (image_dist (3, 4, 5) (1, 1, 1) (1, 2, 5 / 2) (0, 0, 0)%Z u)) u_vectors = [18; 36; 34; 27; 46; 42; 39; 50]%nat).
    { unfold u_vectors. cbn [map]. samples 10. }
    rewrite E. repeat constructor; cbn; intuition congruence.
  - unfold distance. apply sqrt_lt_R0. lra.
Qed.

(** ** Which wall reflects *)
Inductive plane := X0 | XL | Y0 | YL | Z0 | ZL.
Definition mirrored (dims p : R * R * R) (pl : plane) : R * R * R :=
  let '(L1, L2, L3) := dims in let '(a, b, c) := p in
  match pl with X0 => (- a, b, c) | XL => (2 * L1 - a, b, c) | Y0 => (a, - b, c) | YL => (a, 2 * L2 - b, c) | Z0 => (a, b, - c) | ZL => (a, b, 2 * L3 - c) end.
(** "south, west and floor start at origin" *)
Definition wall_at (pl : plane) : wall := match pl with X0 => South | XL => North | Y0 => West | YL => East | Z0 => Floor | ZL => Ceiling end.
Definition plane_area (dims : R * R * R) (pl : plane) : R :=
  let '(x, y, z) := dims in match pl with X0 | XL => y * z | Y0 | YL => x * z | Z0 | ZL => x * y end.
(** The source mirrored at a wall is one of the images of order one, damped by the reflection factor of that wall alone. *)
Theorem C58_walls alpha b dims s r pl : length alpha = 6%nat -> betas alpha = Ok b ->
  exists l u, In l (cells 1) /\ In u u_vectors /\ image_dist dims s r l u = distance (mirrored dims s pl) r /\
    image_damping (fst b) (snd b) l u = sqrt (1 - get alpha (wall_index (wall_at pl))).
Proof.
  intros L. destruct alpha as [|n [|so [|e [|w [|f [|ce [|? ?]]]]]]]; try discriminate. cbn [betas map]. intros [= <-]. cbn [fst snd].
  destruct dims as [[L1 L2] L3], s as [[s1 s2] s3], r as [[r1 r2] r3].
  exists (match pl with X0 | Y0 | Z0 => (0, 0, 0) | XL => (1, 0, 0) | YL => (0, 1, 0) | ZL => (0, 0, 1) end)%Z, (match pl with X0 | XL => (1, 0, 0) | Y0 | YL => (0, 1, 0) | Z0 | ZL => (0, 0, 1) end)%Z.
  split. destruct pl; apply cells_in; lia. split. destruct pl; cbn; tauto. split.
  - unfold image_dist, distance, image_coord. destruct pl; cbn [mirrored]; f_equal; ring.
  - unfold image_damping, get. destruct pl; cbn [wall_at wall_index nth]; change (Z.abs_nat (0 - 1)) with 1%nat; change (Z.abs_nat (0 - 0)) with 0%nat; change (Z.abs_nat (1 - 1)) with 0%nat; change (Z.abs_nat 0) with 0%nat; change (Z.abs_nat 1) with 1%nat; cbn [pow]; ring.
Qed.
Print Assumptions C58_walls.
Example C58_walls_example : exists b, betas [1 / 10; 2 / 10; 3 / 10; 4 / 10; 5 / 10; 6 / 10] = Ok b /\
  exists l u, image_dist (3, 4, 5) (1, 1, 1) (2, 2, 2) l u = distance (-1, 1, 1) (2, 2, 2) /\ image_damping (fst b) (snd b) l u = sqrt (1 - 2 / 10).
Proof. eexists. split. reflexivity. edestruct (C58_walls [1 / 10; 2 / 10; 3 / 10; 4 / 10; 5 / 10; 6 / 10]) with (dims := (3, 4, 5)) (s := (1, 1, 1)) (r := (2, 2, 2)) (pl := X0) as (l & u & _ & _ & A & B); try reflexivity. exists l, u. split; [exact A|exact B]. Qed.
(** Counterexample: add_detailed_absorption gives the four upright walls the areas of the walls around the corner (C57_detailed sums
    wall_area times coefficient): it takes south as a wall along x, the image sources take it as the wall x = 0. *)
Theorem C58_wall_areas_refuted : (forall dims pl, wall_area dims (wall_at pl) = plane_area dims (match pl with X0 => Y0 | XL => YL | Y0 => X0 | YL => XL | p => p end)) /\
  ~ (forall dims pl, wall_area dims (wall_at pl) = plane_area dims pl).
Proof.
  split. intros [[x y] z] pl. destruct pl; reflexivity. intros H. specialize (H (3, 4, 5) X0). cbn in H. lra.
Qed.
Print Assumptions C58_wall_areas_refuted.
