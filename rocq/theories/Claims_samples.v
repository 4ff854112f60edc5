(** Properties C34 and C35: sample formats and 24-bit packing. *)
From Coq Require Import Ascii String List Arith Lia ZArith Bool QArith Qround Qminmax Lqa Znumtheory.
From Verif Require Import Alg Spec M_arrays M_samples P_samples.
Import ListNotations.
Local Open Scope Z_scope.

(** ** C35 *)
Definition byte (x : Z) : Prop := 0 <= x < 256.
Definition fits24 (signed : bool) (v : Z) : Prop := if signed then -8388608 <= v < 8388608 else 0 <= v < 16777216.

Theorem C35_values_survive :
  forall (little signed : bool) (v : list Z), Forall (fits24 signed) v ->
  of_bytes24 little signed (to_bytes24 little v) = Ok v /\
  List.length (to_bytes24 little v) = (3 * List.length v)%nat /\ Forall byte (to_bytes24 little v).
Proof.
  intros little signed v H. rewrite to_bytes24_eq.
  assert (E3 : forall x, len (enc little 3 x) = 3%nat). { intros. unfold enc. destruct little; rewrite ?rev_length; apply to_le_len. }
  assert (L : len (concat (map (enc little 3) v)) = (3 * len v)%nat).
  { clear H. induction v as [|x t IH]; auto. cbn [map concat]. rewrite app_length, IH, E3. simpl. lia. }
  split; [|split; auto].
  - unfold of_bytes24. rewrite L. rewrite Nat.mul_comm, Nat.mod_mul by lia. cbn [Nat.eqb].
    rewrite groups_concat; try lia.
    + f_equal. clear L. induction H as [|x t Hx H IH]; auto. cbn [map]. rewrite IH, dec_enc; auto.
      unfold in_range, fits24 in *. change (256 ^ Z.of_nat 3) with 16777216. destruct signed; lia.
    + apply Forall_map, Forall_forall. intros. apply E3.
    + rewrite map_length. lia.
  - clear. induction v; simpl; auto. apply Forall_app. split; auto. unfold enc. destruct little.
    apply to_le_byte. apply Forall_rev, to_le_byte.
Qed.
Print Assumptions C35_values_survive.

Theorem C35_bytes_survive :
  forall (little signed : bool) (b : list Z), Forall byte b -> (List.length b mod 3 = 0)%nat ->
  exists v, of_bytes24 little signed b = Ok v /\ Forall (fits24 signed) v /\ (3 * List.length v)%nat = List.length b /\ to_bytes24 little v = b.
Proof.
  intros little signed b Hb HL. unfold of_bytes24. rewrite HL. cbn [Nat.eqb].
  pose proof (Nat.div_mod (len b) 3 ltac:(lia)) as D. rewrite HL in D.
  destruct (groups_spec 3 ltac:(lia) (len b) b (len b / 3)%nat) as [G1 [G2 G3]]; try lia.
  eexists. split; [reflexivity|]. rewrite map_length, G3.
  assert (HF : Forall (fun g => Forall byte g /\ len g = 3%nat) (groups (len b) 3 b)).
  { rewrite Forall_forall in *. intros g Hg. split; auto. apply Forall_forall. intros x Hx. apply Hb. rewrite <- G1.
    apply in_concat. eauto. }
  split; [|split; [lia|]].
  - apply Forall_map. eapply Forall_impl; [|exact HF]. intros g [H1 H2]. pose proof (proj2 (enc_dec little signed g H1)) as H3. rewrite H2 in H3.
    unfold in_range, fits24 in *. change (256 ^ Z.of_nat 3) with 16777216 in H3. destruct signed; lia.
  - rewrite to_bytes24_eq, map_map. transitivity (concat (groups (len b) 3 b)); [|exact G1]. f_equal.
    clear -HF. induction HF as [|g t Hg H IH]; auto. destruct Hg as [H1 H2]. cbn [map]. rewrite IH. f_equal. rewrite <- H2. now apply enc_dec.
Qed.
Print Assumptions C35_bytes_survive.

Theorem C35_bad_length_rejected :
  forall little signed b, (List.length b mod 3 <> 0)%nat -> of_bytes24 little signed b = Err AssertionError.
Proof. intros. unfold of_bytes24. destruct (Nat.eqb_spec (len b mod 3) 0); easy. Qed.
Print Assumptions C35_bad_length_rejected.

(** Values outside the range are reduced modulo 2^24. *)
Theorem C35_wraps :
  forall little (v : list Z), exists u, of_bytes24 little false (to_bytes24 little v) = Ok u /\ u = map (fun x => x mod 16777216) v.
Proof.
  intros little v. exists (map (fun x => x mod 16777216) v). split; auto.
  replace (to_bytes24 little v) with (to_bytes24 little (map (fun x => x mod 16777216) v)).
  - apply C35_values_survive. apply Forall_map, Forall_forall. intros. simpl. apply Z.mod_pos_bound. lia.
  - rewrite !to_bytes24_eq, map_map. f_equal. apply map_ext. intros x. unfold enc.
    assert (E : to_le 3 (x mod 16777216) = to_le 3 x).
    { rewrite (Z.div_mod x 16777216) at 2 by lia. cbn [to_le]. set (q := x / 16777216). set (r := x mod 16777216).
      replace (16777216 * q + r) with (r + (65536 * q) * 256) by ring. rewrite Z.mod_add, Z.div_add by lia.
      replace (r / 256 + 65536 * q) with (r / 256 + (256 * q) * 256) by ring. rewrite Z.mod_add, Z.div_add by lia.
      replace (r / 256 / 256 + 256 * q) with (r / 256 / 256 + q * 256) by ring. rewrite Z.mod_add by lia. reflexivity. }
    now rewrite E.
Qed.
Print Assumptions C35_wraps.

Example C35_example :
  to_bytes24 true [-2; 8388607] = [254;255;255;255;255;127] /\ to_bytes24 false [-2; 8388607] = [255;255;254;127;255;255] /\
  of_bytes24 true true [254;255;255;255;255;127] = Ok [-2; 8388607] /\ Forall (fits24 true) [-2; 8388607].
Proof. repeat split; try reflexivity. repeat constructor; simpl; lia. Qed.

(** ** C34 *)
(** Equilibrium and span of the named formats; floats have equilibrium 0 and span 1. *)
Definition int_formats : list (string * (Z * Z)) :=
  [("i8", (0, 127)); ("i16", (0, 32767)); ("i24", (0, 8388607)); ("i32", (0, 2147483647));
   ("u8", (127, 127)); ("u16", (32767, 32767)); ("u24", (8388607, 8388607)); ("u32", (2147483647, 2147483647))]%string.
Definition formats : list (string * (Z * Z)) := [("f32", (0, 1)); ("f64", (0, 1))]%string ++ int_formats.
Definition clip1 (x : Q) : Q := Qmax (-(1)) (Qmin x 1).
(** Position of v in its range, -1 .. 1. *)
Definition position (eq span : Z) (v : Q) : Q := clip1 ((v - inject_Z eq) / inject_Z span).
(** z is x rounded towards zero. *)
Definition rounded (z : Z) (x : Q) : Prop :=
  ((0 <= x -> inject_Z z <= x < inject_Z z + 1) /\ (x <= 0 -> inject_Z z - 1 < x <= inject_Z z))%Q.

Lemma clip_eq x : (qclip x == clip1 x)%Q.
Proof.
  unfold clip1, qclip.
  destruct (Qle_bool x (-(1))) eqn:E1.
  { rewrite Qle_bool_iff in E1. rewrite Q.min_l by lra. rewrite Q.max_l by lra. reflexivity. }
  assert (~ (x <= -(1))%Q) by (rewrite <- Qle_bool_iff; congruence).
  destruct (Qle_bool 1 x) eqn:E2.
  { rewrite Qle_bool_iff in E2. rewrite Q.min_r by lra. rewrite Q.max_r by lra. reflexivity. }
  assert (~ (1 <= x)%Q) by (rewrite <- Qle_bool_iff; congruence).
  rewrite Q.min_l by lra. rewrite Q.max_r by lra. reflexivity.
Qed.
Definition fmt_of (f : fmt) : Z * Z := match f with F32 | F64 => (0, 1) | I n => (0, maxv n) | U n => (maxv n, maxv n) end.
Lemma qclip_comp x y : (x == y)%Q -> (qclip x == qclip y)%Q.
Proof. intros E. apply Qle_antisym; apply qclip_le; lra. Qed.
Lemma to_unit_eq f v : 0 < snd (fmt_of f) -> (to_unit f v == position (fst (fmt_of f)) (snd (fmt_of f)) v)%Q.
Proof.
  intros H. unfold to_unit, position. rewrite <- clip_eq. apply qclip_comp. destruct f; simpl in *.
  - change (inject_Z 0) with 0%Q. change (inject_Z 1) with 1%Q. field.
  - change (inject_Z 0) with 0%Q. change (inject_Z 1) with 1%Q. field.
  - change (inject_Z 0) with 0%Q. field. intros E. unfold Qeq in E. simpl in E. lia.
  - field. intros E. unfold Qeq in E. simpl in E. lia.
Qed.
Lemma of_unit_eq (signed : bool) n x : (of_unit signed n x == inject_Z (fst (fmt_of (if signed then I n else U n))) + inject_Z (snd (fmt_of (if signed then I n else U n))) * x)%Q.
Proof. destruct signed; simpl; unfold of_unit; [change (inject_Z 0) with 0%Q|]; ring. Qed.
Lemma parse_fmt s e p : In (s, (e, p)) formats -> exists f, parse s = Some f /\ fmt_of f = (e, p) /\ parse (lower s) = Some f /\ 0 < p.
Proof. intros H. unfold formats, int_formats in H. cbn [app In] in H. intuition; match goal with H : _ = _ |- _ => injection H as <- <- <- end; eexists; repeat split; reflexivity. Qed.
Lemma parse_int s e p : In (s, (e, p)) int_formats -> exists (sg : bool) n, parse (lower s) = Some (if sg then I n else U n) /\ fmt_of (if sg then I n else U n) = (e, p) /\ 0 < p /\ ((n =? 24) = true <-> s = "i24"%string \/ s = "u24"%string).
Proof.
  intros H. unfold int_formats in H. cbn [In] in H. intuition; match goal with H : _ = _ |- _ => injection H as <- <- <- end;
  first [ exists true; eexists; split; [reflexivity|]; split; [reflexivity|]; split; [reflexivity|]; split; [intros H; (discriminate H || auto)|intros [H|H]; (discriminate H || reflexivity)]
        | exists false; eexists; split; [reflexivity|]; split; [reflexivity|]; split; [reflexivity|]; split; [intros H; (discriminate H || auto)|intros [H|H]; (discriminate H || reflexivity)] ].
Qed.

Definition convert_list (f : fmt) (sg : bool) (n : Z) (l : list Q) : list Z := map (fun v => qtrunc (of_unit sg n (to_unit f v))) l.
Lemma convert_list_spec f (sg : bool) n l : 0 < snd (fmt_of f) ->
  Forall2 (fun v z => rounded z (inject_Z (fst (fmt_of (if sg then I n else U n))) + inject_Z (snd (fmt_of (if sg then I n else U n))) * position (fst (fmt_of f)) (snd (fmt_of f)) v)%Q) l (convert_list f sg n l).
Proof.
  intros H. induction l; constructor; auto. apply (toward_zero_eq _ (of_unit sg n (to_unit f a))); [|apply qtrunc_toward].
  rewrite of_unit_eq, to_unit_eq by auto. reflexivity.
Qed.
Lemma position_range e p v : (-(1) <= position e p v <= 1)%Q.
Proof. unfold position. rewrite <- clip_eq. apply qclip_range. Qed.
Lemma rounded_range e p z x : 0 <= p -> (e = 0 \/ e = p) -> (-(1) <= x <= 1)%Q -> rounded z (inject_Z e + inject_Z p * x)%Q -> e - p <= z <= e + p.
Proof.
  intros Hp He Hx HR.
  assert (HPQ : (0 <= inject_Z p)%Q). { change 0%Q with (inject_Z 0). rewrite <- Zle_Qle. lia. }
  assert (L : (inject_Z (e - p) <= inject_Z e + inject_Z p * x)%Q).
  { unfold Zminus. rewrite inject_Z_plus, inject_Z_opp. setoid_replace (- inject_Z p)%Q with (inject_Z p * -(1))%Q by ring.
    apply Qplus_le_compat. lra. rewrite !(Qmult_comm (inject_Z p)). apply Qmult_le_compat_r; lra. }
  assert (U : (inject_Z e + inject_Z p * x <= inject_Z (e + p))%Q).
  { rewrite inject_Z_plus. apply Qplus_le_compat. lra. rewrite <- (Qmult_1_r (inject_Z p)) at 2. rewrite !(Qmult_comm (inject_Z p)). apply Qmult_le_compat_r; lra. }
  split; [apply (toward_zero_mono _ _ _ _ L)|apply (toward_zero_mono _ _ _ _ U)]; auto; apply toward_zero_int.
Qed.

(** The conversion to any integer format: position in the input range, times span plus equilibrium of the output,
    rounded towards zero; never outside the output range. The values are returned as floats (cast_output=False),
    as integers, or for 24 bits as bytes. *)
Theorem C34_conversion :
  forall little fi ei pi fo eo po (l : list Q), In (fi, (ei, pi)) formats -> In (fo, (eo, po)) int_formats -> fi <> fo ->
  exists z, Forall2 (fun v k => rounded k (inject_Z eo + inject_Z po * position ei pi v)%Q /\ eo - po <= k <= eo + po) l z /\
    convert little (InArray l) fi fo false false = Ok (OutFloat (map inject_Z z), eo, po) /\
    (fo <> "i24"%string /\ fo <> "u24"%string -> convert little (InArray l) fi fo true false = Ok (OutInt z, eo, po)) /\
    (fo = "i24"%string \/ fo = "u24"%string -> convert little (InArray l) fi fo true false = Err AssertionError /\
       exists b, convert little (InArray l) fi fo true true = Ok (OutBytes b, eo, po) /\ of_bytes24 little (String.eqb fo "i24") b = Ok z).
Proof.
  intros little fi ei pi fo eo po l Hi Ho Hne.
  destruct (parse_fmt fi ei pi Hi) as [f [P1 [P2 [_ P4]]]]. destruct (parse_int fo eo po Ho) as [sg [n [Q1 [Q2 [Q4 Q5]]]]].
  exists (convert_list f sg n l).
  assert (EF : String.eqb fi fo = false) by now apply String.eqb_neq.
  assert (EO : eo = 0 \/ eo = po). { destruct sg; simpl in Q2; injection Q2 as <- <-; auto. }
  split.
  { pose proof (convert_list_spec f sg n l) as H. rewrite P2, Q2 in H. simpl in H. specialize (H P4).
    induction H; constructor; auto. split; auto. eapply rounded_range; [lia|exact EO|apply position_range|exact H]. }
  assert (W : forall cast inb, convert little (InArray l) fi fo cast inb = bind (write little sg n cast inb (map (to_unit f) l)) (fun y => Ok (y, eo, po))).
  { intros. unfold convert. rewrite EF, Q1, P1. cbn [read bind]. destruct sg; simpl in Q2; injection Q2 as <- <-; reflexivity. }
  rewrite !W. unfold write. cbn [negb andb].
  split. { cbn [bind]. unfold convert_list. rewrite !map_map. reflexivity. }
  split. { intros [N1 N2]. destruct (n =? 24) eqn:E. { destruct (proj1 Q5 eq_refl); congruence. }
    cbn [andb bind]. unfold convert_list. rewrite !map_map. reflexivity. }
  intros H. apply Q5 in H as E. rewrite E. cbn [andb bind]. split; auto. eexists. split; [reflexivity|].
  rewrite !map_map. change (map (fun x : Q => qtrunc (of_unit sg n (to_unit f x))) l) with (convert_list f sg n l).
  apply Z.eqb_eq in E. subst n.
  assert (ES : String.eqb fo "i24" = sg).
  { unfold int_formats in Ho. simpl in Ho. destruct H; subst fo; simpl in Q1; destruct sg; try discriminate; reflexivity. }
  rewrite ES. apply C35_values_survive.
  pose proof (convert_list_spec f sg 24 l) as HS. rewrite P2, Q2 in HS. simpl in HS. specialize (HS P4).
  assert (EP : eo = (if sg then 0 else 8388607) /\ po = 8388607) by (destruct sg; injection Q2 as <- <-; auto).
  destruct EP as [-> ->]. clear -HS EO. induction HS; constructor; auto.
  apply rounded_range in H; try lia; [|apply position_range]. destruct sg; simpl; lia.
Qed.
Print Assumptions C34_conversion.

(** Larger inputs never give smaller outputs. *)
Theorem C34_monotone :
  forall little fi ei pi fo eo po (v v' : Q), In (fi, (ei, pi)) formats -> In (fo, (eo, po)) int_formats -> fi <> fo -> (v <= v')%Q ->
  exists z z', convert little (InArray [v; v']) fi fo false false = Ok (OutFloat [inject_Z z; inject_Z z'], eo, po) /\ z <= z'.
Proof.
  intros little fi ei pi fo eo po v v' Hi Ho Hne Hv.
  destruct (C34_conversion little fi ei pi fo eo po [v; v'] Hi Ho Hne) as [z [HZ [E _]]].
  inversion HZ as [|? z1 ? t [H1 _] HT]; subst. inversion HT as [|? z2 ? t2 [H2 _] HN]; subst. inversion HN; subst.
  exists z1, z2. split; auto. eapply toward_zero_mono; [|exact H1|exact H2].
  destruct (parse_fmt fi ei pi Hi) as [_ [_ [_ [_ Pp]]]]. destruct (parse_int fo eo po Ho) as [_ [_ [_ [_ [Pq _]]]]].
  apply Qplus_le_compat. lra. rewrite !(Qmult_comm (inject_Z po)). apply Qmult_le_compat_r.
  - unfold position. rewrite <- !clip_eq. apply qclip_le. unfold Qdiv. apply Qmult_le_compat_r. lra.
    apply Qinv_le_0_compat. change 0%Q with (inject_Z 0). rewrite <- Zle_Qle. lia.
  - change 0%Q with (inject_Z 0). rewrite <- Zle_Qle. lia.
Qed.
Print Assumptions C34_monotone.

Lemma inj_ne p : 0 < p -> ~ (inject_Z p == 0)%Q.
Proof. intros H E. unfold Qeq in E. simpl in E. lia. Qed.
Lemma position_in e p v : 0 < p -> e - p <= v <= e + p -> (inject_Z p * position e p (inject_Z v) == inject_Z (v - e))%Q.
Proof.
  intros Hp Hv. unfold position. rewrite <- clip_eq.
  assert (PQ : (0 < inject_Z p)%Q). { change 0%Q with (inject_Z 0). rewrite <- Zlt_Qlt. lia. }
  rewrite qclip_id.
  - unfold Zminus. rewrite inject_Z_plus, inject_Z_opp. field. now apply inj_ne.
  - split.
    + apply Qle_shift_div_l; auto. setoid_replace (-(1) * inject_Z p)%Q with (inject_Z (- p)) by (rewrite inject_Z_opp; ring).
      setoid_replace (inject_Z v - inject_Z e)%Q with (inject_Z (v - e)) by (unfold Zminus; rewrite inject_Z_plus, inject_Z_opp; ring).
      rewrite <- Zle_Qle. lia.
    + apply Qle_shift_div_r; auto. setoid_replace (1 * inject_Z p)%Q with (inject_Z p) by ring.
      setoid_replace (inject_Z v - inject_Z e)%Q with (inject_Z (v - e)) by (unfold Zminus; rewrite inject_Z_plus, inject_Z_opp; ring).
      rewrite <- Zle_Qle. lia.
Qed.

(** Integer samples turned into floats and back are unchanged, for every sample within equilibrium +- span. *)
Theorem C34_float_round_trip :
  forall little fi ei pi (v : list Z), In (fi, (ei, pi)) int_formats -> Forall (fun x => ei - pi <= x <= ei + pi) v ->
  exists x, convert little (InArray (map inject_Z v)) fi "f64" true false = Ok (OutFloat x, 0, 1) /\
    convert little (InArray x) "f64" fi false false = Ok (OutFloat (map inject_Z v), ei, pi).
Proof.
  intros little fi ei pi v Hi HF.
  assert (Hf : In (fi, (ei, pi)) formats) by (unfold formats; apply in_or_app; now right).
  destruct (parse_fmt fi ei pi Hf) as [f [P1 [P2 [_ P4]]]].
  assert (N : fi <> "f64"%string). { intros ->. unfold int_formats in Hi. simpl in Hi. intuition discriminate. }
  exists (map (to_unit f) (map inject_Z v)). split.
  - unfold convert. rewrite (proj2 (String.eqb_neq _ _) N). cbn [lower lower1 parse]. rewrite P1. reflexivity.
  - destruct (C34_conversion little "f64" 0 1 fi ei pi (map (to_unit f) (map inject_Z v))) as [z [HZ [E _]]]; auto.
    { unfold formats. simpl. auto. }
    rewrite E. do 4 f_equal.
    clear E. revert z HZ. induction HF as [|x t Hx HF IH]; intros z HZ; inversion HZ as [|? k ? zt [H1 _] HT]; subst; auto.
    cbn [map]. f_equal; auto. f_equal. apply (toward_zero_unique _ _ _ H1).
    apply (toward_zero_eq _ (inject_Z x)); [|apply toward_zero_int].
    assert (EP : (position 0 1 (to_unit f (inject_Z x)) == to_unit f (inject_Z x))%Q).
    { unfold position. rewrite <- clip_eq. change (inject_Z 0) with 0%Q. change (inject_Z 1) with 1%Q.
      rewrite (qclip_comp _ (to_unit f (inject_Z x))) by field. apply qclip_id. apply qclip_range. }
    rewrite EP, to_unit_eq by (rewrite P2; exact P4). rewrite P2. simpl. rewrite position_in by auto.
    unfold Zminus. rewrite inject_Z_plus, inject_Z_opp. ring.
Qed.
Print Assumptions C34_float_round_trip.

(** The most negative code of a signed format is not preserved: it becomes the next one. *)
Theorem C34_most_negative_code_refuted :
  forall little fi pi, In (fi, (0, pi)) int_formats -> In (fi, pi) [("i8", 127); ("i16", 32767); ("i24", 8388607); ("i32", 2147483647)]%string ->
  exists x, convert little (InArray [inject_Z (- pi - 1)]) fi "f64" true false = Ok (OutFloat x, 0, 1) /\
    convert little (InArray x) "f64" fi false false = Ok (OutFloat [inject_Z (- pi)], 0, pi).
Proof.
  intros little fi pi _ H. simpl in H. intuition; match goal with H : _ = _ |- _ => injection H as <- <- end; eexists; split; reflexivity.
Qed.
Print Assumptions C34_most_negative_code_refuted.

(** Same width, other signedness: the sample is shifted by the equilibrium; there and back is the identity. *)
Definition same_width : list (string * (Z * Z) * (string * (Z * Z))) :=
  flat_map (fun a => map (fun b => (a, b)) (filter (fun b => (snd (snd a) =? snd (snd b)) && negb (fst (snd a) =? fst (snd b))) int_formats)) int_formats.
Theorem C34_signed_unsigned :
  forall little fi ei pi fo eo po (v : Z), In ((fi, (ei, pi)), (fo, (eo, po))) same_width -> ei - pi <= v <= ei + pi ->
  convert little (InArray [inject_Z v]) fi fo false false = Ok (OutFloat [inject_Z (v - ei + eo)], eo, po) /\
  convert little (InArray [inject_Z (v - ei + eo)]) fo fi false false = Ok (OutFloat [inject_Z v], ei, pi).
Proof.
  intros little fi ei pi fo eo po v H Hv.
  assert (HH : In (fi, (ei, pi)) int_formats /\ In (fo, (eo, po)) int_formats /\ pi = po /\ fi <> fo).
  { unfold same_width, int_formats in H. cbn in H. unfold int_formats. simpl. intuition (match goal with H : _ = _ |- _ => injection H as <- <- <- <- <- <- end; auto 10; discriminate). }
  destruct HH as [Hi [Ho [E Hn]]]. subst po.
  assert (Hi' : In (fi, (ei, pi)) formats) by (unfold formats; apply in_or_app; now right).
  assert (Ho' : In (fo, (eo, pi)) formats) by (unfold formats; apply in_or_app; now right).
  destruct (parse_fmt fi ei pi Hi') as [_ [_ [_ [_ Pp]]]].
  split.
  - destruct (C34_conversion little fi ei pi fo eo pi [inject_Z v] Hi' Ho Hn) as [z [HZ [EZ _]]]. rewrite EZ.
    inversion HZ as [|? k ? t [H1 _] HT]; subst. inversion HT; subst. do 4 f_equal. cbn [map]. do 2 f_equal.
    apply (toward_zero_unique _ _ _ H1). apply (toward_zero_eq _ (inject_Z (v - ei + eo))); [|apply toward_zero_int].
    rewrite position_in by auto. rewrite inject_Z_plus. ring.
  - destruct (C34_conversion little fo eo pi fi ei pi [inject_Z (v - ei + eo)] Ho' Hi (not_eq_sym Hn)) as [z [HZ [EZ _]]]. rewrite EZ.
    inversion HZ as [|? k ? t [H1 _] HT]; subst. inversion HT; subst. do 4 f_equal. cbn [map]. do 2 f_equal.
    apply (toward_zero_unique _ _ _ H1). apply (toward_zero_eq _ (inject_Z v)); [|apply toward_zero_int].
    rewrite position_in by (auto; lia). replace (v - ei + eo - eo) with (v - ei) by lia. unfold Zminus. rewrite inject_Z_plus, inject_Z_opp. ring.
Qed.
Print Assumptions C34_signed_unsigned.

(** From a narrower to a wider signed format and back: every sample other than 0 and +-span has moved by one. *)
Lemma quot_round a b : 0 < b -> toward_zero (Z.quot a b) (inject_Z a / inject_Z b)%Q.
Proof.
  intros Hb. apply (toward_zero_eq _ (a # Z.to_pos b)).
  - rewrite Qmake_Qdiv. rewrite Z2Pos.id by auto. reflexivity.
  - pose proof (qtrunc_toward (a # Z.to_pos b)) as H. unfold qtrunc in H. cbn [Qnum Qden] in H. rewrite Z2Pos.id in H by auto. exact H.
Qed.
Lemma rounded_position p q v z : 0 < p -> 0 < q -> - p <= v <= p -> rounded z (inject_Z 0 + inject_Z q * position 0 p (inject_Z v))%Q -> z = Z.quot (v * q) p.
Proof.
  intros Hp Hq Hv H. apply (toward_zero_unique _ _ _ H). apply (toward_zero_eq _ (inject_Z (v * q) / inject_Z p)%Q); [|now apply quot_round].
  pose proof (position_in 0 p v Hp ltac:(lia)) as E. rewrite Z.sub_0_r in E. change (inject_Z 0) with 0%Q in *.
  setoid_replace (position 0 p (inject_Z v)) with (inject_Z v / inject_Z p)%Q.
  - rewrite inject_Z_mult. field. now apply inj_ne.
  - apply (Qmult_inj_l _ _ (inject_Z p)); [now apply inj_ne|]. rewrite E. field. now apply inj_ne.
Qed.
Lemma widen_back p q v : 0 < p < q -> rel_prime p q -> 0 < v < p -> Z.quot (Z.quot (v * q) p * p) q = v - 1.
Proof.
  intros Hp HR Hv. rewrite (Z.quot_div_nonneg (v * q) p) by nia.
  set (w := v * q / p). pose proof (Z.div_mod (v * q) p ltac:(lia)) as D. fold w in D. pose proof (Z.mod_pos_bound (v * q) p ltac:(lia)) as B.
  assert (N : v * q mod p <> 0).
  { intros E. assert (DV : (p | v * q)) by (apply Z.mod_divide; lia). rewrite Z.mul_comm in DV. apply Gauss in DV; auto.
    apply Z.divide_pos_le in DV; lia. }
  assert (0 <= w) by (apply Z.div_pos; nia).
  rewrite Z.quot_div_nonneg by nia. symmetry. apply Z.div_unique with (w * p - q * (v - 1)); nia.
Qed.
Theorem C34_widen_and_back_refuted :
  forall little fi pi fo po (v : Z),
  In (fi, (0, pi)) int_formats -> In (fo, (0, po)) int_formats -> pi < po -> 0 < Z.abs v < pi ->
  exists w, convert little (InArray [inject_Z v]) fi fo false false = Ok (OutFloat [inject_Z w], 0, po) /\
    convert little (InArray [inject_Z w]) fo fi false false = Ok (OutFloat [inject_Z (v - Z.sgn v)], 0, pi).
Proof.
  intros little fi pi fo po v Hi Ho Hlt Hv.
  assert (Hi' : In (fi, (0, pi)) formats) by (unfold formats; apply in_or_app; now right).
  assert (Ho' : In (fo, (0, po)) formats) by (unfold formats; apply in_or_app; now right).
  assert (Hn : fi <> fo).
  { intros ->. destruct (parse_fmt fo 0 pi Hi') as [f1 [A1 [A2 _]]]. destruct (parse_fmt fo 0 po Ho') as [f2 [B1 [B2 _]]].
    rewrite A1 in B1. injection B1 as <-. rewrite A2 in B2. injection B2 as <-. lia. }
  assert (HR : rel_prime pi po).
  { apply Zgcd_1_rel_prime. unfold int_formats in Hi, Ho. simpl in Hi, Ho.
    intuition (repeat match goal with H : (_, _) = (_, _) |- _ => injection H as <- <- || (exfalso; discriminate H) end; try lia; try reflexivity). }
  set (w := Z.quot (v * po) pi). exists w.
  assert (Hw : Z.quot (w * pi) po = v - Z.sgn v).
  { unfold w. destruct (Z.lt_ge_cases v 0).
    - replace v with (- (- v)) by lia. set (u := - v) in *. rewrite Z.sgn_opp, (Z.sgn_pos u) by lia.
      rewrite Z.mul_opp_l, Z.quot_opp_l, Z.mul_opp_l, Z.quot_opp_l by lia. rewrite widen_back by (auto; lia). lia.
    - rewrite (Z.sgn_pos v) by lia. apply widen_back; auto; lia. }
  assert (Bw : - po <= w <= po).
  { unfold w. split.
    - apply Z.quot_le_lower_bound; nia.
    - apply Z.quot_le_upper_bound; nia. }
  split.
  - destruct (C34_conversion little fi 0 pi fo 0 po [inject_Z v] Hi' Ho Hn) as [z [HZ [EZ _]]]. rewrite EZ.
    inversion HZ as [|? k ? t [H1 _] HT]; subst. inversion HT; subst. apply rounded_position in H1; try lia. now subst k.
  - destruct (C34_conversion little fo 0 po fi 0 pi [inject_Z w] Ho' Hi (not_eq_sym Hn)) as [z [HZ [EZ _]]]. rewrite EZ.
    inversion HZ as [|? k ? t [H1 _] HT]; subst. inversion HT; subst. apply rounded_position in H1; try lia. subst k. now rewrite Hw.
Qed.
Print Assumptions C34_widen_and_back_refuted.

(** Dispatch: equal or unknown formats are rejected; bytes cannot be read as floats; only the output name may be in
    upper case; output_in_bytes is ignored for float output. *)
Theorem C34_dispatch :
  forall little v c ob fi fo,
  convert little v fi fi c ob = Err AssertionError /\
  (~ (exists e, In (fi, e) formats) -> convert little v fi fo c ob = Err AssertionError) /\
  (forall b, In fi ["f32"; "f64"]%string -> (exists e, In (fo, e) formats) -> fi <> fo -> convert little (InBytes b) fi fo c ob = Err AttributeError) /\
  convert little v "I16"%string "f64"%string c ob = Err AssertionError /\
  (forall l, convert little (InArray l) "f64"%string "I16"%string c ob = convert little (InArray l) "f64"%string "i16"%string c ob) /\
  (forall l, convert little (InArray l) "i16"%string "f64"%string c true = convert little (InArray l) "i16"%string "f64"%string c false).
Proof.
  intros. split. { unfold convert. now rewrite String.eqb_refl. }
  split.
  { intros H. unfold convert. destruct (String.eqb fi fo); auto. destruct (parse (lower fo)); auto.
    destruct (parse fi) eqn:E; auto. exfalso. apply H. unfold parse in E. destruct (find _ _) eqn:F; [|discriminate].
    apply find_some in F. destruct F as [F1 F2]. apply String.eqb_eq in F2. subst fi. simpl in F1.
    unfold formats, int_formats. cbn [app In]. intuition (subst; eexists; eauto 12). }
  split.
  { intros b H [[e q] He] Hn. destruct (parse_fmt fo e q He) as [f [_ [_ [P _]]]]. unfold convert.
    rewrite (proj2 (String.eqb_neq _ _) Hn), P. destruct H as [H|[H|[]]]; subst fi; reflexivity. }
  repeat split; reflexivity.
Qed.
Print Assumptions C34_dispatch.

Example C34_example :
  convert true (InArray [inject_Z 100; inject_Z (-128)]) "i8" "i16" true false = Ok (OutInt [25800; -32767], 0, 32767) /\
  convert true (InArray [inject_Z 25800]) "i16" "i8" true false = Ok (OutInt [99], 0, 127) /\
  convert true (InBytes [1;128]) "i8" "u8" true true = Ok (OutBytes [128; 0], 127, 127) /\
  convert true (InArray [(1#2)%Q]) "f64" "i24" true true = Ok (OutBytes [255;255;63], 0, 8388607) /\
  In ("i8"%string, (0, 127)) formats /\ In ("i16"%string, (0, 32767)) int_formats.
Proof. repeat split; try reflexivity; unfold formats, int_formats; simpl; auto 10. Qed.
