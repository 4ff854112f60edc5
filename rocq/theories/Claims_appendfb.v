(** Property C116: joining filter banks. *)
From Coq Require Import List Arith Lia ZArith Bool Reals.
From Verif Require Import Alg Spec M_arrays M_signal M_filter M_appendfb.
Import ListNotations.

(** ** Specification *)
(** What the class keeps for a bank that has or had filters: one rate for all filters, or the list of the rates of all filters. *)
Definition bank_wf (b : bank) : Prop :=
  if fb_same b then exists r, fb_rate b = ROne r /\ forall f, In f (fb_filters b) -> f_fs f = r else fb_filters b <> [] /\ fb_rate b = RMany (map f_fs (fb_filters b)).
Definition all_filters (l : list bank) : list filt := concat (map fb_filters l).
Definition rates_of (same : bool) (r : rate) (l : list filt) : rate := if same then r else RMany (map f_fs l).

(** ** Proofs *)
Lemma same_rates_eq a b : a <> RUnset -> same_rates a b = true <-> a = b.
Proof.
  destruct a, b; cbn; intros U; split; try congruence; intros H.
  - now apply Z.eqb_eq in H as ->.
  - injection H as ->. apply Z.eqb_refl.
  - destruct (list_eq_dec Z.eq_dec l l0); congruence.
  - injection H as ->. destruct (list_eq_dec Z.eq_dec l0 l0); congruence.
Qed.
Lemma wf_set b : bank_wf b -> fb_rate b <> RUnset.
Proof. unfold bank_wf. destruct (fb_same b); [intros (r & -> & _)|intros (_ & ->)]; discriminate. Qed.
Lemma check_ok b0 b : bank_wf b0 -> fb_same b = fb_same b0 -> fb_rate b = fb_rate b0 -> check_bank b0 b = Ok tt.
Proof.
  intros W S R. unfold check_bank. rewrite S, eqb_reflx, R. cbn [negb]. pose proof (wf_set b0 W) as U. pose proof (proj2 (same_rates_eq (fb_rate b0) _ U) eq_refl) as Q. destruct (fb_rate b0); try congruence; now rewrite Q.
Qed.
Lemma checks_ok b0 l : bank_wf b0 -> (forall b, In b l -> fb_same b = fb_same b0 /\ fb_rate b = fb_rate b0) -> check_banks b0 l = Ok tt.
Proof. intros W. induction l as [|b l IH]; intros H; auto. cbn. destruct (H b (or_introl eq_refl)). rewrite check_ok by auto. cbn. apply IH. intros. apply H. now right. Qed.
Lemma extend_ok l : forall acc, bank_wf acc -> (forall b, In b l -> bank_wf b /\ fb_same b = fb_same acc /\ (fb_same acc = true -> fb_rate b = fb_rate acc)) ->
  extend acc l = Ok (mkBank (fb_same acc) (rates_of (fb_same acc) (fb_rate acc) (fb_filters acc ++ all_filters l)) (fb_filters acc ++ all_filters l)).
Proof.
  induction l as [|b l IH]; intros acc W H.
  - unfold all_filters, rates_of. cbn. rewrite !app_nil_r. unfold bank_wf in W. destruct acc as [s r f]. cbn [fb_same fb_rate fb_filters] in *. destruct s; auto. now destruct W as (_ & ->).
  - cbn [extend]. destruct (H b (or_introl eq_refl)) as (Wb & Sb & Rb). destruct acc as [s r f]. cbn [fb_same fb_rate fb_filters] in *.
    assert (E : fb_set (f ++ fb_filters b) (mkBank s r f) = (mkBank s (rates_of s r (f ++ fb_filters b)) (f ++ fb_filters b), None)).
    { unfold bank_wf in W, Wb. cbn [fb_same fb_rate fb_filters] in *. rewrite Sb in Wb. unfold fb_set, rates_of. cbn [fb_same fb_rate fb_filters]. destruct s.
      - destruct W as (x & -> & X). destruct Wb as (y & Y1 & Y). rewrite Rb in Y1 by auto. injection Y1 as <-. destruct (f ++ fb_filters b) as [|f0 t] eqn:Q; auto.
        assert (P : forall g, In g (f0 :: t) -> f_fs g = x) by (intros g G; rewrite <- Q in G; apply in_app_or in G as [G|G]; auto). rewrite (P f0) by now left.
        replace (forallb (fun g => (f_fs g =? x)%Z) (f0 :: t)) with true; auto. symmetry. apply forallb_forall. intros g G. apply Z.eqb_eq. auto.
      - destruct W as (NE & _). destruct f as [|f0 f]; [congruence|]. reflexivity. }
    rewrite E. rewrite IH.
    + cbn [fb_same fb_rate fb_filters]. unfold all_filters. cbn [map concat]. rewrite <- !app_assoc. f_equal. f_equal. unfold rates_of. now destruct s.
    + unfold bank_wf in *. cbn [fb_same fb_rate fb_filters] in *. rewrite Sb in Wb. destruct s; cbn [rates_of].
      * destruct W as (x & -> & X). destruct Wb as (y & Y1 & Y). rewrite Rb in Y1 by auto. injection Y1 as <-. exists x. split; auto. intros g G. apply in_app_or in G as [G|G]; auto.
      * split; auto. destruct W as (NE & _). destruct f; [congruence|discriminate].
    + cbn [fb_same fb_rate fb_filters]. intros b' I. destruct (H b' (or_intror I)) as (A & B & C). split; auto. split; auto. intros ->. cbn [rates_of]. auto.
Qed.

(** Banks with the same rates are joined: the filters of all banks in order, with the rates that belong to them. *)
Theorem C116_filters b0 l : l <> [] -> bank_wf b0 -> (forall b, In b l -> bank_wf b /\ fb_same b = fb_same b0 /\ fb_rate b = fb_rate b0) ->
  exists r, append_filterbanks (b0 :: l) = Ok r /\ bank_wf r /\ fb_same r = fb_same b0 /\ fb_filters r = concat (map fb_filters (b0 :: l)) /\ (fb_same b0 = true -> fb_rate r = fb_rate b0).
Proof.
  intros NE W H. unfold append_filterbanks. destruct l as [|b1 l]; [congruence|]. rewrite checks_ok; auto; [|intros b [<-|I]; auto; now apply H]. cbn [bind]. rewrite extend_ok; auto.
  2:{ intros b I. destruct (H b I) as (A & B & C). auto. }
  eexists. split; [reflexivity|]. cbn [fb_same fb_rate fb_filters]. split; [|split; [reflexivity|split; [reflexivity|intros ->; reflexivity]]].
  unfold bank_wf in *. cbn [fb_same fb_rate fb_filters]. destruct (fb_same b0) eqn:S; cbn [rates_of].
  - destruct W as (x & X1 & X). exists x. split; auto. intros f I. apply in_app_or in I as [I|I]; auto. unfold all_filters in I. apply in_concat in I as (fs & F & I). apply in_map_iff in F as (b & <- & F).
    destruct (H b F) as (A & B & C). rewrite B in A. destruct A as (y & Y1 & Y). rewrite C, X1 in Y1. injection Y1 as <-. auto.
  - split; auto. destruct W as (N & _). destruct (fb_filters b0); [congruence|discriminate].
Qed.
Print Assumptions C116_filters.

Lemma all_ok_app {T} (a b : list (result T)) x y : all_ok a = Ok x -> all_ok b = Ok y -> all_ok (a ++ b) = Ok (x ++ y).
Proof.
  revert x. induction a as [|[v|e] a IH]; intros x A B; cbn in *.
  - now injection A as <-.
  - destruct (all_ok a) as [w|]; [|discriminate]. injection A as <-. rewrite (IH w) by auto. reflexivity.
  - discriminate.
Qed.
Lemma stored_fs c fs x s : set_time_data c fs x = Ok s -> s_fs s = fs.
Proof.
  unfold set_time_data. destruct (_ && _); [discriminate|]. destruct c; [|now intros [= <-]]. destruct (Rlt_dec _ _); [|now intros [= <-]]. destruct (i_int x); [discriminate|now intros [= <-]].
Qed.
Lemma filter_fs f s s' : filter_signal f None s = Ok s' -> s_fs s' = s_fs s.
Proof.
  unfold filter_signal, filter_channels, set_data. destruct (negb _); [discriminate|]. destruct (negb _); [discriminate|]. destruct (map Z.of_nat _); [discriminate|]. destruct (resolve_all _ _); [|discriminate].
  apply stored_fs.
Qed.
Lemma fold_err {X Y} (g : Y -> X -> result X) e l : fold_left (fun r f => bind r (g f)) l (Err e) = Err e.
Proof. induction l; cbn; auto. Qed.
Lemma run_fs fs : forall s s', fold_left (fun r f => bind r (filter_signal f None)) fs (Ok s) = Ok s' -> s_fs s' = s_fs s.
Proof.
  induction fs as [|f fs IH]; intros s s' E; cbn [fold_left bind] in E; [now injection E as <-|]. destruct (filter_signal f None s) as [y|e] eqn:Y.
  - rewrite (IH _ _ E). eapply filter_fs; eauto.
  - rewrite (fold_err (fun f => filter_signal f None)) in E. discriminate.
Qed.
(** A signal through the joined bank: in parallel the bands of all banks in order, in sequence one bank after the other. *)
Theorem C116_filtering b0 l r s : append_filterbanks (b0 :: l) = Ok r -> bank_wf b0 -> (forall b, In b l -> bank_wf b /\ fb_same b = true /\ fb_rate b = fb_rate b0) -> fb_same b0 = true ->
  (forall outs, Forall2 (fun b o => fb_parallel b s = Ok o) (b0 :: l) outs -> fb_parallel r s = Ok (concat outs)) /\
  fb_sequential r s = fold_left (fun acc b => bind acc (fb_sequential b)) (b0 :: l) (Ok s).
Proof.
  intros E W H S. assert (NE : l <> []) by (intros ->; discriminate). destruct (C116_filters b0 l NE W) as (r' & E' & _ & S' & F & R). { intros b I. destruct (H b I) as (A & B & C). rewrite S. auto. }
  rewrite E in E'. injection E' as <-. specialize (R S). rewrite S in S'.
  assert (HB : forall b, In b (b0 :: l) -> fb_same b = true /\ fb_rate b = fb_rate b0) by (intros b [<-|I]; [auto|]; destruct (H b I) as (_ & ?); auto).
  split.
  - intros outs P. unfold fb_parallel, fb_rate_ok. rewrite R, F. assert (OK : negb match fb_rate b0 with ROne r0 => (s_fs s =? r0)%Z | _ => false end = false).
    { inversion P as [|? o ? ? P0]; subst. unfold fb_parallel, fb_rate_ok in P0. destruct (negb _); [discriminate|reflexivity]. }
    rewrite OK. clear E F NE H. revert HB P. generalize (b0 :: l). intros bs. revert outs. induction bs as [|b bs IH]; intros outs HB P; inversion P as [|? o ? os P0 P1]; subst; auto.
    cbn [map concat]. rewrite map_app. apply all_ok_app; [|apply IH; auto; intros; apply HB; now right]. unfold fb_parallel in P0. destruct (negb (fb_rate_ok s b)); [discriminate|exact P0].
  - unfold fb_sequential at 1. unfold fb_rate_ok. rewrite S', R, F. cbn [negb]. destruct (negb match fb_rate b0 with ROne r0 => (s_fs s =? r0)%Z | _ => false end) eqn:OK.
    + cbn [fold_left bind]. unfold fb_sequential at 2. unfold fb_rate_ok. rewrite S. cbn [negb]. rewrite OK. now rewrite (fold_err fb_sequential).
    + clear E F NE H W. revert s OK HB. generalize (b0 :: l). intros bs. induction bs as [|b bs IH]; intros s OK HB; auto.
      cbn [map concat]. rewrite fold_left_app. cbn [fold_left bind]. destruct (HB b (or_introl eq_refl)) as (Sb & Rb).
      assert (X : fb_sequential b s = fold_left (fun r f => bind r (filter_signal f None)) (fb_filters b) (Ok s)). { unfold fb_sequential, fb_rate_ok. rewrite Sb, Rb. cbn [negb]. now rewrite OK. }
      rewrite <- X. destruct (fb_sequential b s) as [y|e] eqn:Y.
      * apply IH; [|intros; apply HB; now right]. symmetry in X. apply run_fs in X. now rewrite X.
      * now rewrite (fold_err (fun f => filter_signal f None)), (fold_err fb_sequential).
Qed.
Print Assumptions C116_filtering.

(** Anything else is refused, so filter banks of several rates only join with a bank of exactly the same list of rates. *)
Theorem C116_refused b0 b l : bank_wf b0 -> bank_wf b -> (fb_same b <> fb_same b0 \/ fb_rate b <> fb_rate b0) -> append_filterbanks (b0 :: b :: l) = Err AssertionError.
Proof.
  intros W Wb D. unfold append_filterbanks. cbn [check_banks]. rewrite check_ok by auto. cbn [bind]. unfold check_bank at 1. destruct (Bool.eqb (fb_same b) (fb_same b0)) eqn:S; auto. cbn [negb]. apply eqb_prop in S.
  destruct D as [D|D]; [congruence|]. pose proof (wf_set b Wb) as U. pose proof (wf_set b0 W) as U0. destruct (same_rates (fb_rate b) (fb_rate b0)) eqn:Q; [apply same_rates_eq in Q; auto; congruence|].
  destruct (fb_rate b), (fb_rate b0); try congruence; rewrite Q; reflexivity.
Qed.
Print Assumptions C116_refused.
Theorem C116_multirate_refuted f g l : length f <> length g -> f <> [] -> g <> [] ->
  let bank_of x := mkBank false (RMany (map f_fs x)) x in bank_wf (bank_of f) /\ bank_wf (bank_of g) /\ append_filterbanks (bank_of f :: bank_of g :: l) = Err AssertionError.
Proof.
  intros L F G bank_of. assert (A : bank_wf (bank_of f)) by (split; auto). assert (B : bank_wf (bank_of g)) by (split; auto). split; auto. split; auto. apply C116_refused; auto. right. intros E. injection E as E.
  apply (f_equal (@length _)) in E. rewrite !map_length in E. congruence.
Qed.
Print Assumptions C116_multirate_refuted.

(** A case: a bank of two filters and a bank of one filter at 48 kHz *)
Definition halve : filt := mkFilt 48000 (map (fun v => (v / 2)%R)).
Definition negate : filt := mkFilt 48000 (map Ropp).
Example C116_case : exists r, append_filterbanks [mkBank true (ROne 48000) [halve; negate]; mkBank true (ROne 48000) [halve]] = Ok r /\ fb_filters r = [halve; negate; halve] /\ fb_rate r = ROne 48000.
Proof.
  destruct (C116_filters (mkBank true (ROne 48000) [halve; negate]) [mkBank true (ROne 48000) [halve]]) as (r & E & _ & _ & F & R); try discriminate.
  - exists 48000%Z. split; auto. intros f [<-|[<-|[]]]; reflexivity.
  - intros b [<-|[]]. split; auto. exists 48000%Z. split; auto. intros f [<-|[]]; reflexivity.
  - exists r. split; auto. 
Qed.
