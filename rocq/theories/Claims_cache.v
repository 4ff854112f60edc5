(** Property C21: what the getters return is what a computation from the present data and parameters gives. *)
From Coq Require Import List Arith Lia ZArith Bool.
From Verif Require Import Alg Spec M_arrays M_cache.
Import ListNotations.

(** The specification: the same attributes without stored results; every getter computes. *)
Section SpecCache.
Context {T W Sc Re Q V C G : Type}.
Variable welch : T -> Z -> Re -> Sc -> V.
Variable fft : T -> Z -> option W -> Re -> Z -> Sc -> V.
Variable csm_welch : T -> Z -> Re -> Sc -> C.
Variable csm_fft : V -> Sc -> option W -> Z -> C.
Variable stft : T -> Z -> Q -> G.
Variable nch : T -> nat.
Variable backward : Sc.
Variable rest0 : Re.
Record vis := mkVis { v_data : T; v_fs : Z; v_win : option W; v_meth : meth; v_smooth : Z; v_rest : Re; v_scal : Sc; v_sg : Q }.
Definition spectrum_of (v : vis) : V :=
  match v_meth v with Welch => welch (v_data v) (v_fs v) (v_rest v) (v_scal v)
                    | Fft => fft (v_data v) (v_fs v) (v_win v) (v_rest v) (v_smooth v) (v_scal v) end.
Definition csm_of (v : vis) : C :=
  match v_meth v with Welch => csm_welch (v_data v) (v_fs v) (v_rest v) (v_scal v)
                    | Fft => csm_fft (fft (v_data v) (v_fs v) (v_win v) (v_rest v) (v_smooth v) backward) (v_scal v) (v_win v) (v_fs v) end.
Definition next (v : vis) (o : @op T W Sc Re Q) : vis :=
  let '(mkVis d fs w m z r s q) := v in
  match o with
  | SetData d' => mkVis d' fs None m z r s q
  | SetRate f => mkVis d f w m z r s q
  | SetParams p => mkVis d fs w (p_meth p) (p_smooth p) (p_rest p) (p_scal p) q
  | SetScaling x => mkVis d fs w m z r x q
  | SetMethod m' => mkVis d fs w m' z r s q
  | SetSmoothing z' => if (z' <? 0)%Z then v else mkVis d fs w m z' r s q
  | SetSgParams q' => mkVis d fs w m z r s q'
  | SetWindow w' => mkVis d fs (Some w') m z r s q
  | ClearWindow => mkVis d fs None m z r s q
  | EditInPlace d' => mkVis d' fs w m z r s q
  | SetCache _ | PlotMagnitude | PlotGroupDelay | GetSpectrum _ | GetCsm _ | GetSpectrogram _ => v
  end.
Definition answer (v : vis) (o : @op T W Sc Re Q) : @out V C G :=
  match o with
  | GetSpectrum _ => OSpec (spectrum_of v)
  | GetCsm _ => if nch (v_data v) <=? 1 then OErr else OCsm (csm_of v)
  | GetSpectrogram _ => OSg (stft (v_data v) (v_fs v) (v_sg v))
  | PlotMagnitude => OSpec (spectrum_of (mkVis (v_data v) (v_fs v) (v_win v) (v_meth v) 0 (v_rest v) (v_scal v) (v_sg v)))
  | PlotGroupDelay => OSpec (spectrum_of (mkVis (v_data v) (v_fs v) (v_win v) Fft 0 rest0 backward (v_sg v)))
  | SetSmoothing z => if (z <? 0)%Z then OErr else ODone
  | _ => ODone
  end.
Fixpoint answers (v : vis) (l : list op) : list out :=
  match l with [] => [] | o :: t => answer v o :: answers (next v o) t end.
(** Steps after which the getters are right in every situation. [cache] is the value of activate_cache. *)
Definition careful (sg : bool) (cache : bool) (v : vis) (o : @op T W Sc Re Q) : Prop :=
  match o with
  | SetSmoothing z => v_meth v = Welch \/ z = v_smooth v
  | SetWindow _ | ClearWindow => v_meth v = Welch
  | EditInPlace _ => False
  | PlotMagnitude => v_meth v = Welch \/ v_smooth v = 0%Z
  | PlotGroupDelay => cache = false \/ (v_meth v = Fft /\ v_smooth v = 0%Z /\ v_rest v = rest0 /\ v_scal v = backward)
  | GetSpectrogram _ => sg = true
  | SetCache _ => sg = false
  | _ => True
  end.
Fixpoint all_careful (sg cache : bool) (v : vis) (l : list op) : Prop :=
  match l with [] => True
  | o :: t => careful sg cache v o /\ all_careful sg (match o with SetCache b => b | _ => cache end) (next v o) t end.
End SpecCache.

Section Proof.
Context {T W Sc Re Q V C G : Type}.
Variable welch : T -> Z -> Re -> Sc -> V.
Variable fft : T -> Z -> option W -> Re -> Z -> Sc -> V.
Variable csm_welch : T -> Z -> Re -> Sc -> C.
Variable csm_fft : V -> Sc -> option W -> Z -> C.
Variable stft : T -> Z -> Q -> G.
Variable nch : T -> nat.
Variable backward : Sc.
Variable rest0 : Re.
Variable same_params : forall p q : @params Sc Re, {p = q} + {p <> q}.
Variable same_sg : forall p q : Q, {p = q} + {p <> q}.
Notation spectrum_of := (spectrum_of (W:=W) (Q:=Q) welch fft).
Notation csm_of := (csm_of (W:=W) (Q:=Q) fft csm_welch csm_fft backward).
Notation step := (step welch fft csm_welch csm_fft stft nch backward rest0 same_params same_sg).
Notation st := (@st T W Sc Re Q V C G).

Definition vis_of (s : st) : @vis T W Sc Re Q :=
  mkVis (t_data s) (t_fs s) (t_win s) (p_meth (t_par s)) (p_smooth (t_par s)) (p_rest (t_par s)) (p_scal (t_par s)) (t_sg s).
Definition inv (sg : bool) (s : st) : Prop :=
  (forall v, c_spec s = Some v -> u_spec s = false -> v = spectrum_of (vis_of s)) /\
  (forall c, c_csm s = Some c -> u_csm s = false -> c = csm_of (vis_of s)) /\
  (sg = true -> (forall g, c_sg s = Some g -> u_sg s = false -> g = stft (t_data s) (t_fs s) (t_sg s)) /\ (t_cache s = false -> c_sg s = None)).

Lemma compute_eq (s : st) : compute welch fft (t_data s) (t_fs s) (t_win s) (t_par s) = spectrum_of (vis_of s).
Proof. reflexivity. Qed.

Lemma get_spectrum_inv sg (s : st) f : inv sg s ->
  let r := get_spectrum welch fft f s in
  inv sg (fst r) /\ snd r = spectrum_of (vis_of s) /\
  t_data (fst r) = t_data s /\ t_fs (fst r) = t_fs s /\ t_win (fst r) = t_win s /\ t_par (fst r) = t_par s /\
  t_sg (fst r) = t_sg s /\ t_cache (fst r) = t_cache s /\ c_csm (fst r) = c_csm s /\ u_csm (fst r) = u_csm s /\
  c_sg (fst r) = c_sg s /\ u_sg (fst r) = u_sg s /\ (t_cache s = false -> fst r = s).
Proof.
  intros HI. pose proof HI as [I1 [I2 I3]]. unfold get_spectrum. destruct (c_spec s) as [v|] eqn:E.
  - destruct (u_spec s || f) eqn:U.
    + destruct (t_cache s) eqn:K; simpl.
      * split. { split; [|split]; simpl; auto. intros v' H _. now injection H as <-. }
        repeat split; auto. discriminate.
      * split; [exact HI|]. repeat split; auto.
    + apply orb_false_iff in U. destruct U as [U _]. cbn [fst snd]. split; [exact HI|].
      split. now apply I1. repeat split; auto.
  - destruct (t_cache s) eqn:K; simpl.
    + split. { split; [|split]; simpl; auto. intros v' H _. now injection H as <-. }
      repeat split; auto. discriminate.
    + split; [exact HI|]. repeat split; auto.
Qed.

Lemma step_inv sg (s : st) o : inv sg s -> careful backward rest0 sg (t_cache s) (vis_of s) o ->
  inv sg (fst (step s o)) /\ vis_of (fst (step s o)) = next (vis_of s) o /\
  snd (step s o) = answer welch fft csm_welch csm_fft stft nch backward rest0 (vis_of s) o /\
  t_cache (fst (step s o)) = match o with SetCache b => b | _ => t_cache s end.
Proof.
  intros HI HC. pose proof HI as [I1 [I2 I3]].
  assert (T3 : forall s' : st, t_data s' = t_data s -> t_fs s' = t_fs s -> t_sg s' = t_sg s -> t_cache s' = t_cache s -> c_sg s' = c_sg s -> u_sg s' = u_sg s ->
    (sg = true -> (forall g, c_sg s' = Some g -> u_sg s' = false -> g = stft (t_data s') (t_fs s') (t_sg s')) /\ (t_cache s' = false -> c_sg s' = None))).
  { intros s' E1 E2 E3 E4 E5 E6. rewrite E1, E2, E3, E4, E5, E6. exact I3. }
  destruct o as [d|fs|p|x|m|z|q|w| |b|d| | |f|f|f]; cbn [step careful] in *.
  - (* SetData *) split; [split; [|split]; simpl; try discriminate|split; [|split]; reflexivity].
    intros Hs. destruct (I3 Hs). split; auto. discriminate.
  - split; [split; [|split]; simpl; try discriminate|split; [|split]; reflexivity].
    intros Hs. destruct (I3 Hs). split; auto. discriminate.
  - unfold set_params. destruct (same_params (t_par s) p) as [E|E]; simpl.
    + split; auto. split; auto. unfold vis_of. now rewrite E.
    + split; [split; [|split]; simpl; try discriminate; auto|split; [|split]; reflexivity].
  - split; [split; [|split]; simpl; try discriminate; auto|split; [|split]; reflexivity].
  - split; [split; [|split]; simpl; try discriminate; auto|split; [|split]; reflexivity].
  - destruct (Z.ltb_spec z 0); cbn [fst snd].
    + split; auto. split. { simpl. destruct (Z.ltb_spec z 0); auto; lia. }
      split; auto. simpl. destruct (Z.ltb_spec z 0); auto; lia.
    + split; [split; [|split]|split; [|split; auto]]; simpl; try (destruct (Z.ltb_spec z 0); auto; lia); auto.
      * intros v E U. rewrite (I1 v E U). unfold spectrum_of, vis_of. simpl. destruct HC as [HC|HC]; simpl in HC.
        now rewrite HC. now rewrite HC.
      * intros v E U. rewrite (I2 v E U). unfold csm_of, vis_of. simpl. destruct HC as [HC|HC]; simpl in HC.
        now rewrite HC. now rewrite HC.
  - destruct (same_sg (t_sg s) q) as [E|E]; simpl.
    + split; auto. split; auto. unfold vis_of. now rewrite E.
    + split; [split; [|split]; simpl; auto|split; [|split]; reflexivity].
      intros Hs. destruct (I3 Hs). split; auto. discriminate.
  - simpl in HC. split; [split; [|split]; simpl; auto|split; [|split]; reflexivity].
    + intros v E U. rewrite (I1 v E U). unfold spectrum_of, vis_of. simpl. now rewrite HC.
    + intros v E U. rewrite (I2 v E U). unfold csm_of, vis_of. simpl. now rewrite HC.
  - simpl in HC. split; [split; [|split]; simpl; auto|split; [|split]; reflexivity].
    + intros v E U. rewrite (I1 v E U). unfold spectrum_of, vis_of. simpl. now rewrite HC.
    + intros v E U. rewrite (I2 v E U). unfold csm_of, vis_of. simpl. now rewrite HC.
  - split; [split; [|split]; simpl; auto|split; [|split]; reflexivity]. intros Hs. congruence.
  - destruct HC.
  - (* PlotMagnitude *)
    set (s0 := with_par (set_smooth 0 (t_par s)) (u_spec s) (u_csm s) s).
    assert (H0 : inv sg s0).
    { split; [|split]; simpl; auto.
      - intros v E U. rewrite (I1 v E U). unfold spectrum_of, vis_of. simpl in HC |- *. destruct HC as [->| ->]; auto.
      - intros v E U. rewrite (I2 v E U). unfold csm_of, vis_of. simpl in HC |- *. destruct HC as [->| ->]; auto. }
    destruct (get_spectrum_inv sg s0 false H0) as [J [E1 [E2 [E3 [E4 [E5 [E6 [E7 [E8 [E9 [E10 [E11 E12]]]]]]]]]]]].
    unfold M_cache.step. fold s0. destruct (get_spectrum welch fft false s0) as [s1 v]. cbn [fst snd] in *.
    assert (EV : vis_of (with_par (set_smooth (p_smooth (t_par s)) (t_par s1)) (u_spec s1) (u_csm s1) s1) = vis_of s).
    { unfold vis_of. simpl. rewrite E2, E3, E4, E5, E6. reflexivity. }
    split; [|split; [|split; [|simpl; now rewrite E7]]].
    + destruct J as [J1 [J2 J3]]. split; [|split]; simpl; auto.
      * intros v' E U. rewrite (J1 v' E U), EV. unfold spectrum_of, vis_of. simpl. rewrite E2, E3, E4, E5. simpl in HC |- *.
        destruct HC as [->| ->]; auto.
      * intros v' E U. rewrite (J2 v' E U), EV. unfold csm_of, vis_of. simpl. rewrite E2, E3, E4, E5. simpl in HC |- *.
        destruct HC as [->| ->]; auto.
    + rewrite EV. reflexivity.
    + rewrite E1. reflexivity.
  - (* PlotGroupDelay *)
    set (s0 := set_params same_params (gd_params backward rest0) s).
    assert (Ep : t_par s0 = gd_params backward rest0) by (unfold s0, set_params; destruct (same_params _ _); auto).
    assert (Ef : t_data s0 = t_data s /\ t_fs s0 = t_fs s /\ t_win s0 = t_win s /\ t_sg s0 = t_sg s /\ t_cache s0 = t_cache s).
    { unfold s0, set_params; destruct (same_params _ _); auto. }
    assert (H0 : inv sg s0).
    { unfold s0, set_params. destruct (same_params _ _); auto. split; [|split]; simpl; try discriminate; auto. }
    destruct (get_spectrum_inv sg s0 false H0) as [J [E1 [E2 [E3 [E4 [E5 [E6 [E7 [E8 [E9 [E10 [E11 E12]]]]]]]]]]]].
    unfold M_cache.step. fold s0. destruct (get_spectrum welch fft false s0) as [s1 v] eqn:EG. cbn [fst snd] in *.
    destruct Ef as [F1 [F2 [F3 [F4 F5]]]].
    assert (EV : vis_of (with_par (t_par s) (u_spec s1) (u_csm s1) s1) = vis_of s).
    { unfold vis_of. simpl. rewrite E2, E3, E4, E6, F1, F2, F3, F4. reflexivity. }
    split; [|split; [|split; [|simpl; now rewrite E7]]].
    + simpl in HC. destruct J as [J1 [J2 J3]]. destruct (same_params (t_par s) (gd_params backward rest0)) as [Es|Es].
      * assert (ES : s0 = s) by (unfold s0, set_params; destruct (same_params _ _); easy).
        rewrite <- E8, <- E9 in I2 || idtac.
        split; [|split]; simpl; auto.
        -- intros v' E U. rewrite (J1 v' E U), EV. f_equal. unfold vis_of. now rewrite E2, E3, E4, E5, E6, ES.
        -- intros v' E U. rewrite (J2 v' E U), EV. f_equal. unfold vis_of. now rewrite E2, E3, E4, E5, E6, ES.
      * destruct HC as [HC|[h1 [h2 [h3 h4]]]].
        -- rewrite E12 by congruence. unfold s0, set_params. destruct (same_params _ _); [easy|].
           split; [|split]; simpl; try discriminate; auto.
        -- exfalso. apply Es. destruct (t_par s) as [a1 a2 a3 a4]. simpl in *. unfold gd_params. congruence.
    + rewrite EV. reflexivity.
    + rewrite E1. unfold answer. f_equal. unfold spectrum_of, vis_of. simpl. rewrite Ep, F1, F2, F3. reflexivity.
  - (* GetSpectrum *)
    destruct (get_spectrum_inv sg s f HI) as [J [E1 [E2 [E3 [E4 [E5 [E6 [E7 _]]]]]]]].
    unfold M_cache.step. destruct (get_spectrum welch fft f s) as [s1 v]. cbn [fst snd] in *.
    split; auto. split. unfold vis_of. simpl. now rewrite E2, E3, E4, E5, E6. split; auto. simpl. now rewrite E1.
  - (* GetCsm *)
    unfold M_cache.step, get_csm. simpl answer. unfold vis_of at 3. cbn [v_data].
    destruct (nch (t_data s) <=? 1); [cbn [fst snd]; split; auto|].
    assert (FR : forall s' : st, forall c, inv sg s' -> vis_of s' = vis_of s -> t_cache s' = t_cache s -> c = csm_of (vis_of s) ->
      let s2 := if t_cache s' then mkSt (t_data s') (t_fs s') (t_win s') (t_par s') (t_sg s') (t_cache s') (c_spec s') (Some c) (c_sg s') (u_spec s') false (u_sg s') else s' in
      inv sg s2 /\ vis_of s2 = vis_of s /\ OCsm c = @OCsm V C G (csm_of (vis_of s)) /\ t_cache s2 = t_cache s).
    { intros s' c HJ Hv Hk Hc. pose proof HJ as [J1 [J2 J3]]. cbv zeta. destruct (t_cache s') eqn:K.
      - split; [|split; [|split]]; simpl; auto; try congruence. split; [|split]; simpl; auto.
        intros c' E _. injection E as <-. rewrite Hc, <- Hv. reflexivity.
      - split; [exact HJ|]. split; [|split]; auto; congruence. }
    assert (FS : forall r : st * @out V C G, r = (match p_meth (t_par s) return st * @out V C G with
       | Welch => let c := csm_welch (t_data s) (t_fs s) (p_rest (t_par s)) (p_scal (t_par s)) in
           (if t_cache s then mkSt (t_data s) (t_fs s) (t_win s) (t_par s) (t_sg s) (t_cache s) (c_spec s) (Some c) (c_sg s) (u_spec s) false (u_sg s) else s, OCsm c)
       | Fft => let (s1, sp) := get_spectrum welch fft false (scaling_setter backward s) in
           let c := csm_fft sp (p_scal (t_par s)) (t_win s1) (t_fs s1) in
           let s' := scaling_setter (p_scal (t_par s)) s1 in
           (if t_cache s' then mkSt (t_data s') (t_fs s') (t_win s') (t_par s') (t_sg s') (t_cache s') (c_spec s') (Some c) (c_sg s') (u_spec s') false (u_sg s') else s', OCsm c)
       end) -> inv sg (fst r) /\ vis_of (fst r) = vis_of s /\ snd r = OCsm (csm_of (vis_of s)) /\ t_cache (fst r) = t_cache s).
    { intros r ->. destruct (p_meth (t_par s)) eqn:M.
      - cbv zeta. apply (FR s); auto. unfold csm_of, vis_of. simpl. now rewrite M.
      - set (s0 := scaling_setter backward s).
        assert (H0 : inv sg s0). { split; [|split]; simpl; try discriminate; auto. }
        destruct (get_spectrum_inv sg s0 false H0) as [J [E1 [E2 [E3 [E4 [E5 [E6 [E7 [E8 [E9 [E10 [E11 E12]]]]]]]]]]]].
        destruct (get_spectrum welch fft false s0) as [s1 sp]. cbn [fst snd] in *. cbv zeta.
        apply (FR (scaling_setter (p_scal (t_par s)) s1)).
        + destruct J as [J1 [J2 J3]]. split; [|split]; simpl; try discriminate; auto.
        + unfold vis_of. simpl. rewrite E2, E3, E4, E5, E6. reflexivity.
        + simpl. rewrite E7. reflexivity.
        + rewrite E1, E3, E4. unfold csm_of, vis_of, spectrum_of. simpl. rewrite M. reflexivity. }
    destruct (c_csm s) as [c|] eqn:EC.
    + destruct (f || u_csm s) eqn:U.
      * now apply FS.
      * apply orb_false_iff in U. destruct U. cbn [fst snd]. split; auto. split; auto. split; auto. now rewrite (I2 c eq_refl).
    + now apply FS.
  - (* GetSpectrogram *)
    simpl in HC. unfold M_cache.step, get_sg. destruct (I3 HC) as [K1 K2].
    destruct (c_sg s) as [g0|] eqn:EG.
    + destruct (f || u_sg s) eqn:U; simpl.
      * split; [|split; [|split]]; auto. split; [|split]; simpl; auto. intros _. split.
        -- intros g E _. destruct (t_cache s) eqn:Kc. now injection E as <-. specialize (K2 eq_refl). congruence.
        -- intros E. rewrite E. specialize (K2 E). congruence.
      * apply orb_false_iff in U. destruct U. split; auto. split; auto. split; auto. now rewrite (K1 g0 eq_refl).
    + simpl. split; [|split; [|split]]; auto. split; [|split]; simpl; auto. intros _. split.
      * intros g E _. destruct (t_cache s) eqn:Kc. now injection E as <-. discriminate.
      * intros E. rewrite E. auto.
Qed.

Lemma run_inv sg : forall l (s : st), inv sg s -> all_careful backward rest0 sg (t_cache s) (vis_of s) l ->
  run welch fft csm_welch csm_fft stft nch backward rest0 same_params same_sg s l
  = answers welch fft csm_welch csm_fft stft nch backward rest0 (vis_of s) l.
Proof.
  induction l as [|o t IH]; intros s HI HC; auto. destruct HC as [HC HC'].
  destruct (step_inv sg s o HI HC) as [J1 [J2 [J3 J4]]]. cbn [run answers].
  destruct (step s o) as [s1 x]. cbn [fst snd] in *. rewrite J3, <- J2. f_equal. apply IH; auto.
  rewrite J4, J2. exact HC'.
Qed.
End Proof.

(** Every sequence of careful calls on a new signal, with caching on, off or switched: each answer equals the one
    computed from the present data and parameters. sg = true: spectrograms are asked for and the attribute
    activate_cache keeps its value. sg = false: no spectrograms, activate_cache may change at any time. *)
Theorem C21_getters_are_fresh :
  forall (T W Sc Re Q V C G : Type) welch fft csm_welch csm_fft stft nch (backward : Sc) (rest0 : Re)
    (same_params : forall p q : params, {p = q} + {p <> q}) (same_sg : forall p q : Q, {p = q} + {p <> q})
    (sg cache : bool) (d : T) (fs : Z) (p : params) (q : Q) (ops : list (@op T W Sc Re Q)),
  let v := mkVis d fs None (p_meth p) (p_smooth p) (p_rest p) (p_scal p) q in
  all_careful backward rest0 sg cache v ops ->
  run (V:=V) (C:=C) (G:=G) welch fft csm_welch csm_fft stft nch backward rest0 same_params same_sg (fresh d fs p q cache) ops
  = answers welch fft csm_welch csm_fft stft nch backward rest0 v ops.
Proof.
  intros. apply (run_inv _ _ _ _ _ _ _ _ _ _ sg); auto. split; [|split]; simpl; try discriminate. intros; split; auto; discriminate.
Qed.
Print Assumptions C21_getters_are_fresh.

(** A copy with new data starts with nothing stored and the old parameters. *)
Theorem C21_copy_is_fresh :
  forall (T W Sc Re Q V C G : Type) welch fft csm_welch csm_fft stft nch (backward : Sc) (rest0 : Re)
    (same_params : forall p q : params, {p = q} + {p <> q}) (same_sg : forall p q : Q, {p = q} + {p <> q})
    (s : @st T W Sc Re Q V C G) (d : T) (f : bool),
  run welch fft csm_welch csm_fft stft nch backward rest0 same_params same_sg (copy_with d s) [GetSpectrum f; GetCsm f; GetSpectrogram f]
  = answers welch fft csm_welch csm_fft stft nch backward rest0
      (mkVis d (t_fs s) None (p_meth (t_par s)) (p_smooth (t_par s)) (p_rest (t_par s)) (p_scal (t_par s)) (t_sg s))
      [GetSpectrum f; GetCsm f; GetSpectrogram f].
Proof. intros. apply (C21_getters_are_fresh T W Sc Re Q V C G) with (sg := true). simpl. auto. Qed.
Print Assumptions C21_copy_is_fresh.

(** A toy instance: the "spectrum" is the list of everything it was computed from. *)
Definition tv := (list Z * option Z)%type.
Definition t_welch (d fs r s : Z) : tv := ([d; fs; r; s], None).
Definition t_fft (d fs : Z) (w : option Z) (r z s : Z) : tv := ([d; fs; r; z; s], w).
Definition t_csmw (d fs r s : Z) : tv * Z := (([d; fs; r; s], None), 0%Z).
Definition t_csmf (v : tv) (s : Z) (w : option Z) (fs : Z) : tv * Z := (v, s).
Definition t_stft (d fs q : Z) : list Z := [d; fs; q].
Definition t_same (p q : @params Z Z) : {p = q} + {p <> q}.
Proof. repeat decide equality. Defined.
Definition t_run := run t_welch t_fft t_csmw t_csmf t_stft (fun _ => 2%nat) 0%Z 0%Z t_same Z.eq_dec.
Definition t_ans := answers t_welch t_fft t_csmw t_csmf t_stft (fun _ => 2%nat) 0%Z 0%Z.
Definition t_vis (d fs : Z) (p : @params Z Z) (q : Z) := mkVis (W:=Z) d fs None (p_meth p) (p_smooth p) (p_rest p) (p_scal p) q.

(** The cases left out above do give stale answers. *)
Theorem C21_smoothing_setter_refuted :
  exists d fs p q ops, ops = [GetSpectrum false; SetSmoothing 3; GetSpectrum false] /\
  t_run (fresh d fs p q true) ops <> t_ans (t_vis d fs p q) ops.
Proof. exists 1%Z, 48000%Z, (mkP Fft 0 0 0)%Z, 0%Z. eexists. split; [reflexivity|]. vm_compute. intros H. discriminate H. Qed.
Print Assumptions C21_smoothing_setter_refuted.
Theorem C21_plot_magnitude_refuted :
  exists d fs p q ops, ops = [PlotMagnitude; GetSpectrum false] /\
  t_run (fresh d fs p q true) ops <> t_ans (t_vis d fs p q) ops.
Proof. exists 1%Z, 48000%Z, (mkP Fft 3 0 0)%Z, 0%Z. eexists. split; [reflexivity|]. vm_compute. intros H. discriminate H. Qed.
Print Assumptions C21_plot_magnitude_refuted.
(** With the default parameters (Welch) plot_group_delay leaves an FFT spectrum behind. *)
Theorem C21_plot_group_delay_refuted :
  exists d fs p q ops, p_meth p = Welch /\ ops = [PlotGroupDelay; GetSpectrum false] /\
  t_run (fresh d fs p q true) ops <> t_ans (t_vis d fs p q) ops.
Proof. exists 1%Z, 48000%Z, (mkP Welch 0 0 0)%Z, 0%Z. eexists. split; [reflexivity|]. split; [reflexivity|]. vm_compute. intros H. discriminate H. Qed.
Print Assumptions C21_plot_group_delay_refuted.
Theorem C21_window_refuted :
  exists d fs p q ops, ops = [GetSpectrum false; SetWindow 5%Z; GetSpectrum false] /\
  t_run (fresh d fs p q true) ops <> t_ans (t_vis d fs p q) ops.
Proof. exists 1%Z, 48000%Z, (mkP Fft 0 0 0)%Z, 0%Z. eexists. split; [reflexivity|]. vm_compute. intros H. discriminate H. Qed.
Print Assumptions C21_window_refuted.
(** Switching the cache off does not stop the old spectrogram from being returned. *)
Theorem C21_spectrogram_cache_switch_refuted :
  exists d d' fs p q ops, ops = [GetSpectrogram false; SetCache false; SetData d'; GetSpectrogram false; GetSpectrogram false] /\
  t_run (fresh d fs p q true) ops <> t_ans (t_vis d fs p q) ops /\
  last (t_run (fresh d fs p q true) ops) ODone = OSg (t_stft d fs q).
Proof.
  exists 1%Z, 2%Z, 48000%Z, (mkP Fft 0 0 0)%Z, 0%Z. eexists. split; [reflexivity|]. split. vm_compute. intros H. discriminate H. reflexivity.
Qed.
Print Assumptions C21_spectrogram_cache_switch_refuted.
Theorem C21_edit_in_place_refuted :
  exists d d' fs p q ops, ops = [GetSpectrum false; EditInPlace d'; GetSpectrum false] /\
  t_run (fresh d fs p q true) ops <> t_ans (t_vis d fs p q) ops.
Proof. exists 1%Z, 2%Z, 48000%Z, (mkP Welch 0 0 0)%Z, 0%Z. eexists. split; [reflexivity|]. vm_compute. intros H. discriminate H. Qed.
Print Assumptions C21_edit_in_place_refuted.

Example C21_example :
  let ops := [GetSpectrum false; GetSpectrum false; SetData 7; GetSpectrum false; SetScaling 4; GetCsm false; GetSpectrum false;
              GetSpectrogram false; SetRate 44100; GetSpectrogram false; PlotMagnitude; SetMethod Welch; SetSmoothing 2; GetSpectrum false]%Z in
  let p := (mkP Fft 0 5 6)%Z in
  all_careful 0%Z 0%Z true true (t_vis 1 48000 p 9) ops /\
  nth 5 (t_run (fresh 1 48000 p 9 true)%Z ops) ODone = OCsm (([7;48000;5;0;0], None), 4)%Z.
Proof. vm_compute. intuition. Qed.
