(** Property C115: joining the channels of several spectra. *)
From Coq Require Import List Arith Lia Bool Reals Lra Psatz.
From Verif Require Import Alg Spec M_arrays M_signal M_spectrum P_spectrum Claims_spectrum Claims_spectrum2 M_coeffs M_append.
Import ListNotations.
Local Open Scope R_scope.

(** ** Specification *)
(** all channels, in the order of the spectra *)
Definition channels (l : list spectrum) : list (list cplx) := concat (map sp_d l).
Definition joinable (f : list R) (s : spectrum) : Prop :=
  sp_wf s /\ (sp_edge s = ZeroPad \/ sp_edge s = OnePad \/ length (sp_d s) = 1%nat) /\ (sp_edge s = EdgeError -> forall x, In x f -> in_range (sp_f s) x).

(** ** Proofs *)
Lemma results_map {X Y} (g : X -> result Y) h l : (forall x, In x l -> g x = Ok (h x)) -> results (map g l) = Ok (map h l).
Proof. induction l as [|x l IH]; intros H; auto. cbn. rewrite H by now left. cbn. rewrite IH; auto. intros. apply H. now right. Qed.
Lemma np_interp_nonneg f y l r x : asc f -> length y = length f -> f <> [] -> (forall v, In v y -> 0 <= v) -> 0 <= l -> 0 <= r -> 0 <= np_interp f y l r x.
Proof.
  intros A L NE P Hl Hr. destruct (Rlt_dec x (nth 0 f 0)) as [Q|Q]; [unfold np_interp; destruct (Rlt_dec _ _); [auto|lra]|].
  destruct (Rlt_dec (last f 0) x) as [Q'|Q']; [unfold np_interp; destruct (Rlt_dec _ _); [auto|]; destruct (Rlt_dec _ _); [auto|lra]|].
  assert (I : in_range f x) by (rewrite last_nth in Q'; split; lra). pose proof (np_interp_in f y l r x A L NE I) as PG.
  destruct (polygon_between f y x _ A PG) as (i & j & Hi & Hj & _ & _ & B & _). assert (0 <= nth i y 0) by (apply P, nth_In; lia). assert (0 <= nth j y 0) by (apply P, nth_In; lia).
  unfold Rmin in B. destruct (Rle_dec _ _); lra.
Qed.
Lemma magnitude_nonneg s col x : sp_wf s -> In col (sp_d s) -> 0 <= fst (convert_out (sp_dom s) OMagnitude (interp_col s col x)).
Proof.
  intros W I. pose proof (wf_f s W) as NE. destruct W as (A & _ & _ & _ & U & _). pose proof (U _ I) as L. unfold convert_out. destruct (sp_dom s) eqn:D; cbn [fst]; try apply sqrt_pos.
  unfold interp_col. rewrite D. set (re := map (idata DMagnitude) col). assert (P : forall v, In v re -> 0 <= v) by (intros v V; apply in_map_iff in V as (z & <- & _); apply sqrt_pos).
  assert (LR : length re = length (sp_f s)) by (unfold re; now rewrite map_length). assert (0 < length re)%nat by (rewrite LR; destruct (sp_f s); [congruence|cbn; lia]).
  destruct (edge_values (sp_edge s) re) as [l r] eqn:E. cbn [fst]. apply np_interp_nonneg; auto.
  - unfold edge_values in E. destruct (sp_edge s); injection E as <- <-; try lra; apply P, nth_In; lia.
  - unfold edge_values in E. destruct (sp_edge s); injection E as <- <-; try lra; rewrite last_nth; apply P, nth_In; lia.
Qed.
Lemma nth_concat_mid {T} (a : list (list T)) b c i d : (i < length b)%nat -> nth (length (concat a) + i) (concat (a ++ b :: c)) d = nth i b d.
Proof. intros I. rewrite concat_app. cbn [concat]. rewrite app_nth2 by lia. replace (length (concat a) + i - length (concat a))%nat with i by lia. now apply app_nth1. Qed.
Definition joined (o : otype) (f : list R) (s : spectrum) : list (list cplx) := map (fun col => map (fun x => convert_out (sp_dom s) o (interp_col s col x)) f) (sp_d s).
Lemma joined_length o f l : length (concat (map (joined o f) l)) = length (channels l).
Proof. unfold channels. induction l; auto. cbn. rewrite !app_length, IHl. f_equal. apply map_length. Qed.
Lemma append_eq (c : bool) s0 l : l <> [] -> (forall s, In s (s0 :: l) -> joinable (sp_f s0) s) -> let ca := c && negb (sp_mag s0) in
  (ca = true -> forall s, In s l -> sp_mag s = false) -> (length (channels (s0 :: l)) <= length (sp_f s0))%nat ->
  append_spectra c (s0 :: l) = Ok (mkSp (sp_f s0) (negb ca) (concat (map (joined (if ca then OComplex else OMagnitude) (sp_f s0)) (s0 :: l))) None DPower ZeroPad).
Proof.
  intros NE J ca C L. unfold append_spectra. destruct l as [|s1 l]; [congruence|]. fold ca. set (all := s0 :: s1 :: l) in *.
  assert (M : forall s, In s all -> ca = true -> sp_mag s = false). { intros s [<-|I] Q; [|now apply C]. unfold ca in Q. apply andb_true_iff in Q as [_ Q]. now apply negb_true_iff in Q. }
  replace (ca && existsb sp_mag all) with false. 2:{ destruct ca eqn:Q; auto. symmetry. apply not_true_iff_false. intros E. apply existsb_exists in E as (s & I & E). rewrite M in E; congruence. }
  rewrite (results_map _ (joined (if ca then OComplex else OMagnitude) (sp_f s0))).
  - cbn [bind]. destruct (J s0 (or_introl eq_refl)) as ((A & N & D & LD & U & _) & _). apply new_ok; auto.
    + intros E. apply (f_equal (@length _)) in E. rewrite joined_length in E. unfold channels, all in E. cbn [map concat] in E. rewrite app_length in E. destruct (sp_d s0); [congruence|cbn in E; lia].
    + now rewrite joined_length.
    + intros col I. apply in_concat in I as (b & B & I). apply in_map_iff in B as (s & <- & _). unfold joined in I. apply in_map_iff in I as (col' & <- & _). apply map_length.
    + intros Q col z I Z. apply in_concat in I as (b & B & I). apply in_map_iff in B as (s & <- & S). unfold joined in I. apply in_map_iff in I as (col' & <- & I). apply in_map_iff in Z as (x & <- & _).
      destruct ca; [discriminate|]. apply magnitude_nonneg; auto. apply (J s S).
  - intros s I. destruct (J s I) as (W & E & R). apply get_interp_ok; auto; [|now apply wf_f]. intros Q. destruct ca eqn:H; [|discriminate]. rewrite (M s I eq_refl) in Q. discriminate.
Qed.

(** The result has the frequencies of the first spectrum and the channels of all spectra in their order, each as its own interpolation gives it. *)
Theorem C115_channels (c : bool) s0 l : l <> [] -> (forall s, In s (s0 :: l) -> joinable (sp_f s0) s) -> let ca := c && negb (sp_mag s0) in
  (ca = true -> forall s, In s l -> sp_mag s = false) -> (length (channels (s0 :: l)) <= length (sp_f s0))%nat ->
  exists r, append_spectra c (s0 :: l) = Ok r /\ sp_f r = sp_f s0 /\ sp_mag r = negb ca /\ length (sp_d r) = length (channels (s0 :: l)) /\
    forall pre s post, s0 :: l = pre ++ s :: post -> exists out, get_interp s (sp_f s0) (if ca then OComplex else OMagnitude) = Ok out /\ length out = length (sp_d s) /\
      forall k, (k < length out)%nat -> nth (length (channels pre) + k) (sp_d r) [] = nth k out [].
Proof.
  intros NE J ca C L. eexists. split; [now apply append_eq|]. cbn [sp_f sp_mag sp_d]. split; auto. split; auto. split; [apply joined_length|]. intros pre s post E.
  assert (I : In s (s0 :: l)) by (rewrite E; apply in_elt). destruct (J s I) as (W & Ed & R). fold ca. eexists. split.
  - apply get_interp_ok; auto; [|now apply wf_f]. intros Q. destruct ca eqn:H; [|discriminate]. destruct I as [<-|I]; [|rewrite (C eq_refl s I) in Q; discriminate].
    unfold ca in H. apply andb_true_iff in H as [_ H]. rewrite Q in H. discriminate.
  - split; [apply map_length|]. intros k K. rewrite E, map_app. cbn [map]. set (o := if ca then OComplex else OMagnitude) in *. rewrite <- (joined_length o (sp_f s0) pre). now apply nth_concat_mid.
Qed.
Print Assumptions C115_channels.

Lemma joined_same o s (g : cplx -> cplx) : sp_wf s -> (forall c j, (c < length (sp_d s))%nat -> (j < length (sp_f s))%nat ->
  convert_out (sp_dom s) o (interp_col s (nth c (sp_d s) []) (nth j (sp_f s) 0)) = g (nth j (nth c (sp_d s) []) c0)) -> joined o (sp_f s) s = map (map g) (sp_d s).
Proof.
  intros (_ & _ & _ & _ & U & _) H. unfold joined. apply list_eq_nth with (d := []); [now rewrite !map_length|]. intros c C. rewrite map_length in C. rewrite !(nth_map' _ _ _ [] []) by auto. pose proof (U _ (nth_In _ [] C)) as LC.
  apply list_eq_nth with (d := c0); [now rewrite !map_length|]. intros j Jj. rewrite map_length in Jj. rewrite (nth_map' _ _ _ 0 c0), (nth_map' _ _ _ c0 c0) by lia. now apply H.
Qed.
Lemma on_grid s j c : sp_wf s -> (c < length (sp_d s))%nat -> (j < length (sp_f s))%nat -> let z := nth j (nth c (sp_d s) []) c0 in
  interp_col s (nth c (sp_d s) []) (nth j (sp_f s) 0) = match sp_dom s with DPower => (cabs_sq z, 0) | DMagnitude => (cabsv z, 0) | DComplex => z end.
Proof.
  intros W C J z. pose proof W as (A & N & D & LD & U & M). pose proof (U _ (nth_In _ [] C)) as L. assert (I : in_range (sp_f s) (nth j (sp_f s) 0)) by (split; apply asc_le; auto; lia).
  destruct (interp_col_in s c _ W C I) as (P1 & P2 & P3). set (col := nth c (sp_d s) []) in *. set (w := interp_col s col (nth j (sp_f s) 0)) in *.
  assert (G : forall g v, polygon (sp_f s) (map g col) (nth j (sp_f s) 0) v -> v = g z).
  { intros g v P. eapply polygon_unique; eauto. replace (g z) with (nth j (map g col) 0); [now apply polygon_grid|]. rewrite (nth_map' _ _ _ c0 0) by lia. reflexivity. }
  apply G in P1. destruct w as [a b]. cbn [fst snd] in *. destruct (sp_dom s) eqn:E; cbn [idata] in P1; try (rewrite P3 by discriminate; now subst a).
  specialize (P2 eq_refl). apply G in P2. subst. now destruct z.
Qed.
(** Spectra over the same frequencies: the magnitudes of all values, or with the domain Complex the values themselves. *)
Theorem C115_same_frequencies (c : bool) s0 l : l <> [] -> (forall s, In s (s0 :: l) -> joinable (sp_f s0) s /\ sp_f s = sp_f s0) -> (length (channels (s0 :: l)) <= length (sp_f s0))%nat ->
  (c && negb (sp_mag s0) = false -> exists r, append_spectra c (s0 :: l) = Ok r /\ sp_f r = sp_f s0 /\ sp_mag r = true /\ sp_d r = map (map (fun z => (sqrt (fst z * fst z + snd z * snd z), 0))) (channels (s0 :: l))) /\
  (c = true -> (forall s, In s (s0 :: l) -> sp_mag s = false /\ sp_dom s = DComplex) -> exists r, append_spectra c (s0 :: l) = Ok r /\ sp_f r = sp_f s0 /\ sp_mag r = false /\ sp_d r = channels (s0 :: l)).
Proof.
  intros NE J L. split.
  - intros Q. rewrite append_eq; auto; [|intros; now apply J|intros E; congruence]. rewrite Q. eexists. split; [reflexivity|]. split; auto. split; auto. cbn [sp_d].
    unfold channels. rewrite concat_map, map_map. f_equal. apply map_ext_in. intros s I. destruct (J s I) as ((W & _) & E). rewrite <- E. apply joined_same; auto. intros k j K Jj. rewrite on_grid by auto.
    set (z := nth j (nth k (sp_d s) []) c0). assert (0 <= cabs_sq z) by (unfold cabs_sq; nra). destruct (sp_dom s); reflexivity.
  - intros -> M. rewrite append_eq; auto; [|intros; now apply J|intros; apply M; now right]. destruct (M s0 (or_introl eq_refl)) as (M0 & _). rewrite M0. cbn [negb andb]. eexists. split; [reflexivity|]. split; auto. split; auto. cbn [sp_d].
    unfold channels. f_equal. apply map_ext_in. intros s I. destruct (J s I) as ((W & _) & E). destruct (M s I) as (_ & DC). rewrite <- E. rewrite (joined_same OComplex s (fun z => z)); auto.
    + rewrite (map_ext _ (fun x => x)); [apply map_id|]. intros; apply map_id.
    + intros k j K Jj. rewrite on_grid by auto. now rewrite DC.
Qed.
Print Assumptions C115_same_frequencies.

(** With the default settings, complex spectra are joined as a complex spectrum of their powers: phases are lost and magnitudes are squared. *)
Theorem C115_complex_refuted s0 l : l <> [] -> (forall s, In s (s0 :: l) -> joinable (sp_f s0) s /\ sp_f s = sp_f s0 /\ sp_mag s = false /\ sp_dom s = DPower) -> (length (channels (s0 :: l)) <= length (sp_f s0))%nat ->
  exists r, append_spectra true (s0 :: l) = Ok r /\ sp_mag r = false /\ sp_d r = map (map (fun z => (fst z * fst z + snd z * snd z, 0))) (channels (s0 :: l)).
Proof.
  intros NE J L. rewrite append_eq; auto; [|intros; now apply J|intros _ s I; apply (J s (or_intror I))]. destruct (J s0 (or_introl eq_refl)) as (_ & _ & M0 & _). rewrite M0. cbn [negb andb]. eexists. split; [reflexivity|]. split; auto. cbn [sp_d].
  unfold channels. rewrite concat_map, map_map. f_equal. apply map_ext_in. intros s I. destruct (J s I) as ((W & _) & E & _ & DP). rewrite <- E. apply joined_same; auto. intros k j K Jj. rewrite on_grid by auto. now rewrite DP.
Qed.
Print Assumptions C115_complex_refuted.

(** Fewer than two spectra, a magnitude among complex ones, and more channels than frequencies are refused. *)
Theorem C115_refused (c : bool) s0 l : (l = [] \/ (c = true /\ sp_mag s0 = false /\ exists s, In s l /\ sp_mag s = true) \/
    ((forall s, In s (s0 :: l) -> joinable (sp_f s0) s) /\ (c = true -> sp_mag s0 = false -> forall s, In s l -> sp_mag s = false) /\ (length (sp_f s0) < length (channels (s0 :: l)))%nat)) ->
  append_spectra c (s0 :: l) = Err AssertionError.
Proof.
  intros [->|[(-> & M & s & I & E)|(J & C & L)]]; auto.
  - unfold append_spectra. destruct l as [|s1 l]; auto. rewrite M. cbn [negb andb]. replace (existsb sp_mag (s0 :: s1 :: l)) with true; auto. symmetry. apply existsb_exists. exists s. split; auto. now right.
  - unfold append_spectra. destruct l as [|s1 l]; auto. set (all := s0 :: s1 :: l) in *. set (ca := c && negb (sp_mag s0)). destruct (ca && existsb sp_mag all); auto.
    assert (M : forall s, In s all -> ca = true -> sp_mag s = false). { intros s [<-|I] Q; unfold ca in Q; apply andb_true_iff in Q as [Q1 Q2]; apply negb_true_iff in Q2; auto. }
    rewrite (results_map _ (joined (if ca then OComplex else OMagnitude) (sp_f s0))).
    2:{ intros s I. destruct (J s I) as (W & E & R). apply get_interp_ok; auto; [|now apply wf_f]. intros Q. destruct ca eqn:H; [|discriminate]. rewrite (M s I eq_refl) in Q. discriminate. }
    cbn [bind]. destruct (J s0 (or_introl eq_refl)) as (W & _). pose proof (wf_f s0 W) as NF. destruct W as (A & N & D & LD & U & _). unfold new_spectrum. rewrite set_freqs_ok by auto.
    set (d := concat (map (joined _ _) all)). assert (LL : length d = length (channels all)) by apply joined_length.
    destruct (set_sdata_short (with_f (mkSp [] true [] None DPower ZeroPad) (sp_f s0)) (negb ca) d) as [X|X]; cbn [sp_f with_f] in *.
    + intros Q. rewrite <- LL, Q in L. cbn [length] in L. lia.
    + intros col I. apply in_concat in I as (b & B & I). apply in_map_iff in B as (s & <- & _). unfold joined in I. apply in_map_iff in I as (col' & <- & _). apply map_length.
    + now rewrite LL.
    + now rewrite X.
    + destruct (sp_f s0); [congruence|discriminate].
Qed.
Print Assumptions C115_refused.

(** A case: two complex spectra of one channel over 0 Hz and 1 Hz *)
Example C115_case : joinable (sp_f (ex_cs DPower ZeroPad)) (ex_cs DPower ZeroPad) /\
  exists r, append_spectra true [ex_cs DPower ZeroPad; ex_cs DPower ZeroPad] = Ok r /\ sp_d r = [[(4, 0); (9, 0)]; [(4, 0); (9, 0)]].
Proof.
  assert (J : joinable (sp_f (ex_cs DPower ZeroPad)) (ex_cs DPower ZeroPad)) by (split; [apply ex_cs_wf|split; [auto|discriminate]]). split; auto.
  destruct (C115_complex_refuted (ex_cs DPower ZeroPad) [ex_cs DPower ZeroPad]) as (r & E & _ & D); try discriminate.
  - intros s [<-|[<-|[]]]; auto.
  - cbn. lia.
  - exists r. split; auto. rewrite D. cbn. repeat f_equal; ring.
Qed.
Example C115_case_complex : exists r, append_spectra true [ex_cs DComplex ZeroPad; ex_cs DComplex ZeroPad] = Ok r /\ sp_d r = [[(0, 2); (3, 0)]; [(0, 2); (3, 0)]].
Proof.
  destruct (C115_same_frequencies true (ex_cs DComplex ZeroPad) [ex_cs DComplex ZeroPad]) as (_ & H); try discriminate.
  - intros s [<-|[<-|[]]]; (split; [split; [apply ex_cs_wf|split; [auto|discriminate]]|reflexivity]).
  - cbn. lia.
  - destruct H as (r & E & _ & _ & D); auto. intros s [<-|[<-|[]]]; auto. exists r. split; auto.
Qed.
