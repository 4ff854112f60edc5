(** Property C113: paths of saved objects, saving and loading. *)
From Coq Require Import Ascii String List Arith Lia Bool.
From Verif Require Import Alg M_saving.
Import ListNotations.

(** ** Specification *)
(** the file name behind the last slash *)
Definition file_name (p n : path) : Prop := ~ In slash n /\ (p = n \/ exists d, p = d ++ slash :: n).
(** the extension behind the last dot of a name *)
Definition extension (n e : path) : Prop := ~ In dot e /\ exists a, n = a ++ dot :: e.
Definition plain (fmt : path) : Prop := ~ In dot fmt /\ ~ In slash fmt.
(** the file an object is kept in: the path itself, or the path with the extension added when its name has no dot *)
Inductive kept_in (fmt p : path) : path -> Prop :=
| kept_same n : file_name p n -> extension n fmt -> kept_in fmt p p
| kept_added n : file_name p n -> ~ In dot n -> kept_in fmt p (p ++ dot :: fmt).

(** ** Splitting *)
Lemma split_nonnil c l : split_on c l <> [].
Proof. destruct l as [|a l]; cbn; [discriminate|]. destruct (Ascii.eqb a c); [discriminate|]. destruct (split_on c l); discriminate. Qed.
Lemma split_none c l : ~ In c l -> split_on c l = [l].
Proof.
  induction l as [|a l IH]; intros H; auto. cbn. destruct (Ascii.eqb_spec a c) as [->|N]; [exfalso; apply H; now left|]. rewrite IH; auto. intros Q. apply H. now right.
Qed.
Lemma split_app c a e : split_on c (a ++ c :: e) = split_on c a ++ split_on c e.
Proof.
  induction a as [|x a IH]; cbn.
  - now rewrite Ascii.eqb_refl.
  - rewrite IH. destruct (Ascii.eqb x c); auto. pose proof (split_nonnil c a). destruct (split_on c a); [congruence|reflexivity].
Qed.
Lemma split_len c l : In c l -> (2 <= length (split_on c l))%nat.
Proof.
  intros H. apply in_split in H. destruct H as (a & e & ->). rewrite split_app, app_length. pose proof (split_nonnil c a). pose proof (split_nonnil c e). destruct (split_on c a), (split_on c e); try congruence; cbn; lia.
Qed.
Lemma last_app {X} (l r : list X) d : r <> [] -> last (l ++ r) d = last r d.
Proof. intros H. induction l as [|a l IH]; auto. cbn [app last]. rewrite IH. destruct (l ++ r) eqn:E; auto. apply app_eq_nil in E. now destruct E. Qed.
Lemma split_last c l : ~ In c (last (split_on c l) []) /\ (l = last (split_on c l) [] \/ exists d, l = d ++ c :: last (split_on c l) []).
Proof.
  induction l as [|a l (IH1 & IH2)].
  - cbn. auto.
  - cbn [split_on]. pose proof (split_nonnil c l) as N. destruct (Ascii.eqb_spec a c) as [->|D].
    + destruct (split_on c l) as [|h r] eqn:S; [congruence|]. cbn [last] in *. split; [exact IH1|]. right. destruct IH2 as [E|(d & E)].
      * exists []. cbn. now rewrite <- E.
      * exists (c :: d). cbn. now rewrite <- E.
    + destruct (split_on c l) as [|h r] eqn:S; [congruence|]. destruct r as [|h' r].
      * cbn [last] in *. split.
        -- intros [Q|Q]; congruence || auto.
        -- destruct IH2 as [->|(d & E)]; auto. exfalso. assert (X : In c l) by (rewrite E; apply in_or_app; right; now left). apply split_len in X. rewrite S in X. cbn in X. lia.
      * change (last ((a :: h) :: h' :: r) []) with (last (h :: h' :: r) []). split; auto. right. destruct IH2 as [E|(d & E)].
        -- exfalso. pose proof IH1 as X. rewrite <- E in X. apply split_none in X. rewrite S in X. discriminate.
        -- exists (a :: d). cbn [app]. now rewrite <- E.
Qed.
Lemma name_of p n : file_name p n -> last (split_on slash p) [] = n.
Proof.
  intros (N & [->|(d & ->)]).
  - now rewrite split_none.
  - rewrite split_app, last_app by apply split_nonnil. now rewrite split_none.
Qed.
Lemma ext_of n e : extension n e -> last (split_on dot n) [] = e /\ (length (split_on dot n) =? 1)%nat = false.
Proof.
  intros (N & a & ->). split.
  - rewrite split_app, last_app by apply split_nonnil. now rewrite split_none.
  - apply Nat.eqb_neq. assert (In dot (a ++ dot :: e)) by (apply in_or_app; right; now left). apply split_len in H. lia.
Qed.
Lemma path_eqb_spec p q : path_eqb p q = true <-> p = q.
Proof. unfold path_eqb. destruct (list_eq_dec ascii_dec p q); split; congruence. Qed.
Lemma path_eqb_refl p : path_eqb p p = true.
Proof. now apply path_eqb_spec. Qed.

(** ** Theorems *)
(** Every path has exactly one file name; a name without a dot gets the format added, a name with the format as extension is left as it is, and any
    other extension is refused. *)
Theorem C113_path p fmt : exists n, file_name p n /\ (forall n', file_name p n' -> n' = n) /\
  (~ In dot n -> check_format p fmt = Ok (p ++ dot :: fmt)) /\
  (forall e, extension n e -> check_format p fmt = if list_eq_dec ascii_dec e fmt then Ok p else Err AssertionError) /\
  (In dot n -> exists e, extension n e).
Proof.
  exists (last (split_on slash p) []). split; [apply split_last|]. split; [intros n' H; symmetry; now apply name_of|]. unfold check_format. set (n := last (split_on slash p) []). split; [|split].
  - intros H. now rewrite split_none.
  - intros e H. destruct (ext_of n e H) as [-> ->]. cbn [negb]. unfold path_eqb. now destruct (list_eq_dec ascii_dec e fmt).
  - intros H. exists (last (split_on dot n) []). destruct (split_last dot n) as [A [E|B]]; [|now split]. exfalso. apply A. now rewrite <- E.
Qed.
Print Assumptions C113_path.

(** The result is the file the object is kept in, whatever the slashes and dots in front of the name; completing it again changes nothing. *)
Theorem C113_kept p fmt q : plain fmt -> (check_format p fmt = Ok q <-> kept_in fmt p q) /\ (check_format p fmt = Ok q -> check_format q fmt = Ok q).
Proof.
  intros (F1 & F2). destruct (C113_path p fmt) as (n & N & U & A & B & X).
  assert (E : check_format p fmt = Ok q <-> kept_in fmt p q).
  { split.
    - intros H. destruct (in_dec ascii_dec dot n) as [I|I].
      + destruct (X I) as (e & Ee). rewrite (B e Ee) in H. destruct (list_eq_dec ascii_dec e fmt) as [->|]; [|discriminate]. injection H as <-. now apply (kept_same fmt p n).
      + rewrite A in H by auto. injection H as <-. now apply (kept_added fmt p n).
    - intros H. destruct H as [n' N' E'|n' N' E']; apply U in N'; subst n'.
      + rewrite (B fmt E'). now destruct (list_eq_dec ascii_dec fmt fmt).
      + now apply A. }
  split; [exact E|]. intros H. apply E in H. destruct H as [n' N' E'|n' N' E'].
  - apply E. now apply (kept_same fmt p n').
  - destruct (C113_path (p ++ dot :: fmt) fmt) as (m & M & U' & _ & B' & _).
    assert (FM : file_name (p ++ dot :: fmt) (n' ++ dot :: fmt)).
    { destruct N' as (S & Q). split.
      - intros I. apply in_app_or in I. destruct I as [I|[I|I]]; auto. discriminate.
      - destruct Q as [->|(d & ->)]; [now left|]. right. exists d. now rewrite <- app_assoc. }
    apply U' in FM. subst m. rewrite (B' fmt). now destruct (list_eq_dec ascii_dec fmt fmt). split; auto. now exists n'.
Qed.
Print Assumptions C113_kept.

Section Files.
  Context {T D : Type}.
  Notation files := (@files T D).
  (** a sequence of saved objects *)
  Definition save_all (fs : files) (l : list (path * T)) : files := fold_left (fun fs po => fst (save_pkl fs (fst po) (snd po))) l fs.
  Lemma pkl_plain : plain (str "pkl").
  Proof. split; cbn; intros H; repeat (destruct H as [H|H]; [discriminate|]); auto. Qed.
  (** An object that was saved is loaded under the same path, and under every path kept in the same file, until another one is saved there. Other files
      are not touched, and a refused path touches none. *)
Theorem C113_save_load (fs : files) p (o : T) :
    (forall q, kept_in (str "pkl") p q ->
       snd (save_pkl fs p o) = Ok tt /\ fst (save_pkl fs p o) q = Some (Pickle o) /\
       (forall r, r <> q -> fst (save_pkl fs p o) r = fs r) /\
       forall p', kept_in (str "pkl") p' q -> load_pkl (fst (save_pkl fs p o)) p' = Ok (Some o)) /\
    ((forall q, ~ kept_in (str "pkl") p q) -> save_pkl fs p o = (fs, Err AssertionError) /\ load_pkl fs p = Err AssertionError).
  Proof.
    split.
    - intros q K. apply (C113_kept p _ q pkl_plain) in K. unfold save_pkl. rewrite K. cbn [fst snd]. split; auto. unfold write. split; [now rewrite path_eqb_refl|]. split.
      + intros r N. destruct (path_eqb r q) eqn:E; auto. apply path_eqb_spec in E. contradiction.
      + intros p' K'. apply (C113_kept p' _ q pkl_plain) in K'. unfold load_pkl. rewrite K'. cbn [bind]. now rewrite path_eqb_refl.
    - intros N. assert (E : check_format p (str "pkl") = Err AssertionError).
      { destruct (check_format p (str "pkl")) as [a|] eqn:E; [exfalso; apply (N a); now apply (C113_kept p _ a pkl_plain)|]. unfold check_format in E. destruct (negb _); [destruct (path_eqb _ _)|]; congruence. }
      unfold save_pkl, load_pkl. now rewrite E.
  Qed.
  (** After any history of saves, loading gives the last object saved in that file. *)
Theorem C113_history (fs : files) before p (o : T) after p' q : kept_in (str "pkl") p q -> kept_in (str "pkl") p' q ->
    (forall r u, In (r, u) after -> ~ kept_in (str "pkl") r q) ->
    load_pkl (save_all fs (before ++ (p, o) :: after)) p' = Ok (Some o).
  Proof.
    intros K K' A. unfold save_all. rewrite fold_left_app. cbn [fold_left fst snd]. set (f0 := fold_left _ before fs). clearbody f0.
    assert (S : fst (save_pkl f0 p o) q = Some (Pickle o)) by (now apply (proj1 (C113_save_load f0 p o) q K)). set (f1 := fst (save_pkl f0 p o)) in *. clearbody f1.
    assert (S' : fold_left (fun fs po => fst (save_pkl fs (fst po) (snd po))) after f1 q = Some (Pickle o)).
    { revert f1 S. induction after as [|[r u] t IH]; intros f1 S; auto. cbn [fold_left fst snd]. apply IH.
      - intros r' u' I. apply (A r' u'). now right.
      - unfold save_pkl. destruct (check_format r (str "pkl")) as [a|] eqn:E; cbn [fst]; auto. unfold write. destruct (path_eqb q a) eqn:Q; auto. apply path_eqb_spec in Q. subst a.
        exfalso. apply (A r u); [now left|]. now apply (C113_kept r _ q pkl_plain). }
    apply (C113_kept p' _ q pkl_plain) in K'. unfold load_pkl. rewrite K'. cbn [bind]. now rewrite S'.
  Qed.
  (** Saving a signal: a file is written exactly for the modes wav, flac and pkl with an allowed bit depth and a fitting path; otherwise an error is
      raised and no file is touched. wav and flac get the real samples only, the pickle the whole signal. *)
Theorem C113_save_signal (td : T -> D) (fs : files) p mode bits (o : T) : plain mode ->
    (forall q, kept_in mode p q -> mode = str "wav" \/ mode = str "flac" -> forall s,
       In (bits, s) [(32, str "FLOAT"); (64, str "DOUBLE"); (24, str "PCM_24"); (16, str "PCM_16")] ->
       save_signal td fs p mode bits o = (write fs q (Sound mode s (td o)), Ok tt)) /\
    (forall q, kept_in mode p q -> mode = str "pkl" -> save_signal td fs p mode bits o = (write fs q (Pickle o), Ok tt)) /\
    (~ In mode [str "wav"; str "flac"; str "pkl"] \/ (forall q, ~ kept_in mode p q) \/ (mode <> str "pkl" /\ ~ In bits [16; 24; 32; 64]) ->
       exists e, save_signal td fs p mode bits o = (fs, Err e)).
  Proof.
    intros P. split; [|split].
    - intros q K M s I. apply (C113_kept p mode q P) in K. unfold save_signal. rewrite K. assert (E : path_eqb mode (str "wav") || path_eqb mode (str "flac") = true) by (destruct M as [->| ->]; reflexivity).
      rewrite E. destruct I as [I|[I|[I|[I|[]]]]]; injection I as <- <-; reflexivity.
    - intros q K ->. apply (C113_kept p _ q P) in K. unfold save_signal. now rewrite K.
    - intros H. unfold save_signal. destruct (check_format p mode) as [q|e] eqn:E; [|now exists e]. assert (K : kept_in mode p q) by (now apply (C113_kept p mode q P)).
      destruct H as [H|[H|[H1 H2]]]; [|now apply H in K|].
      + assert (X : forall m, In m [str "wav"; str "flac"; str "pkl"] -> path_eqb mode m = false). { intros m I. destruct (path_eqb mode m) eqn:Q; auto. apply path_eqb_spec in Q. subst m. contradiction. }
        rewrite !X by (cbn; auto). now exists ValueError.
      + assert (X : path_eqb mode (str "pkl") = false) by (destruct (path_eqb mode (str "pkl")) eqn:Q; auto; apply path_eqb_spec in Q; contradiction). rewrite X.
        destruct (_ || _); [|now exists ValueError]. unfold subtype. repeat match goal with |- context [Nat.eqb bits ?k] => destruct (Nat.eqb_spec bits k); [exfalso; apply H2; subst; cbn; auto|] end. now exists ValueError.
  Qed.
End Files.
Print Assumptions C113_save_load.
Print Assumptions C113_history.
Print Assumptions C113_save_signal.

(** A dot in a name without extension is taken for one: the object cannot be saved, though it can with the extension written out. *)
Theorem C113_dotted_name_refuted (a e fmt : path) : ~ In slash a -> ~ In slash e -> ~ In dot e -> e <> fmt -> plain fmt ->
  check_format (a ++ dot :: e) fmt = Err AssertionError /\ check_format (a ++ dot :: e ++ dot :: fmt) fmt = Ok (a ++ dot :: e ++ dot :: fmt).
Proof.
  intros A E D N (F1 & F2). split.
  - destruct (C113_path (a ++ dot :: e) fmt) as (n & _ & U & _ & B & _). assert (FN : file_name (a ++ dot :: e) (a ++ dot :: e)).
    { split; [|now left]. intros I. apply in_app_or in I. destruct I as [I|[I|I]]; auto. discriminate. }
    apply U in FN. subst n. rewrite (B e). now destruct (list_eq_dec ascii_dec e fmt). split; auto. now exists a.
  - apply (proj1 (C113_kept (a ++ dot :: e ++ dot :: fmt) fmt _ (conj F1 F2))). apply (kept_same _ _ (a ++ dot :: e ++ dot :: fmt)).
    + split; [|now left]. intros I. apply in_app_or in I. destruct I as [I|[I|I]]; auto; [discriminate|]. apply in_app_or in I. destruct I as [I|[I|I]]; auto. discriminate.
    + split; auto. exists (a ++ dot :: e). now rewrite <- app_assoc.
Qed.
Print Assumptions C113_dotted_name_refuted.

Example C113_names :
  check_format (str "v1.2/room") (str "pkl") = Ok (str "v1.2/room.pkl") /\ check_format (str "v1.2/room.pkl") (str "pkl") = Ok (str "v1.2/room.pkl") /\
  check_format (str "take1.5") (str "wav") = Err AssertionError /\ check_format (str "take.WAV") (str "wav") = Err AssertionError.
Proof. repeat split. Qed.
Example C113_overwritten : load_pkl (save_all (T := nat) (D := unit) (fun _ => None) [(str "a", 1); (str "b.pkl", 2); (str "a.pkl", 3); (str "b.wav", 4)]) (str "a") = Ok (Some 3).
Proof. reflexivity. Qed.
