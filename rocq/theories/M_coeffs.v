(** Model of the coefficients of a Filter (classes/filter.py): constructor, setters, order, getters, and merge_filters
    (standard/other.py). Coefficients are real, one channel is filtered from rest. *)
From Coq Require Import List Arith Lia ZArith Bool Reals.
From Verif Require Import Alg Spec Dft M_arrays M_filter M_biquad.
Import ListNotations.
Local Open Scope R_scope.

(** a section is (b0 b1 b2, a0 a1 a2); a zpk form is zeros, poles and gain *)
Definition section := (list R * list R)%type.
Definition zpk_form := (list C * list C * R)%type.
(** the conversions of scipy.signal that are called: parameters *)
Record scipy := mkScipy { zpk2sos : zpk_form -> list section; tf2sos : list R * list R -> list section;
  sos2tf : list section -> list R * list R; sos2zpk : list section -> zpk_form; tf2zpk : list R * list R -> zpk_form }.

(** The object: an attribute that was never set is None. *)
Record fobj := mkF { o_fs : Z; o_zpk : option zpk_form; o_sos : option (list section); o_ba : option (list R * list R) }.

(** classes/filter.py L548-551 the checks of the sos setter: two dimensions and six columns *)
Definition sos_shape (s : list section) : bool := forallb (fun c => (length (fst c) =? 3)%nat && (length (snd c) =? 3)%nat) s.
(** L485-527, L533-551, L581-603 the setters; [set_ba] is in M_biquad *)
Definition put_ba (ba : list R * list R) (f : fobj) : fobj := mkF (o_fs f) (o_zpk f) (o_sos f) (Some (set_ba ba)).
Definition put_sos (s : list section) (f : fobj) : result fobj :=
  if sos_shape s then Ok (mkF (o_fs f) (o_zpk f) (Some s) (o_ba f)) else Err AssertionError.
Definition put_zpk (z : zpk_form) (f : fobj) : fobj := mkF (o_fs f) (Some z) (o_sos f) (o_ba f).

(** L52-90 the constructor, with the keys of the dictionary as options: ^ is the exclusive or *)
Definition new_filter (lib : scipy) (zpk : option zpk_form) (sos : option (list section)) (ba : option (list R * list R)) (fs : Z) : result fobj :=
  let has {T} (o : option T) := match o with Some _ => true | None => false end in
  if negb (xorb (xorb (has ba) (has sos)) (has zpk)) then Err AssertionError else
  let f := mkF fs None None None in
  match zpk, sos, ba with
  | Some z, _, _ => put_sos (zpk2sos lib z) (put_zpk z f)
  | None, Some s, _ => put_sos s f
  | None, None, Some c => Ok (put_ba c f)
  | None, None, None => Err AssertionError
  end.
(** L238-313 from_ba, from_sos, from_zpk *)
Definition from_ba lib b a fs := new_filter lib None None (Some (b, a)) fs.
Definition from_sos lib s fs := new_filter lib None (Some s) None fs.
Definition from_zpk lib z fs := new_filter lib (Some z) None None fs.

(** L445-458 is_iir *)
Definition is_iir (f : fobj) : result bool :=
  match o_sos f with
  | Some _ => Ok true
  | None => match o_ba f with
            | Some (_, a) => Ok (negb ((length a =? 1)%nat && (if Req_EM_T (get a 0) 1 then true else false)))
            | None => Err AttributeError
            end
  end.
(** L620-639 order *)
Definition first_order (c : section) : bool :=
  (if Req_EM_T (get (fst c) 2) 0 then true else false) && (if Req_EM_T (get (snd c) 2) 0 then true else false).
Definition order (f : fobj) : result Z :=
  match o_zpk f with
  | Some (z, p, _) => Ok (Z.of_nat (Nat.max (length z) (length p)))
  | None => match o_sos f with
            | Some s => Ok (Z.of_nat (length s * 2) - Z.of_nat (length (filter first_order s)))%Z
            | None => match o_ba f with
                      | Some (b, a) => Ok (Z.of_nat (Nat.max (length b) (length a)) - 1)%Z
                      | None => Err ValueError
                      end
            end
  end.

(** scipy's check of the sections: a0 must be one *)
Definition sos_valid (s : list section) : bool := forallb (fun c => if Req_EM_T (get (snd c) 0) 1 then true else false) s.
(** L700-743 filter_signal from rest, one channel *)
Definition run_filter (f : fobj) (x : list R) : result (list R) :=
  match o_sos f with
  | Some s => if sos_valid s then Ok (fst (sosfilt (HA := CRing_R) s x (repeat [0; 0] (length s)))) else Err ValueError
  | None => match o_ba f with
            | None => Err AttributeError
            | Some (b, a) => bind (is_iir f) (fun iir =>
                if iir then lfilter_rest (b, a) x else Ok (lfilter_fir (HA := CRing_R) b x))
            end
  end.
(** scipy.signal.sosfreqz at one frequency: the product of the sections; nan (None) where a denominator vanishes *)
Fixpoint sos_at (s : list section) (th : R) : option C :=
  match s with
  | [] => Some (rc 1)
  | c :: t => match freqz1 (fst c) (snd c) th, sos_at t th with Some u, Some v => Some (cmul u v) | _, _ => None end
  end.
(** L858-899 get_transfer_function at one frequency *)
Definition tf_at (f : fobj) (th : R) : result (option C) :=
  match o_sos f with
  | Some s => if sos_valid s then Ok (sos_at s th) else Err ValueError
  | None => match o_ba f with Some (b, a) => Ok (freqz1 b a th) | None => Err AttributeError end
  end.
(** L945-964 get_coefficients *)
Definition get_sos (lib : scipy) (f : fobj) : result (list section) :=
  match o_sos f with Some s => Ok s | None => match o_ba f with Some c => Ok (tf2sos lib c) | None => Err AttributeError end end.
Definition get_ba (lib : scipy) (f : fobj) : result (list R * list R) :=
  match o_sos f with Some s => Ok (sos2tf lib s) | None => match o_ba f with Some c => Ok c | None => Err AttributeError end end.
Definition get_zpk (lib : scipy) (f : fobj) : result zpk_form :=
  match o_zpk f with
  | Some z => Ok z
  | None => match o_sos f with Some s => Ok (sos2zpk lib s) | None => match o_ba f with Some c => Ok (tf2zpk lib c) | None => Err AttributeError end end
  end.

(** standard/other.py L367-405 merge_filters *)
Fixpoint results {T} (l : list (result T)) : result (list T) :=
  match l with [] => Ok [] | r :: t => bind r (fun v => bind (results t) (fun w => Ok (v :: w))) end.
Definition taps (f : fobj) : result (list R) := match o_ba f with Some (b, _) => Ok b | None => Err AttributeError end.
Definition merge_filters (lib : scipy) (l : list fobj) : result fobj :=
  match l with
  | f0 :: (_ :: _) as t =>
      if negb (forallb (fun f => o_fs f0 =? o_fs f)%Z l) then Err AssertionError else
      bind (is_iir f0) (fun i0 => bind (results (map is_iir l)) (fun is =>
      if negb i0 then
        if negb (forallb negb is) then Err AssertionError else
        bind (results (map taps l)) (fun bs =>
        match bs with
        | b0 :: bt => from_ba lib (fold_left (fun b c => conv_full (HA := CRing_R) b c) bt b0) [1] (o_fs f0)
        | [] => Err ValueError
        end)
      else if negb (forallb (fun b => b) is) then Err AssertionError
      else bind (results (map (get_sos lib) l)) (fun ss => from_sos lib (concat ss) (o_fs f0))))
  | _ => Err AssertionError
  end.
