(** Model of the Spectrum class (classes/spectrum.py) and of tools.get_exact_value_at_frequency.
    Frequencies and values are real numbers; complex values are pairs; an array is the list of its columns (channels). *)
From Coq Require Import List Arith Lia ZArith Bool Reals.
From Verif Require Import Alg Spec M_arrays M_signal.
Import ListNotations.
Local Open Scope R_scope.

Definition cplx := (R * R)%type.
Definition cabs_sq (z : cplx) : R := fst z * fst z + snd z * snd z.
Definition cabsv (z : cplx) : R := sqrt (cabs_sq z).

(** standard/enums.py L472-522 without InterpolationDomain.MagnitudePhase *)
Inductive idomain := DPower | DMagnitude | DComplex.
Inductive iedge := ZeroPad | OnePad | Extend | EdgeError.
Inductive otype := OComplex | OPower | OMagnitude.
(** The attributes of a Spectrum. The interpolation scheme is Linear (Cubic and Pchip are not modelled). *)
Record spectrum := mkSp {
  sp_f : list R;                     (* __frequency_vector_hz *)
  sp_mag : bool;                     (* dtype of __spectral_data is real *)
  sp_d : list (list cplx);           (* __spectral_data, columns *)
  sp_coh : option (list (list R));   (* coherence *)
  sp_dom : idomain; sp_edge : iedge
}.
Definition with_f (s : spectrum) f := mkSp f (sp_mag s) (sp_d s) (sp_coh s) (sp_dom s) (sp_edge s).
Definition with_d (s : spectrum) mag d := mkSp (sp_f s) mag d (sp_coh s) (sp_dom s) (sp_edge s).
Definition with_coh (s : spectrum) c := mkSp (sp_f s) (sp_mag s) (sp_d s) c (sp_dom s) (sp_edge s).

(** L173-179 frequency_vector_hz setter on a real 1-D vector; the spacing type is not modelled. *)
Fixpoint ascending (f : list R) : bool :=
  match f with a :: (b :: _) as t => (if Rlt_dec a b then true else false) && ascending t | _ => true end.
Definition nonneg (f : list R) : bool := forallb (fun v => if Rle_dec 0 v then true else false) f.
Definition set_freqs (s : spectrum) (f : list R) : spectrum * result unit :=
  if nonneg f && ascending f then (with_f s f, Ok tt) else (s, Err AssertionError).

Definition rows {T} (m : list (list T)) : nat := length (hd [] m).
Definition gtranspose {T} (d : T) (m : list (list T)) : list (list T) := mk (rows m) (fun i => map (fun col => nth i col d) m).
Definition c0 : cplx := (0, 0).
(** L254-269 spectral_data setter on a non-empty 2-D array; the data are stored before the sign of a magnitude is checked. *)
Definition set_sdata (s : spectrum) (mag : bool) (d : list (list cplx)) : spectrum * result unit :=
  let d := if (rows d <? length d)%nat then gtranspose c0 d else d in
  if (rows d =? length (sp_f s))%nat then
    (with_d s mag d, if mag then (if forallb (fun col => nonneg (map fst col)) d then Ok tt else Err AssertionError) else Ok tt)
  else (s, Err AssertionError).

(** np.searchsorted(f, v) of an ascending vector, side left: how many leading entries are below v. *)
Fixpoint searchsorted (f : list R) (v : R) : nat :=
  match f with [] => 0 | a :: t => if Rlt_dec a v then S (searchsorted t v) else 0 end.
(** L1028-1057 __freqs_to_slice *)
Definition freqs_to_slice (f : list R) (lo hi : option R) (incl : bool) : result (nat * nat) :=
  let n := length f in
  let il := match lo with Some v => searchsorted f v | None => 0%nat end in
  let ih := match hi with Some v => searchsorted f v | None => n end in
  let check p := if (fst p <? snd p)%nat then Ok p else Err AssertionError in
  if incl then
    let ih := match hi with Some _ => Nat.min (ih + 1) n | None => ih end in
    match lo with
    | None => check (il, ih)
    | Some v =>
        match nth_error f il with
        | None => Err IndexError
        | Some a => check ((if Req_EM_T a v then il else (il - 1)%nat), ih)
        end
    end
  else check (match lo with Some _ => (il + 1)%nat | None => il end, ih).
(** l[a:b] *)
Definition slice {T} (a b : nat) (l : list T) : list T := firstn (b - a) (skipn a l).
(** L407-433 trim: first the frequencies, then the data. *)
Definition trim (s : spectrum) (lo hi : option R) (incl : bool) : spectrum * result unit :=
  match freqs_to_slice (sp_f s) lo hi incl with
  | Err e => (s, Err e)
  | Ok (a, b) =>
      match set_freqs s (slice a b (sp_f s)) with
      | (s1, Err e) => (s1, Err e)
      | (s1, Ok _) => set_sdata s1 (sp_mag s1) (map (slice a b) (sp_d s1))
      end
  end.

(** scipy.integrate.trapezoid(y, x) *)
Fixpoint trapezoid (f p : list R) : R :=
  match f, p with
  | a :: (b :: _) as tf, u :: (v :: _) as tp => (b - a) * (u + v) / 2 + trapezoid tf tp
  | _, _ => 0
  end.
(** L726-760 get_energy, one value per channel *)
Definition get_energy (s : spectrum) (lo hi : option R) : result (list R) :=
  match freqs_to_slice (sp_f s) lo hi true with
  | Err e => Err e
  | Ok (a, b) => Ok (map (fun col => trapezoid (slice a b (sp_f s)) (slice a b (map cabs_sq col))) (sp_d s))
  end.

(** np.interp(x, f, y, left, right) for an ascending f *)
Fixpoint interp_in (f y : list R) (x : R) : R :=
  match f, y with
  | a :: (b :: _) as tf, u :: (v :: _) as ty => if Rlt_dec x b then (v - u) / (b - a) * (x - a) + u else interp_in tf ty x
  | _, u :: _ => u
  | _, [] => 0
  end.
Definition np_interp (f y : list R) (left right x : R) : R :=
  if Rlt_dec x (nth 0 f 0) then left else if Rlt_dec (last f 0) x then right else interp_in f y x.

(** L575-591 *)
Definition idata (d : idomain) (z : cplx) : R := match d with DPower => cabs_sq z | DMagnitude => cabsv z | DComplex => fst z end.
(** L593-600: the values outside the range, taken from the (real part of the) column *)
Definition edge_values (e : iedge) (col : list R) : R * R :=
  match e with ZeroPad => (0, 0) | OnePad => (1, 1) | _ => (nth 0 col 0, last col 0) end.
(** L633-661, one channel: the imaginary part is filled with the edge values of the real part. *)
Definition interp_col (s : spectrum) (col : list cplx) (x : R) : cplx :=
  let re := map (idata (sp_dom s)) col in
  let '(l, r) := edge_values (sp_edge s) re in
  (np_interp (sp_f s) re l r x, match sp_dom s with DComplex => np_interp (sp_f s) (map snd col) l r x | _ => 0 end).
(** L663-682 *)
Definition convert_out (d : idomain) (o : otype) (z : cplx) : cplx :=
  match o with
  | OComplex => z
  | OPower => match d with DComplex => (cabs_sq z, 0) | DMagnitude => (fst z * fst z, 0) | DPower => z end
  | OMagnitude => match d with DComplex => (cabsv z, 0) | DMagnitude => z | DPower => (sqrt (fst z), 0) end
  end.
(** L544-684 get_interpolated_spectrum, Linear scheme, without the dB output. For Extend and Error the edge values are vectors with one
    entry per channel, which np.interp accepts only for one channel (and from numpy 2.4 on not even then). *)
Definition get_interp (s : spectrum) (xs : list R) (o : otype) : result (list (list cplx)) :=
  if match o with OComplex => sp_mag s | _ => false end then Err AssertionError else
  match sp_f s with
  | [] => Err IndexError
  | f0 :: _ =>
      let outside x := if Rlt_dec x f0 then true else if Rlt_dec (last (sp_f s) 0) x then true else false in
      if match sp_edge s with EdgeError => existsb outside xs | _ => false end then Err AssertionError else
      if match sp_edge s with Extend | EdgeError => (1 <? length (sp_d s))%nat | _ => false end then Err TypeError else
      Ok (map (fun col => map (fun x => convert_out (sp_dom s) o (interp_col s col x)) xs) (sp_d s))
  end.
(** L686-724 set_interpolator_parameters (scheme Linear) *)
Definition set_interp (s : spectrum) (d : idomain) (e : iedge) : spectrum * result unit :=
  match d with
  | DComplex => if sp_mag s then (s, Err AssertionError) else (mkSp (sp_f s) (sp_mag s) (sp_d s) (sp_coh s) d e, Ok tt)
  | _ => (mkSp (sp_f s) (sp_mag s) (sp_d s) (sp_coh s) d e, Ok tt)
  end.
(** L30-52 constructor *)
Definition new_spectrum (f : list R) (mag : bool) (d : list (list cplx)) : result spectrum :=
  match set_freqs (mkSp [] true [] None DPower ZeroPad) f with
  | (s1, Ok _) => match set_sdata s1 mag d with (s2, Ok _) => Ok s2 | (_, Err e) => Err e end
  | (_, Err e) => Err e
  end.
(** L871-886 set_coherence of a real array *)
Definition set_coherence (s : spectrum) (c : list (list R)) : spectrum * result unit :=
  if (rows c =? rows (sp_d s))%nat && (length c =? length (sp_d s))%nat then (with_coh s (Some c), Ok tt) else (s, Err AssertionError).
(** L1008-1022 _create_copy_with_new_data *)
Definition copy_with_data (s : spectrum) (mag : bool) (d : list (list cplx)) : result spectrum :=
  match new_spectrum (sp_f s) mag d with
  | Err e => Err e
  | Ok s1 =>
      match set_interp s1 (sp_dom s) (sp_edge s) with
      | (_, Err e) => Err e
      | (s2, Ok _) =>
          match sp_coh s with
          | None => Ok s2
          | Some c => match set_coherence s2 c with (s3, Ok _) => Ok s3 | (_, Err e) => Err e end
          end
      end
  end.
(** classes/_multichannel_data.py L90-105 *)
Definition sp_get_channels (s : spectrum) (chs : list Z) : result spectrum :=
  match chs with [] => Err IndexError | _ =>
  match resolve_all (length (sp_d s)) chs with
  | None => Err IndexError
  | Some ks => copy_with_data s (sp_mag s) (select ks [] (sp_d s))
  end end.
(** spectrum.py L435-461 sum_channels with power_sum *)
Definition power_sum (d : list (list cplx)) : list cplx :=
  mk (rows d) (fun i => (sqrt (fold_right Rplus 0 (map (fun col => cabs_sq (nth i col c0)) d)), 0)).
Definition sp_sum_channels (s : spectrum) : result spectrum := copy_with_data s true [power_sum (sp_d s)].
(** classes/_multichannel_data.py L57-88; _update_state does nothing for a Spectrum *)
Definition sp_swap_channels (s : spectrum) (order : list Z) : spectrum * result unit :=
  let n := length (sp_d s) in
  if negb (n =? length order)%nat then (s, Err AssertionError) else
  if negb (forallb (fun z => (z <? Z.of_nat n) && (0 <=? z))%Z order) then (s, Err AssertionError) else
  if negb (znodup order) then (s, Err AssertionError) else
  set_sdata s (sp_mag s) (select (map Z.to_nat order) [] (sp_d s)).
(** spectrum.py L463-492 resample of a magnitude spectrum (complex spectra use the MagnitudePhase domain: not modelled) *)
Definition sp_resample (s : spectrum) (f : list R) : spectrum * result unit :=
  match set_interp s DPower (sp_edge s) with
  | (s1, Err e) => (s1, Err e)
  | (s1, Ok _) =>
      match get_interp s1 f OMagnitude with
      | Err e => (s1, Err e)
      | Ok d => match set_freqs s1 f with (s2, Err e) => (s2, Err e) | (s2, Ok _) => set_sdata s2 true d end
      end
  end.
Definition cscale (k : R) (z : cplx) : cplx := (fst z * k, snd z * k).
(** channel c of the data multiplied by the c-th factor: spectral_data * gains *)
Definition scale_cols (ks : list R) (d : list (list cplx)) : list (list cplx) := map (fun p => map (cscale (snd p)) (fst p)) (combine d ks).
(** L494-523 normalize (L522 divides the stored array in place and assigns it). A zero reference divides by zero: None. *)
Definition sp_normalize (s : spectrum) (f : R) (ref : option Z) : result (option spectrum) :=
  match get_interp s [f] OMagnitude with
  | Err e => Err e
  | Ok vs =>
      let vals := map (fun v => fst (nth 0 v c0)) vs in
      let divide vals := if existsb (fun v => if Req_EM_T v 0 then true else false) vals then Ok None else
        Ok (Some (with_d s (sp_mag s) (scale_cols (map Rinv vals) (sp_d s)))) in
      match ref with
      | None => divide vals
      | Some z => match py_index (length vals) z with None => Err IndexError | Some c => divide (repeat (nth c vals 0) (length vals)) end
      end
  end.
(** L525-542 apply_gain; from_db(gains, True) is helpers/gain_and_level.py L28-46 *)
Definition sp_apply_gain (s : spectrum) (gains : list R) : spectrum * result unit :=
  let amp g := Rpower 10 (g / 20) in
  if (length gains =? 1)%nat || (length gains =? length (sp_d s))%nat then
    (with_d s (sp_mag s) (scale_cols (if (length gains =? 1)%nat then repeat (amp (nth 0 gains 0)) (length (sp_d s)) else map amp gains) (sp_d s)), Ok tt)
  else (s, Err AssertionError).

(** tools.py L68-103 get_exact_value_at_frequency on a vector of values *)
Definition exact_value (f y : list R) (x : R) : result R :=
  match f with
  | [] => Err IndexError
  | f0 :: _ =>
      if (if Rle_dec f0 x then if Rle_dec x (last f 0) then true else false else false) then
        if negb (length f =? length y)%nat then Err AssertionError else
        if Req_EM_T (last f 0) x then Ok (last y 0) else
        let ind := searchsorted f x in
        let ind := if Rlt_dec x (nth ind f 0) then (ind - 1)%nat else ind in
        Ok ((x - nth ind f 0) * (nth (ind + 1) y 0 - nth ind y 0) / (nth (ind + 1) f 0 - nth ind f 0) + nth ind y 0)
      else Err AssertionError
  end.
