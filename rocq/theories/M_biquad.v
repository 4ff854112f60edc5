(** Model of the biquad designs (classes/filter_helpers.py), of the coefficient setter and of the transfer function of a
    Filter in ba form (classes/filter.py). Coefficients are real numbers. *)
From Coq Require Import List Arith Lia ZArith Bool Reals.
From Verif Require Import Alg Spec Dft M_filter.
Import ListNotations.
Local Open Scope R_scope.

(** standard/enums.py L246-277 BiquadEqType *)
Inductive eq_type := Lowpass | Highpass | Peaking | Lowshelf | Highshelf | BandpassSkirt | BandpassPeak
  | LowpassFirstOrder | HighpassFirstOrder | AllpassFirstOrder | Allpass | Notch | Inverter.

(** classes/filter_helpers.py L30-39 *)
Definition bq_gain (ty : eq_type) (gain_db : R) : R :=
  match ty with
  | Peaking | Lowshelf | Highshelf => Rpower 10 (gain_db / 40)
  | _ => Rpower 10 (gain_db / 20)
  end.
(** classes/filter_helpers.py L16-143 _biquad_coefficients. The types outside of the enumeration, which raise, have no
    counterpart here. *)
Definition biquad_coefficients (ty : eq_type) (fs f gain_db q : R) : list R * list R :=
  let A := bq_gain ty gain_db in
  let Om := 2 * PI * (f / fs) in
  let sn := sin Om in
  let cs := cos Om in
  let al := sn / (2 * q) in
  let K := 1 / tan (Om / 2) in
  match ty with
  | Peaking => ([1 + al * A; -2 * cs; 1 - al * A], [1 + al / A; -2 * cs; 1 - al / A])
  | Lowpass => ([(1 - cs) / 2 * A; (1 - cs) * A; (1 - cs) / 2 * A], [1 + al; -2 * cs; 1 - al])
  | Highpass => ([(1 + cs) / 2 * A; -1 * (1 + cs) * A; (1 + cs) / 2 * A], [1 + al; -2 * cs; 1 - al])
  | BandpassSkirt => ([sn / 2 * A; 0; - (sn / 2 * A)], [1 + al; -2 * cs; 1 - al])
  | BandpassPeak => ([al * A; 0; - (al * A)], [1 + al; -2 * cs; 1 - al])
  | Notch => ([1 * A; -2 * cs * A; 1 * A], [1 + al; -2 * cs; 1 - al])
  | Allpass => ([(1 - al) * A; -2 * cs * A; (1 + al) * A], [1 + al; -2 * cs; 1 - al])
  | Lowshelf =>
      ([A * ((A + 1) - (A - 1) * cs + 2 * sqrt A * al); 2 * A * ((A - 1) - (A + 1) * cs); A * ((A + 1) - (A - 1) * cs - 2 * sqrt A * al)],
       [(A + 1) + (A - 1) * cs + 2 * sqrt A * al; -2 * ((A - 1) + (A + 1) * cs); (A + 1) + (A - 1) * cs - 2 * sqrt A * al])
  | Highshelf =>
      ([A * ((A + 1) + (A - 1) * cs + 2 * sqrt A * al); -2 * A * ((A - 1) + (A + 1) * cs); A * ((A + 1) + (A - 1) * cs - 2 * sqrt A * al)],
       [(A + 1) - (A - 1) * cs + 2 * sqrt A * al; 2 * ((A - 1) - (A + 1) * cs); (A + 1) - (A - 1) * cs - 2 * sqrt A * al])
  | LowpassFirstOrder => ([A; A; 0], [1 + K; 1 - K; 0])
  | HighpassFirstOrder => ([K * A; - K * A; 0], [1 + K; 1 - K; 0])
  | AllpassFirstOrder => ([(1 - K) * A; (1 + K) * A; 0], [1 + K; 1 - K; 0])
  | Inverter => ([A; 0; 0], [1; 0; 0])
  end.

(** np.trim_zeros(a, "b"), used in classes/filter.py L519 *)
Fixpoint trim_back (l : list R) : list R :=
  match l with
  | [] => []
  | x :: t => match trim_back t with [] => if Req_EM_T x 0 then [] else [x] | t' => x :: t' end
  end.
(** classes/filter.py L485-527 the ba setter: only a denominator with one coefficient is normalised; otherwise the
    coefficients are kept as they came, including the trailing zeros. *)
Definition set_ba (ba : list R * list R) : list R * list R :=
  match trim_back (snd ba) with
  | [a0] => (map (fun v => v / a0) (fst ba), [a0 / a0])
  | _ => ba
  end.
(** classes/filter.py L143-187 Filter.biquad: the coefficients stored in the filter *)
Definition biquad_filter (ty : eq_type) (fs f gain_db q : R) : list R * list R := set_ba (biquad_coefficients ty fs f gain_db q).

(** scipy.signal.freqz(b, a, f, fs=fs) at one frequency: the ratio of both polynomials in e^(-j 2 pi f / fs); nan (None)
    where the denominator vanishes. *)
Definition zpoly (c : list R) (th : R) : C := csum (length c) (fun k => cmul (rc (get c k)) (cis (- (INR k * th)))).
Definition freqz1 (b a : list R) (th : R) : option C :=
  let d := zpoly a th in
  if Req_EM_T (cabs2 d) 0 then None else Some (cmul (zpoly b th) (cinv d)).
(** classes/filter.py L858-899 get_transfer_function of a filter in ba form. The maximum of an empty vector raises. The
    filters made from zpk or sos coefficients use sosfreqz, the product of the sections (not modelled here). *)
Definition get_transfer_function (ba : list R * list R) (fs : R) (freqs : list R) : result (list (option C)) :=
  match freqs with
  | [] => Err ValueError
  | f0 :: t => if Rle_dec (fold_left Rmax t f0) (fs / 2)
               then Ok (map (fun f => freqz1 (fst ba) (snd ba) (2 * PI * f / fs)) freqs)
               else Err AssertionError
  end.

(** scipy.signal.lfilter(b, a, x) from rest, which divides all coefficients by a[0] first (ValueError if it is zero); called in
    classes/filter_helpers.py L349-359 *)
Definition lfilter_rest (ba : list R * list R) (x : list R) : result (list R) :=
  let a0 := get (snd ba) 0 in
  if Req_EM_T a0 0 then Err ValueError
  else let n := map (fun v => v / a0) in
       Ok (fst (lfilter (n (fst ba)) (n (snd ba)) x (repeat 0 (lf_order (fst ba) (snd ba))))).
