(** Model of helpers/smoothing.py, _fractional_octave_smoothing (L9-129), for one column of data (the others are treated alike).
    Simplifications: real numbers; a window whose sum is zero (nan in the code) is not treated; the number of fractions is positive. *)
From Coq Require Import List Arith Lia ZArith Bool Reals.
From Verif Require Import Alg Spec.
Import ListNotations.
Local Open Scope R_scope.

(** np.sign, as a comparison *)
Definition same_sign (a b : R) : bool := if Rlt_dec 0 a then (if Rlt_dec 0 b then true else false) else if Rlt_dec a 0 then (if Rlt_dec b 0 then true else false) else (if Req_EM_T b 0 then true else false).
(** scipy's PchipInterpolator._find_derivatives for points one apart, used in L65: differences m0 and m1 on the sides of an inner point *)
Definition inner_slope (m0 m1 : R) : R := if Req_EM_T m0 0 then 0 else if Req_EM_T m1 0 then 0 else if same_sign m0 m1 then / ((/ m0 + / m1) / 2) else 0.
(** PchipInterpolator._edge_case: m0 is the difference at the end, m1 the one next to it *)
Definition edge_slope (m0 m1 : R) : R :=
  let d := (3 * m0 - m1) / 2 in
  if negb (same_sign d m0) then 0 else if negb (same_sign m0 m1) then (if Rlt_dec (3 * Rabs m0) (Rabs d) then 3 * m0 else d) else d.
Definition step (x : list R) (i : nat) : R := get x (S i) - get x i.
Definition slope (x : list R) (i : nat) : R :=
  let n := length x in
  if (n =? 2)%nat then step x 0 else
  if (i =? 0)%nat then edge_slope (step x 0) (step x 1) else
  if (i =? n - 1)%nat then edge_slope (step x (n - 2)) (step x (n - 3)) else inner_slope (step x (i - 1)) (step x i).
(** the cubic on one interval, s from 0 to 1 *)
Definition hermite (y0 y1 d0 d1 s : R) : R := y0 * (1 + 2 * s) * (1 - s) ^ 2 + d0 * s * (1 - s) ^ 2 + y1 * s ^ 2 * (3 - 2 * s) + d1 * s ^ 2 * (s - 1).
(** value at the position t between 1 and the number of points *)
Definition pchip (x : list R) (t : R) : R :=
  let i := Nat.min (Z.to_nat (Int_part t) - 1) (length x - 2) in
  hermite (get x i) (get x (S i)) (slope x i) (slope x (S i)) (t - INR (S i)).
(** L58-63: k_log and beta *)
Definition k_log (n l : nat) : R := Rpower (INR n) (INR l / INR (n - 1)).
Definition log2 (v : R) : R := ln v / ln 2.
(** L69-72: n_window *)
Definition n_window (fractions beta : R) : nat := let n := Z.to_nat (Int_part (1 / (fractions * beta) + 1 / 2)) in (n + (1 - n mod 2))%nat.
(** scipy's symmetric hann window (L84 with the default type) *)
Definition hann (m : nat) : list R := mk m (fun i => if (m =? 1)%nat then 1 else 1 / 2 - 1 / 2 * cos (2 * PI * INR i / INR (m - 1))).
(** L97-98 *)
Definition norm_window (w : list R) : list R := map (fun v => v / sum (length w) (get w)) w.
(** np.pad with mode edge (L103-107): n_window is odd, so both sides are as long *)
Definition edge_pad (h : nat) (x : list R) : list R := repeat (get x 0) h ++ x ++ repeat (get x (length x - 1)) h.
(** oaconvolve with mode valid (L102-111): the longer one comes first *)
Definition valid (a b : list R) : list R := mk (length a - length b + 1) (fun n => sum (length b) (fun k => get b k * get a (n + (length b - 1) - k))).
Definition conv_valid (a b : list R) : list R := if (length b <=? length a)%nat then valid a b else valid b a.
(** interp1d, kind linear (L117-124): first grid point that is not below t, at least 1 and at most the last *)
Fixpoint search (g : list R) (t : R) : nat := match g with [] => 0 | v :: r => if Rlt_dec v t then S (search r t) else 0%nat end.
Definition interp (g y : list R) (t : R) : R :=
  let hi := Nat.min (Nat.max (search g t) 1) (length g - 1) in let lo := (hi - 1)%nat in
  (get y hi - get y lo) / (get g hi - get g lo) * (t - get g lo) + get y lo.
(** the whole function; [wtype]: window_type as a function of the length. Second result: what the caller's window_vec holds afterwards, if there is one. *)
Definition smooth (spacing : option R) (fractions : R) (wtype : option (nat -> list R)) (wvec : option (list R)) (clip : bool) (x : list R) : result (list R) * option (list R) :=
  let n := length x in
  match spacing, (n <=? 1)%nat with
  | None, true => (Err IndexError, wvec)
  | _, _ =>
      let grid := mk n (k_log n) in
      let v := match spacing with None => map (pchip x) grid | Some _ => x end in
      let beta := match spacing with None => log2 (k_log n 1) | Some b => b end in
      let nw := n_window fractions beta in
      match wtype, wvec with
      | Some _, Some _ => (Err AssertionError, wvec)
      | None, None => (Err AttributeError, wvec)
      | _, _ =>
          let w := norm_window (match wtype, wvec with Some f, _ => f nw | _, Some u => u | _, _ => [] end) in
          let after := match wvec with Some _ => Some w | None => None end in
          let s := conv_valid (edge_pad (nw / 2) v) w in
          let out := match spacing with
            | Some _ => Ok s
            | None => if (length s =? n)%nat then Ok (mk n (fun i => interp grid s (INR (S i)))) else Err ValueError
            end in
          (match out with Ok y => Ok (if clip then map (Rmax 0) y else y) | Err e => Err e end, after)
      end
  end.
