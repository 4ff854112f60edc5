(** Model of dither (standard/other.py). Samples are real numbers; None stands for a sample that is not finite. Rounding to half precision is
    Flocq's rounding to nearest, ties to even, in the format with 11 digits and least exponent -24. *)
From Coq Require Import List Arith ZArith Bool Reals.
From Flocq Require Import Core.
From Verif Require Import Alg M_signal M_rirconv.
Import ListNotations.
Local Open Scope R_scope.

(** standard/other.py L360-361: .astype(np.float16).astype(np.float64) on one sample; beyond the largest number, 65504, the result is inf. *)
Definition to_half (v : R) : option R :=
  let r := round radix2 (FLT_exp (-24) 11) ZnearestE v in if Rle_dec (Rabs r) 65504 then Some r else None.
(** sum of two arrays of the shape of the first *)
Definition mat_add (a b : mat) : mat := mk (ncols a) (fun c => mk (nrows a) (fun i => nth i (nth c a []) 0 + nth i (nth c b []) 0)).
(** L343-348: the noise; u1 and u2 are the outcomes of np.random.uniform(-epsilon / 2, epsilon / 2) *)
Definition dither_noise (triangular : bool) (u1 u2 : mat) : mat := if triangular then mat_add u1 u2 else u1.
(** L350-355: shaping by the filter bank in sequential mode, given as a function on signals; Signal() constrains the amplitude by default *)
Definition shape_noise (shaper : option (signal -> signal)) (fs : Z) (noise : mat) : result mat :=
  match shaper with
  | None => Ok noise
  | Some f => bind (set_time_data true fs (mkIn noise None false)) (fun g => Ok (s_re (f g)))
  end.
(** L287-364 dither. Ok None: the result has samples that are not finite. *)
Definition dither (triangular : bool) (shaper : option (signal -> signal)) (trunc : bool) (u1 u2 : mat) (s : signal) : result (option signal) :=
  bind (shape_noise shaper (s_fs s) (dither_noise triangular u1 u2)) (fun noise =>
    let m := mat_add (s_re s) noise in
    match (if trunc then all_some (map (fun col => all_some (map to_half col)) m) else Some m) with
    | None => Ok None
    | Some m => bind (set_data s (mkIn m None false)) (fun s' => Ok (Some s'))
    end).
