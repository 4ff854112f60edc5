(** Model of helpers/ar_estimation.py. Arrays with several channels or frames are lists of columns. *)
From Coq Require Import List Arith Lia Reals.
From Verif Require Import Alg Spec Dft.
Import ListNotations.
Local Open Scope R_scope.

(** L52-61: the in-place update of the parameters, one lag. *)
Definition lev_inner (k : R) (order : nat) (p : list R) (lag : nat) : list R :=
  let rev := (order - lag - 1)%nat in
  let save := get p lag in
  let p1 := upd p lag (save + k * get p rev) in
  if (lag =? rev)%nat then p1 else upd p1 rev (get p1 rev + k * save).
(** L33-61, one order, one column: (ar_parameters, prediction_error). rt is autocorrelation[1:].
    Division by a zero prediction error gives nan in the code; here R's total division: theorems assume a non-zero start. *)
Definition lev_step (rt : list R) (q : list R * R) (order : nat) : result (list R * R) :=
  let (p, e) := q in
  let v := fold_left (fun v lag => v + get p lag * get rt (order - lag - 1)) (seq 0 order) (get rt order) in
  let k := - v / e in
  let e' := e * (1 - k * k) in
  if Rle_dec e' 0 then Err ValueError else
  let p' := upd p order k in
  Ok (if (order =? 0)%nat then p' else fold_left (lev_inner k order) (seq 0 ((order + 1) / 2)) p', e').
Fixpoint lev_loop (rt : list R) (orders : list nat) (q : list R * R) : result (list R * R) :=
  match orders with
  | [] => Ok q
  | o :: t => bind (lev_step rt q o) (lev_loop rt t)
  end.
(** L6-68 _levison_durbin_recursion, one column *)
Definition levinson (r : list R) : result (list R * R) :=
  bind (lev_loop (tl r) (seq 0 (length r - 1)) (repeat 0 (length r - 1), get r 0)) (fun q => Ok (1 :: fst q, snd q)).
(** L99-103: correlate(x, x, "full")[L-1 : L+order] / L; scipy.signal.correlate by its definition. *)
Definition autocorr (order : nat) (x : list R) : list R :=
  mk (min (order + 1) (length x)) (fun k => rsum (length x - k) (fun n => get x (n + k) * get x n) / INR (length x)).
(** L71-126 _yw_ar_estimation for a vector. *)
Definition yw (order : nat) (x : list R) : result (list R * R) := levinson (autocorr order x).
(** L104-124 for arrays with columns of length L: assigning a shorter autocorrelation raises. The check L48 is over all
    columns, so one failing column raises; here the columns are handled one after the other. *)
Fixpoint yw_cols (order : nat) (td : list (list R)) : result (list (list R * R)) :=
  match td with
  | [] => Ok []
  | x :: t => bind (if (length x <=? order)%nat then Err ValueError else yw order x) (fun r => bind (yw_cols order t) (fun q => Ok (r :: q)))
  end.

(** L176: np.finfo(float64).eps *)
Definition burg_eps : R := / 4503599627370496.
Record burg_state := mkB { bg_ar : list R; bg_prev : list R; bg_f : list R; bg_b : list R; bg_den : R }.
Definition dotp (u v : list R) : R := rsum (length u) (fun i => get u i * get v i).
(** L182-203: one iteration, one column. With an empty error vector L199 raises IndexError. *)
Definition burg_step (s : burg_state) (i : nat) : result burg_state :=
  if (length (bg_f s) =? 0)%nat then Err IndexError else
  let k := (-2 * dotp (bg_b s) (bg_f s)) / (bg_den s + burg_eps) in
  let prev := bg_ar s in
  let ar := fold_left (fun ar j => upd ar j (get prev j + k * get prev (i + 1 - j))) (seq 1 (i + 1)) (bg_prev s) in
  let f := mk (length (bg_f s)) (fun n => get (bg_f s) n + k * get (bg_b s) n) in
  let b := mk (length (bg_b s)) (fun n => get (bg_b s) n + k * get (bg_f s) n) in
  let den := (1 - k * k) * bg_den s - get b (length b - 1) * get b (length b - 1) - get f 0 * get f 0 in
  Ok (mkB ar prev (tl f) (removelast b) den).
Fixpoint burg_loop (is : list nat) (s : burg_state) : result burg_state :=
  match is with [] => Ok s | i :: t => bind (burg_step s i) (burg_loop t) end.
(** L156-181; rows is the number of rows of ar_coeffs. *)
Definition burg_init (rows : nat) (x : list R) : burg_state :=
  let f := tl x in let b := removelast x in
  mkB (1 :: repeat 0 (rows - 1)) (1 :: repeat 0 (rows - 1)) f b (rsum (length f) (fun n => get f n * get f n + get b n * get b n)).
(** L129-205 _burg_ar_estimation for a vector (L158-160: order + 1 rows). *)
Definition burg (order : nat) (x : list R) : result (list R * R) :=
  bind (burg_loop (seq 0 order) (burg_init (order + 1) x)) (fun s => Ok (bg_ar s, bg_den s)).
(** One column of an array with two or more dimensions (L161-164: as many rows as time samples plus one). *)
Definition burg_col (order : nat) (x : list R) : result (list R * R) :=
  bind (burg_loop (seq 0 order) (burg_init (length x + 1) x)) (fun s => Ok (bg_ar s, bg_den s)).
