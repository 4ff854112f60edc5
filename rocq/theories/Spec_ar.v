(** What an autoregressive model of a signal is. *)
From Coq Require Import List Arith Lia Reals.
From Verif Require Import Alg Spec Dft.
Import ListNotations.
Local Open Scope R_scope.

Definition dist (i j : nat) : nat := (i - j) + (j - i).
(** a (with a0 = 1) solves the Yule-Walker equations of the autocorrelation r, with error power e. *)
Definition yule_walker (r a : list R) (e : R) : Prop :=
  length a = length r /\ get a 0 = 1 /\
  (forall m, (1 <= m < length r)%nat -> rsum (length r) (fun j => get a j * get r (dist m j)) = 0) /\
  rsum (length r) (fun j => get a j * get r j) = e.
(** Energy of what remains of x after the prediction filter a: all samples of the full convolution. *)
Definition residual (a x : list R) : R := rsum (length x + length a) (fun n => conv a x n * conv a x n).
(** Biased autocorrelation at lag k. *)
Definition acorr (x : list R) (k : nat) : R := rsum (length x) (fun n => get x n * get x (n + k)) / INR (length x).
(** All poles of 1 / A(z) are strictly inside the unit circle: A has no zero for |1/z| <= 1. *)
Definition stable (a : list R) : Prop :=
  forall w : C, cabs2 w <= 1 -> csum (length a) (fun j => cmul (rc (get a j)) (rpow w j)) <> rc 0.
