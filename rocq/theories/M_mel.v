(** Model of the perceptual frequency scales: helpers/frequency_conversion.py (_hz2mel, _mel2hz, _frequency_weightning), transforms/transforms.py
    (mel_filterbank, log_mel_spectrogram, chroma_stft) and transforms/_transforms.py (_pitch2frequency). Frequencies and samples are real numbers. *)
From Coq Require Import List Arith Lia ZArith Bool Reals.
From Verif Require Import Alg Spec Dft M_arrays M_signal M_latency M_dynamics M_level M_distances.
Import ListNotations.
Local Open Scope R_scope.

(** helpers/frequency_conversion.py L25 _hz2mel and L46 _mel2hz *)
Definition hz2mel (f : R) : R := 2595 * log10 (1 + f / 700).
Definition mel2hz (m : R) : R := 700 * (Rpower 10 (m / 2595) - 1).
(** np.linspace with both ends, at least two points *)
Definition linspace (a b : R) (n : nat) : list R := mk n (fun i => a + (b - a) * INR i / INR (n - 1)).

(** transforms.py L228-247: range, centre frequencies in mel and their bins. [f] is one-dimensional; squeezing a single frequency gives a
    scalar (AssertionError), and an empty vector has no first or last entry (IndexError). [n] bands, a natural number. *)
Definition mel_range (f : list R) (range : option (R * R)) : result (R * R) :=
  match f with
  | [] => Err IndexError
  | [_] => Err AssertionError
  | _ =>
      match range with
      | None => Ok (get f 0, get f (length f - 1))
      | Some (a, b) =>
          let lo := Rmin a b in let hi := Rmax a b in
          if Rle_dec hi (get f (length f - 1)) then if Rle_dec 0 lo then Ok (lo, hi) else Err AssertionError else Err AssertionError
      end
  end.
Definition mel_points (lo hi : R) (n : nat) : list R := linspace (hz2mel lo) (hz2mel hi) (n + 2).
Definition mel_bins (f : list R) (lo hi : R) (n : nat) : list nat := map (fun m => nearest (mel2hz m) f) (mel_points lo hi n).
(** transforms.py L249-260: one triangle of a matrix with N columns, from bin [i] over bin [j] to bin [k]. np.linspace of a negative number of
    points raises ValueError. *)
Definition triangle (N i j k : nat) : result (list R) :=
  if (i <=? j)%nat && (j <=? k)%nat then
    Ok (mk N (fun b => if (j <=? b)%nat && (b <? k)%nat then 1 - INR (b - j) / INR (k - j)
                       else if (i <=? b)%nat && (b <? j)%nat then INR (b - i) / INR (j - i) else 0))
  else Err ValueError.
(** L261-262: division by the sum of the row; 0 / 0 is nan (None) *)
Definition area_norm (row : list R) : list (option R) :=
  let s := rsum (length row) (fun b => get row b) in
  map (fun v => if Req_EM_T s 0 then None else Some (v / s)) row.
Definition mel_rows (normalize : bool) (N : nat) (inds : list nat) (n : nat) : result (list (list (option R))) :=
  fold_right (fun b r => bind (triangle N (nth b inds 0%nat) (nth (S b) inds 0%nat) (nth (S (S b)) inds 0%nat)) (fun row =>
                         bind r (fun rs => Ok ((if normalize then area_norm row else map Some row) :: rs)))) (Ok []) (seq 0 n).
(** transforms.py L198-263 mel_filterbank: the matrix (rows are bands) and the centres in mel *)
Definition mel_filterbank (f : list R) (range : option (R * R)) (n : nat) (normalize : bool) : result (list (list (option R)) * list R) :=
  bind (mel_range f range) (fun r =>
  bind (mel_rows normalize (length f) (mel_bins f (fst r) (snd r) n) n) (fun rows =>
  Ok (rows, firstn n (tl (mel_points (fst r) (snd r) n))))).
(** transforms.py L177-182 log_mel_spectrogram for one frame of power values [p] (np.abs(sp) ** 2): tensordot with the matrix and to_db with its
    default smallest value [m]; a band with nan is nan (None). *)
Definition row_dot (row : list (option R)) (p : list R) : option R :=
  fold_right (fun vp acc => match fst vp, acc with Some v, Some a => Some (v * snd vp + a) | _, _ => None end) (Some 0) (combine row p).
Definition log_mel_frame (m : R) (rows : list (list (option R))) (p : list R) : list (option R) :=
  map (fun row => match row_dot row p with Some v => to_db1 false (Rmax (Rabs v) m) | None => None end) rows.

(** ** Pitches *)
(** transforms/_transforms.py L24-25 _pitch2frequency *)
Definition pitch_frequency (a : R) (p : nat) : R := a * Rpower 2 ((INR p - 69) / 12).
(** transforms.py L648-652: does bin frequency [f] belong to pitch [p]? *)
Definition in_pitch (a f : R) (p : nat) : bool :=
  if Rle_dec (pitch_frequency a p * Rpower 2 (-1 / 24)) f then if Rlt_dec f (pitch_frequency a p * Rpower 2 (1 / 24)) then true else false else false.
(** L660-666 for one frame of power values: pitch energies, chroma energies (every twelfth pitch) and the compression *)
Definition pitch_energy (a : R) (f p : list R) (q : nat) : R := rsum (length f) (fun b => (if in_pitch a (get f b) q then 1 else 0) * get p b).
Definition chroma_energy (a : R) (f p : list R) (c : nat) : R := rsum 128 (fun q => (if (q mod 12 =? c)%nat then 1 else 0) * pitch_energy a f p q).
Definition compress (c v : R) : R := ln (1 + c * v).
(** transforms.py L636-666 chroma_stft for one frame: chroma features and pitch features. Plotting is not modelled. *)
Definition chroma_frame (a c : R) (f p : list R) : result (list R * list R) :=
  if Rlt_dec 0 a then if Rlt_dec 0 c then
    Ok (mk 12 (fun i => compress c (chroma_energy a f p i)), mk 128 (fun q => compress c (pitch_energy a f p q)))
  else Err AssertionError else Err AssertionError.

(** ** Frequency weighting *)
(** helpers/frequency_conversion.py L78-89 *)
Inductive weighting := WA | WC.
Definition raw_weight (w : weighting) (f : R) : R :=
  match w with
  | WA => 12194 ^ 2 * f ^ 4 / ((f ^ 2 + (206 / 10) ^ 2) * sqrt ((f ^ 2 + (1077 / 10) ^ 2) * (f ^ 2 + (7379 / 10) ^ 2)) * (f ^ 2 + 12194 ^ 2))
  | WC => 12194 ^ 2 * f ^ 2 / ((f ^ 2 + (206 / 10) ^ 2) * (f ^ 2 + 12194 ^ 2))
  end.
(** L49-93 _frequency_weightning with linear output: divided by the weight at the bin nearest to 1 kHz; None where that is zero (nan). A single
    frequency squeezes to a scalar. np.argmin of an empty vector raises ValueError. *)
Definition frequency_weighting (w : weighting) (f : list R) : result (option (list R)) :=
  match f with
  | [] => Err ValueError
  | [_] => Err AssertionError
  | _ => let ref := raw_weight w (get f (nearest 1000 f)) in
         Ok (if Req_EM_T ref 0 then None else Some (map (fun v => raw_weight w v / ref) f))
  end.
(** db_output = True: to_db with its default smallest value [m] *)
Definition frequency_weighting_db (m : R) (w : weighting) (f : list R) : result (option (list (option R))) :=
  bind (frequency_weighting w f) (fun o => Ok (option_map (map (fun v => to_db1 true (Rmax (Rabs v) m))) o)).
