(** Model of transforms/transforms.py (cepstrum, from_complex_cepstrum, hilbert, stereo_mid_side, laguerre, warp, warp_filter, dft) and of
    transforms/_transforms.py (_warp_time_series, _get_warping_factor, _dft_backend). Samples are real numbers, complex values pairs; fft and ifft
    are the defining sums ([cdft], [icdft] of P_dft2). *)
From Coq Require Import List Arith Lia ZArith Bool Reals Ascii String.
From Verif Require Import Alg Spec Dft M_arrays M_signal M_filter M_tf M_room M_minphase P_dft2.
Import ListNotations.
Local Open Scope R_scope.
Local Open Scope list_scope.

(** np.log of a nonzero complex number: principal branch *)
Definition clog (z : C) : C := (ln (cmod z), angle z).
(** np.log(0) is -inf and makes every entry of the following ifft nan or inf: None *)
Definition any_zero (N : nat) (X : nat -> C) : bool := existsb (fun k => c_is_zero (X k)) (seq 0 N).

(** transforms.py L59-86 cepstrum, one channel; complex = True *)
Definition complex_cepstrum (x : list R) : option (list C) :=
  let N := List.length x in
  if any_zero N (dft N x) then None else Some (mk N (fun t => icdft N (fun k => clog (dft N x k)) t)).
(** complex = False *)
Definition real_cepstrum (x : list R) : option (list C) :=
  let N := List.length x in
  if any_zero N (dft N x) then None else Some (mk N (fun t => icdft N (fun k => rc (ln (cmod (dft N x k)))) t)).
(** L89-110 from_complex_cepstrum: one column, and the Signal made of the columns (constrain_amplitude has its default True) *)
Definition from_cepstrum_col (c : list C) : list R :=
  let N := List.length c in
  mk N (fun t => fst (icdft N (fun k => cexp (cdft N (fun j => nth j c (rc 0)) k)) t)).
Definition from_complex_cepstrum (fs : Z) (cs : list (list C)) : result signal :=
  set_time_data true fs (mkIn (map from_cepstrum_col cs) None false).

(** L794-802: factor of bin k of N *)
Definition analytic_weight (N k : nat) : R :=
  if Nat.even N then
    (if (k =? 0)%nat then 1 else if (k <? N / 2)%nat then 2 else if (k =? N / 2)%nat then 1 else 0)
  else
    (if (k =? 0)%nat then 1 else if (k <? (N + 1) / 2)%nat then 2 else 0).
(** L791-804 hilbert of a Signal: one column *)
Definition analytic (x : list R) : list C :=
  let N := List.length x in
  mk N (fun t => icdft N (fun k => cmul (rc (analytic_weight N k)) (dft N x k)) t).
(** L804: the complex array is handed to copy_with_new_time_data *)
Definition hilbert_signal (s : signal) : result signal :=
  set_data s (mkIn (map (fun x => map fst (analytic x)) (s_re s)) (Some (map (fun x => map snd (analytic x)) (s_re s))) false).
(** L805-808 hilbert of a MultiBandSignal given as the list of its bands *)
Definition hilbert_bands (bands : list signal) : result (list signal) := all_ok (map hilbert_signal bands).

(** L926-952 stereo_mid_side (float time data) *)
Definition stereo_mid_side (forward : bool) (s : signal) : result signal :=
  match s_re s with
  | [l; r] =>
      let h v := if forward then v / 2 else v in
      set_data s (mkIn [mk (List.length l) (fun t => h (get l t + get r t)); mk (List.length l) (fun t => h (get l t - get r t))] None false)
  | _ => Err AssertionError
  end.

(** L1314-1327 dft with _dft_backend (_transforms.py L480-501): one channel, one frequency *)
Definition dft_at (fs : R) (x : list R) (f : R) : C :=
  let N := List.length x in
  let fn := f * (INR N / fs) in
  csum N (fun n => cmul (cexp (0, (- 2 * PI * (INR n / INR N)) * fn)) (rc (get x n))).
(** channels of the result, one value for each frequency *)
Definition dft_any (fs : R) (td : list (list R)) (fv : list R) : list (list C) := map (fun x => map (dft_at fs x) fv) td.

(** L1006-1008 and L1011-1014 laguerre: the first stage and the others, one channel *)
Definition lag_first (lam : R) (x : list R) : list R := fst (lfilter [sqrt (1 - lam * lam)] [1; lam] x [0]).
Definition lag_stage (lam : R) (x : list R) : list R := fst (lfilter [lam; 1] [1; lam] x [0]).
Fixpoint lag_outputs (lam : R) (m : nat) (x : list R) : list R :=
  match m with O => [] | S m' => last x 0 :: lag_outputs lam m' (lag_stage lam x) end.
(** L998-1014: one column *)
Definition laguerre_col (lam : R) (x : list R) : list R := lag_outputs lam (List.length x) (lag_first lam (rev x)).
(** L955-1016 *)
Definition laguerre (lam : R) (s : signal) : result signal :=
  if Rlt_dec (Rabs lam) 1 then set_data s (mkIn (map (laguerre_col lam) (s_re s)) None false) else Err AssertionError.

(** _transforms.py L386-428 _warp_time_series, one column: the successive responses and the weighted sum *)
Definition warp_stage (lam : R) (d : list R) : list R := fst (lfilter [- lam; 1] [1; - lam] d [0]).
Definition unit_impulse (N : nat) : list R := mk N (fun t => if (t =? 0)%nat then 1 else 0).
Fixpoint warp_acc (lam : R) (td : list R) (d acc : list R) : list R :=
  match td with
  | [] => acc
  | v :: t => let d' := warp_stage lam d in warp_acc lam t d' (mk (List.length acc) (fun i => get acc i + get d' i * v))
  end.
Definition warp_col (lam : R) (td : list R) : list R :=
  let d := unit_impulse (List.length td) in
  warp_acc lam (tl td) d (mk (List.length td) (fun i => get d i * get td 0)).

(** _transforms.py L431-470 _get_warping_factor. Python values: a float, a (lower case) ASCII string, anything else. *)
Inductive wfactor := WFloat (v : R) | WStr (s : string) | WOther.
Fixpoint contains (p s : string) : bool :=
  String.prefix p s || match s with EmptyString => false | String _ t => contains p t end.
Fixpoint last_char (s : string) : option ascii :=
  match s with EmptyString => None | String c EmptyString => Some c | String _ t => last_char t end.
Definition bark_factor (fs : R) : R := -1 * (10674 / 10000 * sqrt (2 / PI * atan (6583 / 100000 * fs)) - 1916 / 10000).
Definition erb_factor (fs : R) : R := -1 * (7446 / 10000 * sqrt (2 / PI * atan (1418 / 10000 * fs)) + 3237 / 100000).
Definition warping_factor (w : wfactor) (fs : R) : result R :=
  match w with
  | WFloat v => if Rlt_dec (Rabs v) 1 then Ok v else Err AssertionError
  | WStr s =>
      match last_char s with
      | None => Err IndexError
      | Some c =>
          let invert v := if (Ascii.eqb c "k" || Ascii.eqb c "b")%char then v else v * -1 in
          if contains "bark" s then Ok (invert (bark_factor fs))
          else if contains "erb" s then Ok (invert (erb_factor fs))
          else Err ValueError
      end
  | WOther => Err TypeError
  end.
(** transforms.py L1109-1130 warp: shifting (np.roll by minus the start), cutting and warping; the Signal and the factor used.
    _find_ir_start is find_ir_start1 of M_room. total_length is a natural number here; with 0 the array has no row 0 (IndexError). *)
Definition roll_left (k : nat) (x : list R) : list R := skipn k x ++ firstn k x.
Definition warp (w : wfactor) (shift_ir : bool) (total : option nat) (s : signal) : result (signal * R) :=
  bind (warping_factor w (IZR (s_fs s))) (fun lam =>
  bind (if shift_ir then all_ok (map (fun x => bind (find_ir_start1 (-20) x) (fun k => Ok (roll_left k x))) (s_re s)) else Ok (s_re s)) (fun td =>
  if match total with Some O => true | _ => false end then Err IndexError else
  let td := match total with None => td | Some n => map (firstn n) td end in
  bind (set_data s (mkIn (map (warp_col lam) td) None false)) (fun s' => Ok (s', lam)))).

(** transforms.py L1187-1196 warp_filter on the zeros and poles of a filter in ZPK form; None where 1 + lambda p is zero (numpy gives inf or nan) *)
Definition warp_root (lam : R) (z : C) : option C := cdiv (cadd (rc lam) z) (cadd (rc 1) (cmul (rc lam) z)).
Fixpoint all_some {T} (l : list (option T)) : option (list T) :=
  match l with [] => Some [] | Some v :: t => option_map (cons v) (all_some t) | None :: _ => None end.
Definition zpk := (list C * list C * R)%type.
Definition warp_filter (lam : R) (f : zpk) : result (option zpk) :=
  if Rlt_dec (Rabs lam) 1 then
    let '(z, p, k) := f in
    Ok (match all_some (map (warp_root lam) p), all_some (map (warp_root lam) z) with
        | Some p', Some z' =>
            Some (z' ++ repeat (rc lam) (List.length p - List.length z), p' ++ repeat (rc lam) (List.length z - List.length p), k)
        | _, _ => None
        end)
  else Err AssertionError.
