(** Model of complex_smoothing (transfer_functions/transfer_functions.py L1788-1876) with its backend (_transfer_functions.py L509-555, the same
    loop as the parallel one in L430-475), for one channel of a spectrum at the frequencies 0, df, 2 df, ... Values are exact numbers; a bin which is
    divided by a window of sum 0 is nan (None). *)
From Coq Require Import List Arith ZArith Bool Reals.
From Verif Require Import Alg Spec Dft M_arrays M_signal M_level M_spectrum M_minphase M_groupdelay.
Import ListNotations.
Local Open Scope R_scope.

(** transfer_functions/enums.py L37-42 *)
Inductive smoothing_domain := RealImaginary | PowerPhase | MagnitudePhase | Power | Magnitude | EquivalentComplex.
(** _transfer_functions.py L520 *)
Definition width_factor (frac : R) : R := Rpower 2 (1 / frac / 2).
(** L523-527, before the limits are applied: int() of numbers that are not negative *)
Definition raw_low (frac df : R) (i : nat) : Z :=
  let f0 := INR i * df in (Z.of_nat i - Int_part ((f0 - f0 / width_factor frac) / df + 1 / 2))%Z.
Definition raw_high (frac df : R) (i : nat) : Z :=
  let f0 := INR i * df in (Z.of_nat i + Int_part ((f0 * width_factor frac - f0) / df + 1 / 2) + 1)%Z.
(** np.logspace(np.log10(3), np.log10(1), n)[j] - 2 (L544-549) *)
Definition log_point (n : Z) (j : nat) : R := Rpower 10 (ln 3 / ln 10 + INR j * ((ln 1 / ln 10 - ln 3 / ln 10) / IZR (n - 1))) - 2.
(** L518 and L543-552: np.interp of the window prototype *)
Definition window_at (win : list R) (n : Z) (j : nat) : R :=
  np_interp (linspace (-1) 1 (length win)) win (nth 0 win 0) (last win 0) (log_point n j).
(** L522-554: one bin *)
Definition smooth_bin (frac df : R) (win : list R) (x : list C) (i : nat) : option C :=
  let lo := raw_low frac df i in
  let hi := raw_high frac df i in
  let n := (hi - lo)%Z in
  let lo := Z.max lo 0 in
  let hi := Z.min hi (Z.of_nat (length x)) in
  let m := Z.to_nat (hi - lo) in
  if (hi <=? lo + 2)%Z then Some (nth i x (rc 0)) else
  let total := sum (HA := CRing_R) m (window_at win n) in
  if Req_EM_T total 0 then None else
  Some (csum m (fun j => cmul (rc (window_at win n j / total)) (nth (Z.to_nat lo + j) x (rc 0)))).
(** transfer_functions.py L1827-1873, one bin. np.real(...) ** 0.5 of a negative number would be nan; with windows that are not negative there is none. *)
Definition complex_smoothing (frac df : R) (win : list R) (dom : smoothing_domain) (x : list C) (i : nat) : option C :=
  let polar r t := cmul (rc r) (cis t) in
  let with_phase g := map (fun p => (g (fst p), snd p)) (combine x (unwrap (map angle x))) in
  let sm := smooth_bin frac df win in
  match dom with
  | RealImaginary => sm x i
  | MagnitudePhase => option_map (fun v => polar (fst v) (snd v)) (sm (with_phase cmod) i)
  | PowerPhase => option_map (fun v => polar (sqrt (fst v)) (snd v)) (sm (with_phase (fun z => cmod z ^ 2)) i)
  | Power => option_map (fun v => polar (sqrt (fst v)) (angle (nth i x (rc 0)))) (sm (map (fun z => rc (cmod z ^ 2)) x) i)
  | Magnitude => option_map (fun v => polar (fst v) (angle (nth i x (rc 0)))) (sm (map (fun z => rc (cmod z)) x) i)
  | EquivalentComplex =>
      match sm x i, sm (map (fun z => rc (cmod z ^ 2)) x) i with
      | Some v, Some w => Some (polar (sqrt (fst w)) (angle v))
      | _, _ => None
      end
  end.
