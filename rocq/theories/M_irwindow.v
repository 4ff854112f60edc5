(** Model of the functions which window impulse responses: transfer_functions.py L187-416 (window_ir, window_ir_tukey, window_centered_ir)
    and _transfer_functions.py L45-213 (_window_this_ir_tukey, _window_this_ir). The window types are functions [n -> samples of
    scipy's get_window(type, n)]: fftbins=True in [wl], [wr], False in [wc]. Samples are real numbers, rounding is not modelled. Lengths,
    offsets and positions are natural numbers. A channel has at least one sample. *)
From Coq Require Import List Arith Lia ZArith Bool Reals.
From Verif Require Import Alg Spec M_arrays M_signal M_latency M_ir M_generators.
Import ListNotations.
Local Open Scope R_scope.

(** One channel: the windowed samples, the window, the start sample which is reported *)
Record windowed := mkW { w_out : list R; w_win : list R; w_start : nat }.
(** vec * window *)
Definition times (v w : list R) : list R := map (fun p => fst p * snd p) (combine v w).
(** _transfer_functions.py L72: int(np.argmax(np.abs(vec))) *)
Definition peak_index (v : list R) : nat := argmax (map Rabs v).
(** L67-69: lengths of the flanks *)
Definition flanks (T : nat) (c ratio : R) : nat * nat :=
  let F := int_of ((1 - c) * INR T) in
  let l := int_of (INR F * (1 / 2) * ratio) in
  (l, (F - l)%nat).
(** L125-136: the points and the window; the differences are checked first *)
Definition flank_window (wl wr : nat -> list R) (at_start : bool) (l : nat) (r : Z) (T : nat) : result (list R) :=
  let p2 := (Z.of_nat T - r)%Z in
  if ((p2 <? Z.of_nat l) || (Z.of_nat T <? p2))%Z then Err AssertionError
  else tukey_like wl wr 0 l (Z.to_nat p2) T T at_start false.
(** L74-107 and L138-141, L146: adaptive_window=False *)
Definition window_fixed (wl wr : nat -> list R) (T : nat) (c : R) (at_start : bool) (o : nat) (ratio : R) (v : list R) : result windowed :=
  let '(l, r) := flanks T c ratio in
  let P := peak_index v in
  let '(v1, P1, st1, pl1) := if (P <? o)%nat then (repeat 0 (o - P) ++ v, (P + (o - P))%nat, (o - P)%nat, (o - P)%nat) else (v, (P - o)%nat, 0%nat, 0%nat) in
  let '(v2, st2, pl2) := if (P1 <? l)%nat then (repeat 0 (l - P1) ++ v1, (st1 + (l - P1))%nat, (pl1 + (l - P1))%nat) else (skipn (P1 - l) v1, (P1 - l)%nat, pl1) in
  let '(v3, pr) := if (length v2 <? T)%nat then (v2 ++ repeat 0 (T - length v2), (T - length v2)%nat) else (firstn T v2, 0%nat) in
  bind (flank_window wl wr at_start l (Z.of_nat r) T) (fun w =>
    let w1 := repeat 0 (Nat.min pl2 (length w)) ++ skipn pl2 w in
    let w2 := if (pr =? 0)%nat then w1 else firstn (length w1 - pr) w1 ++ repeat 0 pr in
    Ok (mkW (times v3 w2) w2 st2)).
(** L108-123 and L142-146: adaptive_window=True *)
Definition window_adaptive (wl wr : nat -> list R) (T : nat) (c : R) (at_start : bool) (o : nat) (ratio : R) (v : list R) : result windowed :=
  let '(l, r) := flanks T c ratio in
  let P := peak_index v in
  let '(l1, st, v1) := if (P <? o + l)%nat then ((P - o)%nat, 0%nat, v) else (l, (P - o - l)%nat, skipn (P - o - l) v) in
  let v2 := if (T <? length v1)%nat then firstn T v1 else v1 in
  let '(pa, T1) := if (length v2 <? T)%nat then ((T - length v2)%nat, length v2) else (0%nat, T) in
  let r1 := (if Z.of_nat T1 - Z.of_nat r <? Z.of_nat (l1 + o) then Z.of_nat T1 - Z.of_nat l1 - Z.of_nat o - 1 else Z.of_nat r)%Z in
  bind (flank_window wl wr at_start l1 r1 T1) (fun w =>
    let w2 := w ++ repeat 0 pa in
    Ok (mkW (times (v2 ++ repeat 0 pa) w2) w2 st)).
(** transfer_functions.py: the arrays are collected column by column, made a signal by copy_with_new_time_data and the window is set
    (impulse_response.py L133-146, which asserts equal shapes). *)
Definition same_shape (a b : mat) : bool := ((nrows a =? nrows b) && (ncols a =? ncols b))%nat.
Definition collect (s : signal) (ws : list windowed) : result (signal * mat * list nat) :=
  bind (set_data s (mkIn (map w_out ws) None false)) (fun s' =>
  if same_shape (map w_win ws) (s_re s') then Ok (s', map w_win ws, map w_start ws) else Err AssertionError).
(** transfer_functions.py L187-292 window_ir. The argument is an ImpulseResponse; the offset is not negative. *)
Definition window_ir (wl wr : nat -> list R) (T : nat) (adaptive : bool) (c : R) (at_start : bool) (o : nat) (ratio : R) (s : signal) : result (signal * mat * list nat) :=
  if (if Rlt_dec c 1 then if Rle_dec 0 c then true else false else false) then
  if (if Rle_dec (INR o) (c * INR T) then true else false) then
  if (if Rle_dec 0 ratio then true else false) then
    bind (seq_result (map ((if adaptive then window_adaptive else window_fixed) wl wr T c at_start o ratio) (s_re s))) (collect s)
  else Err AssertionError else Err AssertionError else Err AssertionError.

(** transfer_functions.py L295-365 window_ir_tukey: one window for all channels. [None] is no flank; int() truncates towards zero and a
    flank of negative length is skipped like one of no length, so a length is a natural number here. *)
Definition flank_samples (d : option R) (fs : R) : nat := match d with None => 0%nat | Some t => int_of (t * fs + 1 / 2) end.
Definition ir_tukey_window (wl : nat -> list R) (n l r : nat) : list R :=
  let w0 := repeat 1 n in
  let w1 := if (0 <? l)%nat then firstn l (wl (l * 2)%nat) ++ skipn l w0 else w0 in
  if (0 <? r)%nat then firstn (n - r) w1 ++ skipn r (wl (r * 2)%nat) else w1.
Definition window_ir_tukey (wl : nat -> list R) (is_tukey : bool) (left right : option R) (s : signal) : result (signal * mat) :=
  if (match left, right with None, None => true | _, _ => false end) then Err AssertionError
  else if is_tukey then Err AssertionError
  else
    let n := nrows (s_re s) in
    let l := flank_samples left (IZR (s_fs s)) in
    let r := flank_samples right (IZR (s_fs s)) in
    if (n <? l + r)%nat then Err AssertionError
    else
      let w := ir_tukey_window wl n l r in
      bind (set_data s (mkIn (map (fun x => times x w) (s_re s)) None false)) (fun s' =>
      let ws := repeat w (ncols (s_re s)) in
      if same_shape ws (s_re s') then Ok (s', ws) else Err AssertionError).

(** l[a:b] *)
Definition slice (a b : nat) (l : list R) : list R := firstn (b - a) (skipn a l).
(** product of two 1-d arrays with numpy's broadcasting *)
Definition broadcast (v w : list R) : result (list R) :=
  if (length v =? length w)%nat then Ok (times v w)
  else match w, v with
       | [b], _ => Ok (map (fun x => x * b) v)
       | _, [a] => Ok (map (fun b => a * b) w)
       | _, _ => Err ValueError
       end.
(** _transfer_functions.py L150-213 _window_this_ir. L178-206: indices, padding, product and final length, [v] and [P] possibly flipped *)
Definition centered_core (T : nat) (ce : bool) (w v : list R) (P : nat) : result (list R * list R * nat) :=
  let L := length v in
  let h := (T / 2)%nat in
  let '(low_td, low_w) := if (P <? h)%nat then (0%nat, (h - P)%nat) else ((P - h)%nat, 0%nat) in
  let v := if (L + low_td <? T)%nat then v ++ repeat 0 (T + low_td - L) else v in
  let '(up_td, up_w) := if ((length v <? P + h + 1) && negb ce)%nat%bool then (length v, (P + h + 1 - length v)%nat)
                        else ((P + h + 1)%nat, (length w - (if ce then 1 else 0))%nat) in
  let w := slice low_w up_w w in
  bind (broadcast (slice low_td up_td v) w) (fun td =>
    Ok (if (length td =? T)%nat then (td, w, low_td) else (pad_trim_col T true td, pad_trim_col T true w, low_td))).
(** L166-177 (peak, flipping, window) and L208-213 *)
Definition window_centered (wc : nat -> list R) (T : nat) (x : list R) : result windowed :=
  let P := peak_index x in
  let L := length x in
  let h := (T / 2)%nat in
  let ce := ((P + h =? L) && Nat.even L)%nat%bool in
  let w := wc (h * 2 + 1)%nat in
  if (h <? P)%nat then bind (centered_core T ce w (rev x) (L - P - 1)) (fun t => let '(td, w, low) := t in Ok (mkW (rev td) (rev w) low))
  else bind (centered_core T ce w x P) (fun t => let '(td, w, low) := t in Ok (mkW td w low)).
(** transfer_functions.py L403-412: the assignment of one column broadcasts a window of one sample *)
Definition fill (T : nat) (r : windowed) : result windowed :=
  if (length (w_win r) =? T)%nat then Ok r
  else match w_win r with [b] => Ok (mkW (w_out r) (repeat b T) (w_start r)) | _ => Err ValueError end.
(** L368-416 window_centered_ir *)
Definition window_centered_ir (wc : nat -> list R) (T : nat) (s : signal) : result (signal * mat * list nat) :=
  bind (seq_result (map (fun x => bind (window_centered wc T x) (fill T)) (s_re s))) (collect s).
