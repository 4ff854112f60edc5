(** Model of the Room and ShoeboxRoom classes and of the image source model (room_acoustics/_room_acoustics.py). *)
From Coq Require Import List Arith Lia ZArith Bool Reals.
From Verif Require Import Alg Spec Dft M_arrays.
Import ListNotations.
Local Open Scope R_scope.

(** ** Room *)
(** What add_detailed_absorption stores: absorption_matrix (north, south, east, west, floor, ceiling), absorption_area,
    mean_absorption_coefficients_per_frequency, center_frequencies, t60_s_per_frequency. *)
Record detail := mkDetail { dt_matrix : list (list R); dt_area : list R; dt_mean : list R; dt_freqs : list R; dt_t60 : list R }.
Record room := mkRoom { rm_dims : option (R * R * R); rm_vol : R; rm_area : R; rm_t60 : R; rm_alpha : R;
  rm_schroeder : R; rm_critical : R; rm_detail : option detail }.
(** L330-334: the derived values *)
Definition derive (dims : option (R * R * R)) (v s t a : R) : room :=
  mkRoom dims v s t a (2000 * sqrt (t / v)) (57 / 1000 * sqrt (v / t)) None.
(** L278-334 Room.__init__ with the setters of volume and area (L337-353). If both t60_s and absorption_coefficient are given,
    neither attribute is set and L331 raises AttributeError. A zero t60 divides by zero at L320 (Python floats). *)
Definition room_new (dims : option (R * R * R)) (v s : R) (t60 alpha : option R) : result room :=
  if Rlt_dec 0 s then if Rlt_dec 0 v then
    match t60, alpha with
    | None, None => Err AssertionError
    | None, Some a => if Rlt_dec 0 a then if Rle_dec a 1 then Ok (derive dims v s (161 / 1000 * v / s / a) a) else Err AssertionError
                      else Err AssertionError
    | Some t, None => if Req_EM_T t 0 then Err ZeroDivisionError else
                      let a := 161 / 1000 * v / s / t in
                      if Rlt_dec 0 a then if Rle_dec a 1 then Ok (derive dims v s t a) else Err AssertionError else Err AssertionError
    | Some _, Some _ => Err AttributeError
    end
  else Err AssertionError else Err AssertionError.
(** L383-431 ShoeboxRoom.__init__: np.roll(d, 1) @ d * 2 *)
Definition shoebox_new (dims : list R) (t60 alpha : option R) : result room :=
  match dims with
  | [x; y; z] => if Rlt_dec 0 x then if Rlt_dec 0 y then if Rlt_dec 0 z then
                   room_new (Some (x, y, z)) (x * y * z) ((z * x + x * y + y * z) * 2) t60 alpha
                 else Err AssertionError else Err AssertionError else Err AssertionError
  | _ => Err AssertionError
  end.
(** L433-449 check_if_in_room: only the upper limits are compared. Points are triples. *)
Definition leb (a b : R) : bool := if Rle_dec a b then true else false.
Definition in_room (dims p : R * R * R) : bool :=
  let '(x, y, z) := dims in let '(a, b, c) := p in leb a x && leb b y && leb c z.
(** L355-376 modal_density *)
Definition modal_density (v s f c : R) : R := 4 * PI * (f * f) * v / (c * c * c) + PI * f * s / 2 / (c * c).

(** ** Modes *)
Definition mode := (R * (nat * nat * nat))%type.
Definition mode_freq (c : R) (dims : R * R * R) (n : nat * nat * nat) : R :=
  let '(x, y, z) := dims in let '(a, b, d) := n in
  c / 2 * sqrt ((INR a / x) * (INR a / x) + (INR b / y) * (INR b / y) + (INR d / z) * (INR d / z)).
(** The three nested loops L536-549 *)
Definition triples (m : nat) : list (nat * nat * nat) :=
  flat_map (fun a => flat_map (fun b => map (fun d => (a, b, d)) (seq 0 m)) (seq 0 m)) (seq 0 m).
(** modes[modes[:, 0].argsort()]: sorted by frequency. The order among equal frequencies is not specified by numpy (quicksort);
    here an insertion sort. *)
Fixpoint insert_mode (v : mode) (l : list mode) : list mode :=
  match l with [] => [v] | w :: t => if Rle_dec (fst v) (fst w) then v :: l else w :: insert_mode v t end.
Definition sort_modes (l : list mode) : list mode := fold_right insert_mode [] l.
(** L506-552 get_room_modes: max_order + 1 values per axis, without the first (trivial) entry *)
Definition room_modes (max_order : nat) (c : R) (dims : R * R * R) : list mode :=
  sort_modes (tl (map (fun n => (mode_freq c dims n, n)) (triples (S max_order)))).

(** ** Analytical transfer function *)
(** L659-661, the number of dimensions in which a mode is not constant, minus one, selects [4, 2, 1] *)
Definition cn (n : nat * nat * nat) : R :=
  let '(a, b, d) := n in
  match ((if a =? 0 then 0 else 1) + (if b =? 0 then 0 else 1) + (if d =? 0 then 0 else 1))%nat with 1%nat => 4 | 2%nat => 2 | _ => 1 end.
(** L635-666: one term, at the angular frequency w, with damping eta *)
Definition mode_term (c eta w : R) (dims s r : R * R * R) (n : nat * nat * nat) : C :=
  let '(x, y, z) := dims in let '(a, b, d) := n in let '(s1, s2, s3) := s in let '(r1, r2, r3) := r in
  let k1 := INR a / x * PI in let k2 := INR b / y * PI in let k3 := INR d / z * PI in
  let wn := c * sqrt (k1 * k1 + k2 * k2 + k3 * k3) in
  let p := (cos (k1 * s1) * cos (k1 * r1)) * (cos (k2 * s2) * cos (k2 * r2)) * (cos (k3 * s3) * cos (k3 * r3)) in
  cmul (rc p) (cinv (cmul (rc (cn n)) (wn * wn - w * w, 2 * eta * wn))).
(** L554-685 get_analytical_transfer_function of a room without detailed absorption, at one frequency; plots and the table of
    modes are left out. *)
Definition analytical_tf (r : room) (s q : R * R * R) (max_order : nat) (c f : R) : result C :=
  match rm_dims r with
  | None => Err AttributeError
  | Some dims =>
      if in_room dims s && in_room dims q then
        let eta := ln 1000 / rm_t60 r in
        let '(x, y, z) := dims in
        Ok (cmul (fold_left cadd (map (mode_term c eta (2 * PI * f) dims s q) (tl (triples (S max_order)))) (rc 0))
                 (rc (8 * (c * c) / (x * y * z))))
      else Err AssertionError
  end.

(** ** Detailed absorption *)
Inductive wall := North | South | East | West | Floor | Ceiling.
Inductive key := Wall (w : wall) | Extra (n : nat).
Definition wall_index (w : wall) : nat := match w with North => 0 | South => 1 | East => 2 | West => 3 | Floor => 4 | Ceiling => 5 end.
Definition key_eqb (a b : key) : bool :=
  match a, b with Wall v, Wall w => wall_index v =? wall_index w | Extra n, Extra m => n =? m | _, _ => false end.
(** A dictionary, in insertion order. *)
Definition dict := list (key * list R).
Definition walls : list wall := [North; South; East; West; Floor; Ceiling].
Definition all01 (l : list R) : bool := forallb (fun v => if Rlt_dec v 1 then if Rlt_dec 0 v then true else false else false) l.
(** L741-758: the loop over the dictionary. Every entry is replaced before it is checked, so a dictionary that fails stays
    changed. The second component is the number of bands. *)
Fixpoint check_loop (d : dict) (nb : nat) : dict * result nat :=
  match d with
  | [] => ([], Ok nb)
  | (k, ab) :: t =>
      let '(ab', r) := if (length ab =? 1)%nat then (repeat (get ab 0) 8, Ok nb)
                       else if (length ab <=? 8)%nat then (ab, Ok (if (length ab <? nb)%nat then nb else length ab))
                       else (ab, Err ValueError) in
      match r with
      | Err e => ((k, ab) :: t, Err e)
      | Ok nb' => if all01 ab then let (t', r') := check_loop t nb' in ((k, ab') :: t', r') else ((k, ab') :: t, Err AssertionError)
      end
  end.
(** L759-768: trim, or np.pad(..., "edge"), which fails on an empty array *)
Definition fit_bands (nb : nat) (l : list R) : result (list R) :=
  if (nb <=? length l)%nat then Ok (firstn nb l)
  else match l with [] => Err ValueError | _ => Ok (l ++ repeat (last l 0) (nb - length l)) end.
Fixpoint fit_loop (nb : nat) (d : dict) : dict * option exn :=
  match d with
  | [] => ([], None)
  | (k, l) :: t => match fit_bands nb l with
                   | Err e => ((k, l) :: t, Some e)
                   | Ok l' => let (t', e) := fit_loop nb t in ((k, l') :: t', e)
                   end
  end.
Definition lookup (k : key) (d : dict) : list R := match find (fun e => key_eqb k (fst e)) d with Some e => snd e | None => [] end.
Definition has_key (k : key) (d : dict) : bool := existsb (fun e => key_eqb k (fst e)) d.
(** L687-836 add_detailed_absorption: the dictionary the caller passed, after the call; and the room. The seven further entries
    that the dictionary receives are keys without contents here; their contents are in the room's record. *)
Definition add_detailed (r : room) (d : dict) : dict * result room :=
  match rm_dims r with
  | None => (d, Err AttributeError)
  | Some (x, y, z) =>
    if negb (length d =? 6)%nat then (d, Err AssertionError) else
    if negb (forallb (fun w => has_key (Wall w) d) walls) then (d, Err AssertionError) else
    match check_loop d 1 with
    | (d1, Err e) => (d1, Err e)
    | (d1, Ok nb) =>
      match fit_loop nb d1 with
      | (d2, Some e) => (d2, Err e)
      | (d2, None) =>
        let row w := lookup (Wall w) d2 in
        let area := mk nb (fun b => x * y * (get (row Ceiling) b + get (row Floor) b) + x * z * (get (row South) b + get (row North) b)
                                    + y * z * (get (row East) b + get (row West) b)) in
        let mean := map (fun a => a / rm_area r) area in
        let t60pf := map (fun a => 161 / 1000 * rm_vol r / a) area in
        let total := rsum nb (fun b => 2 ^ b) in
        let alpha := rsum nb (fun b => get mean b * (2 ^ b / total)) in
        (d2 ++ map (fun n => (Extra n, [])) (seq 0 7),
         Ok (mkRoom (rm_dims r) (rm_vol r) (rm_area r) (161 / 1000 * rm_vol r / (alpha * rm_area r)) alpha (rm_schroeder r) (rm_critical r)
               (Some (mkDetail (map row walls) area mean (mk nb (fun b => 125 * 2 ^ b)) t60pf))))
      end
    end
  end.

(** ** Image source model *)
Definition triple := (Z * Z * Z)%type.
(** L222-233 u_vectors *)
Definition u_vectors : list triple :=
  [(0, 0, 0); (0, 0, 1); (0, 1, 0); (1, 0, 0); (0, 1, 1); (1, 0, 1); (1, 1, 0); (1, 1, 1)]%Z.
(** L247-251 get_distance, one image: |(1 - 2 u) s + 2 l L - r| *)
Definition image_coord (L s r : R) (l u : Z) : R := (1 - 2 * IZR u) * s + 2 * IZR l * L - r.
Definition image_dist (dims s r : R * R * R) (l u : triple) : R :=
  let '(L1, L2, L3) := dims in let '(s1, s2, s3) := s in let '(r1, r2, r3) := r in
  let '(l1, l2, l3) := l in let '(u1, u2, u3) := u in
  let a := image_coord L1 s1 r1 l1 u1 in let b := image_coord L2 s2 r2 l2 u2 in let c := image_coord L3 s3 r3 l3 u3 in
  sqrt (a * a + b * b + c * c).
(** L254-256 get_damping, one image *)
Definition image_damping (b1 b2 : R * R * R) (l u : triple) : R :=
  let '(p1, p2, p3) := b1 in let '(q1, q2, q3) := b2 in let '(l1, l2, l3) := l in let '(u1, u2, u3) := u in
  (p1 ^ Z.abs_nat (l1 - u1) * p2 ^ Z.abs_nat (l2 - u2) * p3 ^ Z.abs_nat (l3 - u3)) *
  (q1 ^ Z.abs_nat l1 * q2 ^ Z.abs_nat l2 * q3 ^ Z.abs_nat l3).
(** L196-204: the reflection factors of the walls at the origin and of the opposite ones *)
Definition betas (alpha : list R) : result ((R * R * R) * (R * R * R)) :=
  match map (fun a => sqrt (1 - a)) alpha with
  | [b] => Ok ((b, b, b), (b, b, b))
  | [n; s; e; w; fl; ce] => Ok ((s, w, fl), (n, e, ce))
  | _ => Err ValueError
  end.
(** L208-213: the largest order; np.ceil is the ceiling *)
Definition ceil (r : R) : Z := (- Int_part (- r))%Z.
Definition image_limit (dims : R * R * R) (rt : R) (mo : option Z) : Z :=
  let '(L1, L2, L3) := dims in
  let h := 343 * (rt * (11 / 10)) / 2 in
  let m := ceil (sqrt ((h / L1) * (h / L1) + (h / L2) * (h / L2) + (h / L3) * (h / L3))) in
  match mo with None => m | Some o => if (m <? o)%Z then m else o end.
(** L218-219 seconds2samples of d / c *)
Definition sample_of (sr d : R) : nat := Z.to_nat (Int_part (d / 343 * sr + 1 / 2)).
(** rir_vec[idx] += val with an index array (L268): numpy reads all the old values first, then writes them in order, so that of
    several values for the same sample only the last one is added. *)
Definition fancy_add (v : list R) (p : list (nat * R)) : result (list R) :=
  if forallb (fun e => fst e <? length v)%nat p then Ok (fold_left (fun acc e => upd acc (fst e) (get v (fst e) + snd e)) p v)
  else Err IndexError.
(** np.arange(-LIMIT, LIMIT + 1) and the three loops L260-268 *)
Definition zrange (m : Z) : list Z := map (fun i => (Z.of_nat i - m)%Z) (seq 0 (Z.to_nat (2 * m + 1))).
Definition cells (m : Z) : list triple :=
  flat_map (fun a => flat_map (fun b => map (fun c => (a, b, c)) (zrange m)) (zrange m)) (zrange m).
Definition cell_values (dims s r : R * R * R) (b1 b2 : R * R * R) (sr : R) (l : triple) : list (nat * R) :=
  map (fun u => let d := image_dist dims s r l u in (sample_of sr d, image_damping b1 b2 l u / (4 * PI * d))) u_vectors.
(** L162-269 _generate_rir. A distance of zero gives inf (not modelled: see the hypotheses of the theorems). *)
Definition generate_rir (dims : R * R * R) (alpha : list R) (s r : R * R * R) (rt : R) (mo : option Z) (sr : R) : result (list R) :=
  bind (betas alpha) (fun b =>
  fold_left (fun acc l => bind acc (fun v => fancy_add v (cell_values dims s r (fst b) (snd b) sr l)))
    (cells (image_limit dims rt mo)) (Ok (repeat 0 (Z.to_nat (Int_part (rt * (11 / 10) * 5 * sr)))))).
