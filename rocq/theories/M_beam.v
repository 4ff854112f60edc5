(** Model of the beamforming package (beamforming/_beamforming.py, beamforming/beamforming.py). Coordinates and samples are real
    numbers; rounding is not modelled. Plots and printed messages are left out. *)
From Coq Require Import List Arith Lia ZArith Bool Reals.
From Verif Require Import Alg Spec Dft M_arrays M_scaling M_latency M_distances.
Import ListNotations.
Local Open Scope R_scope.

(** ** Points *)
Definition point := (R * R * R)%type.
Inductive axis := AX | AY | AZ.
Definition axis_eqb (a b : axis) : bool := match a, b with AX, AX | AY, AY | AZ, AZ => true | _, _ => false end.
Definition coord (a : axis) (p : point) : R := match a with AX => fst (fst p) | AY => snd (fst p) | AZ => snd p end.
(** helpers/other.py L131-153 _euclidean_distance_matrix: one entry. (In floating-point numbers the radicand of two equal points can
    become negative.) *)
Definition dot3 (p q : point) : R := coord AX p * coord AX q + coord AY p * coord AY q + coord AZ p * coord AZ q.
Definition dist (p q : point) : R := sqrt (dot3 p p + dot3 q q - 2 * dot3 p q).
(** beamforming/_beamforming.py L91-114 get_distances_to_point: rows are the object's points, columns the passed points (the final
    squeeze is immaterial for two or more points on both sides) *)
Definition distances (ps qs : list point) : list (list R) := map (fun p => map (dist p) qs) ps.
(** beamforming/_beamforming.py L21-53, the constructor: arrays of length one are squeezed to no dimension and the indexing of the
    setter fails *)
Definition base_points (x y z : list R) : result (list point) :=
  if negb ((length x =? length y) && (length x =? length z))%nat then Err AssertionError else
  if (length x =? 1)%nat then Err IndexError else Ok (mk (length x) (fun i => (get x i, get y i, get z i))).
(** L69-79: a direction in which all points agree is not a dimension; no points: np.unique has no entry *)
Definition constant (a : axis) (ps : list point) : bool :=
  match ps with [] => false | p :: t => forallb (fun q => if Req_EM_T (coord a q) (coord a p) then true else false) t end.
Definition dims (ps : list point) : list axis := filter (fun a => negb (constant a ps)) [AX; AY; AZ].
(** np.argmin *)
Definition argmin (l : list R) : nat := argmax (map Ropp l).
(** L168-191 find_nearest_point; np.argmin of no distances raises *)
Definition find_nearest_point (ps : list point) (q : point) : result (nat * point) :=
  match ps with
  | [] => Err ValueError
  | _ => let i := argmin (map (fun p => dist p q) ps) in Ok (i, nth i ps (0, 0, 0))
  end.
(** L80-88 extent *)
Definition max_list (l : list R) : R := fold_right Rmax (hd 0 l) (tl l).
Definition min_list (l : list R) : R := fold_right Rmin (hd 0 l) (tl l).
Definition extent (a : axis) (ps : list point) : result (R * R) :=
  match ps with [] => Err ValueError | _ => Ok (min_list (map (coord a) ps), max_list (map (coord a) ps)) end.

(** ** Regular grids *)
(** beamforming/beamforming.py L118-151 Regular2DGrid.__init__ for lower-case names of the dimensions; a line of one value is squeezed
    to no dimension and has no len() *)
Definition place (d1 d2 : axis) (v1 v2 v3 : R) : point :=
  let c a := if axis_eqb a d1 then v1 else if axis_eqb a d2 then v2 else v3 in (c AX, c AY, c AZ).
Definition grid2 (l1 l2 : list R) (d1 d2 : axis) (v3 : R) : result (list point) :=
  if axis_eqb d1 d2 then Err AssertionError else
  if (length l1 =? 1)%nat || (length l2 =? 1)%nat then Err TypeError else
  let ps := map (fun p => place d1 d2 (fst p) (snd p) v3) (list_prod l1 l2) in
  base_points (map (coord AX) ps) (map (coord AY) ps) (map (coord AZ) ps).
(** L153-173 reconstruct_map_shape *)
Definition reshape2 (n1 n2 : nat) (m : list R) : result (list (list R)) :=
  if (length m =? n1 * n2)%nat then Ok (mk n1 (fun i => firstn n2 (skipn (i * n2) m))) else Err AssertionError.
(** L251-273 Regular3DGrid.__init__ and L275-295 reconstruct_map_shape *)
Definition grid3 (lx ly lz : list R) : result (list point) :=
  if (length lx =? 1)%nat || (length ly =? 1)%nat || (length lz =? 1)%nat then Err AssertionError else
  let ps := list_prod (list_prod lx ly) lz in
  base_points (map (coord AX) ps) (map (coord AY) ps) (map (coord AZ) ps).
Definition reshape3 (n1 n2 n3 : nat) (m : list R) : result (list (list (list R))) :=
  if (length m =? n1 * n2 * n3)%nat then
    Ok (mk n1 (fun i => mk n2 (fun j => firstn n3 (skipn ((i * n2 + j) * n3) m)))) else Err AssertionError.
(** L403-422 LineGrid.__init__: the second dimension follows in the order x, y, z, x *)
Definition next (a : axis) : axis := match a with AX => AY | AY => AZ | AZ => AX end.
Definition line_grid (l : list R) (d : axis) (v2 v3 : R) : result (list point) :=
  let ps := map (fun v => place d (next d) v v2 v3) l in
  base_points (map (coord AX) ps) (map (coord AY) ps) (map (coord AZ) ps).

(** ** Microphone arrays *)
(** beamforming/beamforming.py L506-515: the largest and the smallest entry off the diagonal; no microphones raise *)
Definition off_diagonal (ps : list point) : list R :=
  concat (mk (length ps) (fun i => concat (mk (length ps) (fun j => if (i =? j)%nat then [] else [dist (nth i ps (0, 0, 0)) (nth j ps (0, 0, 0))])))).
(** L517-541: the microphone nearest to the mean position *)
Definition mean3 (ps : list point) : point :=
  let m a := fold_right Rplus 0 (map (coord a) ps) / INR (length ps) in (m AX, m AY, m AZ).
Definition center (ps : list point) : nat := argmin (map (fun p => dist p (mean3 ps)) ps).
(** L471-504: the attributes are computed on the first access and kept; the setter of the coordinates (_beamforming.py L63-79) does
    not know them *)
Record mic_array := mkMA { ma_pos : list point; ma_ap : option R; ma_min : option R; ma_center : option (point * nat) }.
Definition new_array (ps : list point) : mic_array := mkMA ps None None None.
Inductive ma_op := Aperture | MinDistance | Center | SetCoordinates (ps : list point) | HeToHz (he c : R) | HzToHe (f c : R).
Inductive ma_out := ODone | OVal (r : R) | OCenter (p : point) (i : nat) | ORaise (e : exn).
(** both values are computed together *)
Definition ma_compute (s : mic_array) : result mic_array :=
  match ma_pos s with
  | [] => Err ValueError
  | _ => Ok (mkMA (ma_pos s) (Some (max_list (off_diagonal (ma_pos s)))) (Some (min_list (off_diagonal (ma_pos s)))) (ma_center s))
  end.
Definition ma_with (get : mic_array -> option R) (k : R -> ma_out) (s : mic_array) : mic_array * ma_out :=
  match get s with
  | Some v => (s, k v)
  | None => match ma_compute s with
            | Err e => (s, ORaise e)
            | Ok s' => (s', match get s' with Some v => k v | None => ORaise ValueError end)
            end
  end.
(** L544-580 he_to_hz, hz_to_he *)
Definition ma_step (s : mic_array) (o : ma_op) : mic_array * ma_out :=
  match o with
  | Aperture => ma_with ma_ap OVal s
  | MinDistance => ma_with ma_min OVal s
  | HeToHz he c => ma_with ma_ap (fun a => OVal (he * c / a)) s
  | HzToHe f c => ma_with ma_ap (fun a => OVal (f * a / c)) s
  | Center => match ma_center s with
              | Some (p, i) => (s, OCenter p i)
              | None => match ma_pos s with
                        | [] => (s, ORaise ValueError)
                        | ps => let i := center ps in let p := nth i ps (0, 0, 0) in
                                (mkMA ps (ma_ap s) (ma_min s) (Some (p, i)), OCenter p i)
                        end
              end
  | SetCoordinates ps => (mkMA ps (ma_ap s) (ma_min s) (ma_center s), ODone)
  end.
(** L583-602 get_maximum_frequency_range of an array whose values are not stored yet *)
Definition frequency_range (ps : list point) (he c : R) : R * R :=
  (he * c / max_list (off_diagonal ps), c / min_list (off_diagonal ps) / 2).

(** ** Steering vectors *)
(** L1515-1703: classic, inverse, true power, true location; one wave number, one grid point, the vector over the microphones. A grid
    point on a microphone divides by zero (inf or nan), which is not modelled. *)
Inductive formulation := Classic | Inverse | TruePower | TrueLocation.
Definition steering (form : formulation) (k : R) (mics : list point) (t : point) : list C :=
  let N := length mics in
  let r0 := dist t (nth (center mics) mics (0, 0, 0)) in
  let r i := dist t (nth i mics (0, 0, 0)) in
  let e i := cis (- (k * (r i - r0))) in
  let s := rsum N (fun j => 1 / (dist (nth j mics (0, 0, 0)) t * dist (nth j mics (0, 0, 0)) t)) in
  mk N (fun i => match form with
                 | Classic => cmul (rc (1 / INR N)) (e i)
                 | Inverse => cmul (rc (r i / INR N / r0)) (e i)
                 | TruePower => cmul (rc (1 / r0 / r i / s)) (e i)
                 | TrueLocation => cmul (rc (1 / r i / sqrt (INR N * s))) (e i)
                 end).

(** ** Maps in the frequency domain *)
Definition matrix := list (list C).
Definition cnth (l : list C) (i : nat) : C := nth i l (rc 0).
Definition entry (m : matrix) (i j : nat) : C := cnth (nth i m []) j.
(** np.linalg.multi_dot([h^H, m, h]).real *)
Definition quad (h : list C) (m : matrix) : C :=
  csum (length h) (fun i => cmul (cconj (cnth h i)) (csum (length h) (fun j => cmul (entry m i j) (cnth h j)))).
Definition power (h : list C) (m : matrix) : R := fst (quad h m).
(** helpers/other.py L156-178 _get_fractional_octave_bandwidth *)
Definition bandwidth (fc : R) (fraction : R) : R * R :=
  if Req_EM_T fraction 0 then (fc, fc) else (fc * Rpower 2 (-1 / fraction / 2), fc * Rpower 2 (1 / fraction / 2)).
(** L849-856: the bins [id1, id2), at least one *)
Definition band_bins (f : list R) (fc fraction : R) : nat * nat :=
  let i := nearest (fst (bandwidth fc fraction)) f in let j := nearest (snd (bandwidth fc fraction)) f in
  (i, if (i =? j)%nat then S j else j).
(** L849-879: the values of every bin, one list over the grid per bin, integrated over the frequency *)
Definition beam_map (grid : list point) (f : list R) (csm : list matrix) (fc fraction c : R) (bin : R -> matrix -> list R) : list R :=
  let '(i, j) := band_bins f fc fraction in
  let vals := mk (j - i) (fun b => bin (get f (i + b) * PI * 2 / c) (nth (i + b) csm [])) in
  mk (length grid) (fun g =>
    if (1 <? j - i)%nat then simpson (get f (i + 1) - get f i) (map (fun v => get v g) vals) else get (hd [] vals) g).
(** L841-845 removal of the diagonal of one bin *)
Definition remove_diagonal (m : matrix) : matrix :=
  let N := length m in
  mk N (fun i => mk N (fun j => if (i =? j)%nat then rc 0 else cmulr (entry m i j) (INR N / INR (N - 1)))).
(** L862-872 *)
Definition das_value (remove : bool) (h : list C) (m : matrix) : R :=
  if remove then let v := power h (remove_diagonal m) in if Rlt_dec v 0 then 0 else v else power h m.
(** L805-880 BeamformerDASFrequency.get_beamformer_map *)
Definition das_map (form : formulation) (mics grid : list point) (f : list R) (csm : list matrix) (fc fraction c : R) (remove : bool) : list R :=
  beam_map grid f csm fc fraction c (fun k m => map (fun t => das_value remove (steering form k mics t) m) grid).
(** L1238-1314 BeamformerMVDR; the inverse matrix is a parameter *)
Definition mvdr_value (h : list C) (inverse : matrix) : R := 1 / power h inverse.
Definition mvdr_map (inv : matrix -> matrix) (form : formulation) (mics grid : list point) (f : list R) (csm : list matrix) (fc fraction c : R) : list R :=
  beam_map grid f csm fc fraction c (fun k m => map (fun t => mvdr_value (steering form k mics t) (inv m)) grid).
(** L1139-1220 BeamformerFunctional, one bin; the singular value decomposition (u, s, v^H) is a parameter. 0 ** x is zero; the power of
    a negative number (nan) is not modelled. *)
Definition svd_t := (matrix * list R * matrix)%type.
Definition functional_value (h : list C) (d : svd_t) (gamma : R) : R :=
  let '(u, s, vh) := d in let N := length s in
  let m := mk N (fun i => mk N (fun j => csum N (fun k => cmul (cmul (entry u i k) (rc (rpowg (get s k) (1 / gamma)))) (entry vh k j)))) in
  let nn := rsum (length h) (fun i => cabs2 (cnth h i)) in
  rpowg (power h m / nn) gamma * nn.
(** L1105-1116 BeamformerOrthogonal, one bin; the eigenvalues (ascending) and eigenvectors (one list per eigenvector) are parameters *)
Definition inner (u v : list C) : C := csum (length u) (fun i => cmul (cconj (cnth u i)) (cnth v i)).
Definition orthogonal_bin (hs : list (list C)) (w : list R) (v : list (list C)) (number : nat) : list R :=
  fold_left (fun m eig =>
    let k := (length w - 1 - eig)%nat in
    let em := map (fun h => cabs2 (inner h (nth k v []))) hs in
    let src := argmax em in upd m src (get em src * get w k)) (seq 0 number) (repeat 0 (length hs)).

(** ** CLEAN-SC *)
(** beamforming/_beamforming.py L268-279: 20 iterations of the coherent component; division by a zero power is not modelled *)
Definition sc_step (d w h : list C) : list C :=
  let N := length w in
  let q := rsum N (fun i => cabs2 (cnth h i) * cabs2 (cnth w i)) in
  mk N (fun i => cdivr (cadd (cnth d i) (cmulr (cnth w i) (cabs2 (cnth h i)))) (sqrt (1 + q))).
Definition sc_component (d w : list C) : list C := Nat.iter 20 (sc_step d w) w.
(** L281-284: G *)
Definition sc_matrix (remove : bool) (p : R) (h : list C) : matrix :=
  let N := length h in
  mk N (fun i => mk N (fun j => if remove && (i =? j)%nat then rc 0 else cmulr (cmul (cnth h i) (cconj (cnth h j))) p)).
(** np.linalg.norm(m, ord=1): the largest sum of magnitudes of a column *)
Definition norm1 (m : matrix) : R :=
  max_list (mk (length m) (fun j => rsum (length m) (fun i => sqrt (cabs2 (entry m i j))))).
Definition msub (a b : matrix) (k : R) : matrix :=
  mk (length a) (fun i => mk (length a) (fun j => csub (entry a i j) (cmulr (entry b i j) k))).
(** L239-297: the loop; [D] is the degraded matrix and [D0] the one before. Returns the second map. *)
Record clean := mkClean { cl_map : list R; cl_D0 : matrix; cl_D : matrix; cl_out : list R }.
Definition clean_peak (s : clean) : nat := argmax (cl_map s).
Definition clean_found (phi : R) (s : clean) : clean :=
  let p := clean_peak s in mkClean (cl_map s) (cl_D0 s) (cl_D s) (upd (cl_out s) p (get (cl_out s) p + get (cl_map s) p * phi)).
Definition clean_G (hs : list (list C)) (remove : bool) (s : clean) : matrix :=
  let p := clean_peak s in let P := get (cl_map s) p in let w := nth p hs [] in
  let d := mk (length w) (fun i => cdivr (csum (length w) (fun j => cmul (entry (cl_D s) i j) (cnth w j))) P) in
  sc_matrix remove P (sc_component d w).
Definition clean_sub (hs : list (list C)) (remove : bool) (phi : R) (s : clean) : clean :=
  let G := clean_G hs remove s in
  mkClean (mk (length (cl_map s)) (fun g => get (cl_map s) g - power (nth g hs []) G * phi)) (cl_D s) (msub (cl_D s) G phi) (cl_out s).
Fixpoint clean_loop (n : nat) (hs : list (list C)) (remove : bool) (phi : R) (s : clean) : clean :=
  match n with
  | O => s
  | S n' => let s1 := clean_found phi s in
            if Rle_dec (norm1 (cl_D0 s1)) (norm1 (cl_D s1)) then s1 else clean_loop n' hs remove phi (clean_sub hs remove phi s1)
  end.
Definition mscale (k : R) (m : matrix) : matrix := map (map (fun z => cmulr z k)) m.
(** L978-999 BeamformerCleanSC: one bin *)
Definition zero_diagonal (m : matrix) : matrix :=
  mk (length m) (fun i => mk (length m) (fun j => if (i =? j)%nat then rc 0 else entry m i j)).
Definition clean_start (hs : list (list C)) (m : matrix) : clean :=
  mkClean (map (fun h => power h m) hs) (mscale 2 m) m (repeat 0 (length hs)).
Definition clean_bin (hs : list (list C)) (m : matrix) (n : nat) (remove : bool) (phi : R) : list R :=
  cl_out (clean_loop n hs remove phi (clean_start hs (if remove then zero_diagonal m else m))).
(** beamforming/beamforming.py L939-947: the arguments *)
Definition clean_args (channels : nat) (iterations : option Z) (phi : R) : result nat :=
  match iterations with
  | Some n => if (n <=? 0)%Z then Err AssertionError else if Rlt_dec 0 phi then if Rle_dec phi 1 then Ok (Z.to_nat n) else Err AssertionError else Err AssertionError
  | None => if Rlt_dec 0 phi then if Rle_dec phi 1 then Ok (2 * channels)%nat else Err AssertionError else Err AssertionError
  end.
