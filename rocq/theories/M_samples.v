(** Model of tools.convert_sample_representation (tools.py L338-480) and helpers/bytes_conversion.py.
    Floats are exact rationals; rounding of float64 and float32 is not modelled here.
    [little] says whether sys.byteorder is "little". Bytes are integers 0..255. *)
From Coq Require Import Ascii String List Arith Lia ZArith Bool QArith Qround.
From Verif Require Import Alg Spec M_arrays.
Import ListNotations.
Local Open Scope list_scope.

(** int.from_bytes(..., "little", signed=False). *)
Fixpoint from_le (b : list Z) : Z := match b with [] => 0%Z | x :: t => (x + 256 * from_le t)%Z end.
(** The n low bytes of an integer, least significant first (two's complement storage). *)
Fixpoint to_le (n : nat) (v : Z) : list Z :=
  match n with O => [] | S k => (v mod 256)%Z :: to_le k (v / 256)%Z end.
(** numpy.tobytes of one n-byte integer in native order. *)
Definition enc (little : bool) (n : nat) (v : Z) : list Z := if little then to_le n v else rev (to_le n v).
(** int.from_bytes(b, byteorder, signed=signed). *)
Definition dec (little signed : bool) (b : list Z) : Z :=
  let u := from_le (if little then b else rev b) in
  let m := (256 ^ Z.of_nat (List.length b))%Z in
  if signed && (m <=? 2 * u)%Z then (u - m)%Z else u.

(** Splitting into groups of n (the loops "for n in range(0, len(vector), 3)" L39-43 and numpy.frombuffer). *)
Fixpoint groups (fuel n : nat) (b : list Z) : list (list Z) :=
  match fuel with O => [] | S k => match b with [] => [] | _ => firstn n b :: groups k n (skipn n b) end end.

(** bytes_conversion.py L21-31 _array_to_bytes_24bits: bytes number 3, 7, ... (little) or 0, 4, ... (big) are dropped.
    The dtype assertion (int32/uint32) is not modelled: values are integers, stored with 32 bits. *)
Definition drop_mod (r : nat) (b : list Z) : list Z :=
  map snd (filter (fun p => negb (Nat.eqb (Nat.modulo (fst p) 4) r)) (combine (seq 0 (List.length b)) b)).
Definition to_bytes24 (little : bool) (v : list Z) : list Z :=
  let b := concat (map (enc little 4) v) in drop_mod (if little then 3 else 0) b.
(** bytes_conversion.py L34-44 _bytes_to_array_24bits. *)
Definition of_bytes24 (little signed : bool) (b : list Z) : result (list Z) :=
  if Nat.eqb (Nat.modulo (List.length b) 3) 0 then Ok (map (dec little signed) (groups (List.length b) 3 b)) else Err AssertionError.
(** numpy.frombuffer for n-byte integers. *)
Definition frombuffer (little signed : bool) (n : nat) (b : list Z) : result (list Z) :=
  if Nat.eqb (Nat.modulo (List.length b) n) 0 then Ok (map (dec little signed) (groups (List.length b) n b)) else Err ValueError.

(** str.lower on one character, ASCII only. *)
Definition lower1 (c : ascii) : ascii :=
  let n := nat_of_ascii c in if (65 <=? n)%nat && (n <=? 90)%nat then ascii_of_nat (n + 32) else c.
Fixpoint lower (s : string) : string := match s with EmptyString => EmptyString | String c t => String (lower1 c) (lower t) end.

(** The formats named in tools.py L398-409. *)
Inductive fmt := F32 | F64 | I (bits : Z) | U (bits : Z).
Definition parse (s : string) : option fmt :=
  match find (fun p => String.eqb (fst p) s)
    [("f32", F32); ("f64", F64); ("i8", I 8); ("i16", I 16); ("i24", I 24); ("i32", I 32);
     ("u8", U 8); ("u16", U 16); ("u24", U 24); ("u32", U 32)]%string with Some p => Some (snd p) | None => None end.

Inductive input := InBytes (b : list Z) | InArray (v : list Q).
Inductive output := OutFloat (v : list Q)  (* float array *)
  | OutInt (v : list Z)                    (* integer array *)
  | OutBytes (b : list Z)
  | OutFloatBytes (v : list Q).            (* bytes of a float64 array with these (integral) values *)

(** tools.py L431, L448: 2.0 ** (bits - 1) - 1. *)
Definition maxv (bits : Z) : Z := (2 ^ (bits - 1) - 1)%Z.
(** tools.py L416-427: reading bytes. "np.f32" does not exist: AttributeError. *)
Definition read (little : bool) (f : fmt) (v : input) : result (list Q) :=
  match v with
  | InArray l => Ok l
  | InBytes b =>
      match f with
      | F32 | F64 => Err AttributeError
      | I n => bind (if (n =? 24)%Z then of_bytes24 little true b else frombuffer little true (Z.to_nat (n / 8)) b) (fun l => Ok (map inject_Z l))
      | U n => bind (if (n =? 24)%Z then of_bytes24 little false b else frombuffer little false (Z.to_nat (n / 8)) b) (fun l => Ok (map inject_Z l))
      end
  end.
(** numpy.clip(x, -1, 1). *)
Definition qclip (x : Q) : Q := if Qle_bool x (-(1)) then (-(1))%Q else if Qle_bool 1 x then 1%Q else x.
(** tools.py L430-436. *)
Definition to_unit (f : fmt) (v : Q) : Q :=
  qclip (match f with F32 | F64 => v | I n => v / inject_Z (maxv n) | U n => v / inject_Z (maxv n) - 1 end)%Q.
(** Rounding towards zero: astype(int) and numpy.trunc. *)
Definition qtrunc (x : Q) : Z := Z.quot (Qnum x) (Zpos (Qden x)).
(** tools.py L445-453. *)
Definition of_unit (signed : bool) (n : Z) (x : Q) : Q :=
  if signed then (x * inject_Z (maxv n))%Q else (x * inject_Z (maxv n) + inject_Z (maxv n))%Q.
(** tools.py L445-480. *)
Definition write (little signed : bool) (n : Z) (cast in_bytes : bool) (x : list Q) : result output :=
  let y := map (of_unit signed n) x in
  if cast then
    if (n =? 24)%Z && negb in_bytes then Err AssertionError else
    let z := map qtrunc y in
    if negb in_bytes then Ok (OutInt z)
    else if (n =? 24)%Z then Ok (OutBytes (to_bytes24 little z)) else Ok (OutBytes (concat (map (enc little (Z.to_nat (n / 8))) z)))
  else
    let z := map (fun q => inject_Z (qtrunc q)) y in
    if negb in_bytes then Ok (OutFloat z) else Ok (OutFloatBytes z).
(** tools.py L338-480. Only the output format is lowered (L410 discards its result). The result comes with
    equilibrium and span. The float32 cast L440 is the identity here. *)
Definition convert (little : bool) (v : input) (fi fo : string) (cast in_bytes : bool) : result (output * Z * Z) :=
  if String.eqb fi fo then Err AssertionError else
  match parse (lower fo), parse fi with
  | Some o, Some i =>
      bind (read little i v) (fun l => let x := map (to_unit i) l in
      match o with
      | F32 | F64 => Ok (OutFloat x, 0%Z, 1%Z)
      | I n => bind (write little true n cast in_bytes x) (fun y => Ok (y, 0%Z, maxv n))
      | U n => bind (write little false n cast in_bytes x) (fun y => Ok (y, maxv n, maxv n))
      end)
  | _, _ => Err AssertionError
  end.
