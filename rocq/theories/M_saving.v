(** Model of the paths and files of saving and loading: _check_format_in_path (helpers/other.py L69-92), save_signal (classes/signal.py L1571-1607),
    the pickles of filters, filter banks, spectra and multiband signals (filter.py L1251, filterbank.py L1018, spectrum.py L984, multibandsignal.py
    L584) and load_pkl_object (standard/other.py L33-52). A path is a list of characters, os.sep is the slash, the file system is a map from paths to
    contents. Pickling is taken to give the object back, and every path to be writable; soundfile's encoding is not modelled, only what it is given. *)
From Coq Require Import Ascii String List Arith Bool.
From Verif Require Import Alg.
Import ListNotations.

Definition path := list ascii.
Definition str (s : string) : path := list_ascii_of_string s.
Definition slash : ascii := "/"%char.
Definition dot : ascii := "."%char.
(** str.split with a separator of one character *)
Fixpoint split_on (c : ascii) (l : path) : list path :=
  match l with
  | [] => [[]]
  | a :: t => if Ascii.eqb a c then [] :: split_on c t else match split_on c t with h :: r => (a :: h) :: r | [] => [[a]] end
  end.
Definition path_eqb (p q : path) : bool := if list_eq_dec ascii_dec p q then true else false.
(** helpers/other.py L86-92 *)
Definition check_format (p fmt : path) : result path :=
  let format := split_on dot (last (split_on slash p) []) in
  if negb (length format =? 1) then
    if path_eqb (last format []) fmt then Ok p else Err AssertionError
  else Ok (p ++ dot :: fmt).

Section Files.
  Context {T D : Type}.
  (** a pickled object, or samples written as a format with a subtype *)
  Inductive content := Pickle (o : T) | Sound (fmt subtype : path) (d : D).
  Definition files := path -> option content.
  (** open(path, "wb") and writing *)
  Definition write (fs : files) (p : path) (c : content) : files := fun q => if path_eqb q p then Some c else fs q.
  (** save_filter, save_filterbank, save_spectrum and save of a MultiBandSignal *)
  Definition save_pkl (fs : files) (p : path) (o : T) : files * result unit :=
    match check_format p (str "pkl") with Ok q => (write fs q (Pickle o), Ok tt) | Err e => (fs, Err e) end.
  (** signal.py L1588-1607; [time_data] of the object is its real part. str.lower of the mode is taken as done. *)
  Definition subtype (bit_depth : nat) : option path :=
    if bit_depth =? 32 then Some (str "FLOAT") else if bit_depth =? 64 then Some (str "DOUBLE") else
    if bit_depth =? 24 then Some (str "PCM_24") else if bit_depth =? 16 then Some (str "PCM_16") else None.
  Definition save_signal (time_data : T -> D) (fs : files) (p mode : path) (bit_depth : nat) (o : T) : files * result unit :=
    match check_format p mode with
    | Err e => (fs, Err e)
    | Ok q =>
        if path_eqb mode (str "wav") || path_eqb mode (str "flac") then
          match subtype bit_depth with
          | Some s => (write fs q (Sound mode s (time_data o)), Ok tt)
          | None => (fs, Err ValueError)
          end
        else if path_eqb mode (str "pkl") then (write fs q (Pickle o), Ok tt)
        else (fs, Err ValueError)
    end.
  (** other.py L48-52. None: there is no such file or it is not a pickle (FileNotFoundError, UnpicklingError) *)
  Definition load_pkl (fs : files) (p : path) : result (option T) :=
    bind (check_format p (str "pkl")) (fun q => Ok match fs q with Some (Pickle o) => Some o | _ => None end).
End Files.
