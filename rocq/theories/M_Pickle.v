(** Model of treecat/format.py: json_dumps, json_loads, pickle_dump, pickle_load, fingerprint and cat. *)
From Coq Require Import String.
From Coq Require Import List.
From Verif Require Import Base M_Config M_Cache.
Import ListNotations.
Open Scope list_scope.

(** The libraries: pickle, jsonpickle, gzip and sha1, for Python values of type [V].  Encoding may raise; then
    [lib_written] is what pickle has written before. *)
Record codecs (V : Type) := {
  lib_pickle : V -> result string;
  lib_written : V -> string;
  lib_unpickle : string -> result V;
  lib_encode : V -> result string;   (* format.py:44-45 *)
  lib_decode : string -> result V;   (* format.py:48-49 *)
  lib_gzip : string -> string;
  lib_gunzip : string -> result string;
  lib_sha1 : string -> string }.
Arguments lib_pickle {V}. Arguments lib_written {V}. Arguments lib_unpickle {V}. Arguments lib_encode {V}.
Arguments lib_decode {V}. Arguments lib_gzip {V}. Arguments lib_gunzip {V}. Arguments lib_sha1 {V}.

(** The contents of the files, by name. *)
Definition disk := string -> option string.
Definition store (d : disk) (name content : string) : disk := fun n => if String.eqb n name then Some content else d n.

(** What a call returns or raises, and the disk afterwards. *)
Definition outcome (A : Type) : Type := result A * disk.

(** format.py:52-62 [pickle_dump]: the file is opened, and so emptied, before the data are encoded; the with statement
    closes it also after an exception. *)
Definition pickle_dump {V} (lib : codecs V) (data : V) (filename : string) (d : disk) : outcome unit :=
  if ends_with ".pkz" filename then
    match lib_pickle lib data with
    | Ok s => (Ok tt, store d filename (lib_gzip lib s))
    | Raise e => (Raise e, store d filename (lib_gzip lib (lib_written lib data)))
    end
  else if ends_with ".jz" filename then
    match lib_encode lib data with
    | Ok s => (Ok tt, store d filename (lib_gzip lib s))
    | Raise e => (Raise e, store d filename (lib_gzip lib EmptyString))
    end
  else (Raise ValueError, d).

(** format.py:52-62 with the data encoded before the file is opened. *)
Definition repaired_pickle_dump {V} (lib : codecs V) (data : V) (filename : string) (d : disk) : outcome unit :=
  if ends_with ".pkz" filename then
    match lib_pickle lib data with
    | Ok s => (Ok tt, store d filename (lib_gzip lib s))
    | Raise e => (Raise e, d)
    end
  else if ends_with ".jz" filename then
    match lib_encode lib data with
    | Ok s => (Ok tt, store d filename (lib_gzip lib s))
    | Raise e => (Raise e, d)
    end
  else (Raise ValueError, d).

(** format.py:65-75 [pickle_load]. *)
Definition pickle_load {V} (lib : codecs V) (filename : string) (d : disk) : result V :=
  if ends_with ".pkz" filename then
    match d filename with None => Raise OSError | Some c => s <- lib_gunzip lib c ;; lib_unpickle lib s end
  else if ends_with ".jz" filename then
    match d filename with None => Raise OSError | Some c => s <- lib_gunzip lib c ;; lib_decode lib s end
  else Raise ValueError.

(** format.py:78-88 [fingerprint]; what it prints is left out. *)
Definition fingerprint {V} (lib : codecs V) (obj : V) (d : disk) : outcome string :=
  match lib_encode lib obj with
  | Raise e => (Raise e, d)
  | Ok s => (Ok (lib_sha1 lib s), store d "/tmp/v1.json" s)
  end.

(** format.py:581-586 [cat]: what is printed, and how it ends. *)
Fixpoint cat {V} (lib : codecs V) (paths : list string) (d : disk) : list V * result unit :=
  match paths with
  | [] => ([], Ok tt)
  | path :: paths =>
    if ends_with ".pkz" path then
      match pickle_load lib path d with
      | Raise e => ([], Raise e)
      | Ok v => let '(printed, r) := cat lib paths d in (v :: printed, r)
      end
    else ([], Raise AssertionError)
  end.

(** Calls that write. *)
Inductive call (V : Type) := Dump (data : V) (filename : string) | Fingerprint (obj : V).
Arguments Dump {V}. Arguments Fingerprint {V}.
Definition perform {V} (lib : codecs V) (d : disk) (c : call V) : disk :=
  match c with
  | Dump v n => snd (pickle_dump lib v n d)
  | Fingerprint v => snd (fingerprint lib v d)
  end.
