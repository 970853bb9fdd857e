(** The file caches of treecat/generate.py and the dispatch on file names of
    treecat/format.py. *)
From Coq Require Import String Ascii.
From Coq Require Import List Arith ZArith QArith Bool.
From Verif Require Import Base M_Config.
Import ListNotations.
Open Scope string_scope.

(** [s.endswith(suffix)]. *)
Fixpoint ends_with (suffix s : string) : bool :=
  String.eqb s suffix || match s with EmptyString => false | String _ t => ends_with suffix t end.

(** format.py:52-75: how [pickle_dump] and [pickle_load] choose the format. *)
Inductive file_format := Pickle | Json.
Definition format_of (filename : string) : result file_format :=
  if ends_with ".pkz" filename then Ok Pickle
  else if ends_with ".jz" filename then Ok Json
  else Raise ValueError.

(** ['{:0.1f}'.format(x)]: the exact value of the float, rounded to tenths, ties
    to the even digit. *)
Definition tenths (x : Q) : Z :=
  let n := (10 * Qnum x)%Z in let d := Zpos (Qden x) in
  let q := (n / d)%Z in let r := (n mod d)%Z in
  if (2 * r <? d)%Z then q else if (d <? 2 * r)%Z then (q + 1)%Z else if Z.even q then q else (q + 1)%Z.
Definition tenths_str (t : Z) : string := (str_int (t / 10) ++ "." ++ str_int (t mod 10))%string.
Definition fmt1 (x : Q) : string :=
  if Qle_bool 0 x then tenths_str (tenths x) else ("-" ++ tenths_str (tenths (- x)))%string.

(** The arguments of [generate_dataset_file]: num_rows, num_cols, num_cats, rate. *)
Record args := Args { a_rows : Z; a_cols : Z; a_cats : Z; a_rate : Q }.

(** generate.py:67-68 and 224-225: the name within the directory DATA. *)
Definition cache_name (kind : string) (a : args) : string :=
  (str_int (a_rows a) ++ "-" ++ str_int (a_cols a) ++ "-" ++ str_int (a_cats a) ++ "-" ++ fmt1 (a_rate a) ++ "." ++ kind ++ ".pkz")%string.

(** The file system: whether the directory exists, and its files.  A file holds
    the dataset generated for some arguments ([generate_dataset] seeds the random
    generators with 0, so it depends on nothing else), or the model trained on
    that dataset, or was cut short while it was written. *)
Inductive content := Dataset (a : args) | Model (a : args) | Truncated.
Record fs := FS { fs_dir : bool; fs_files : string -> option content }.

Definition set_file (s : fs) (path : string) (c : option content) : fs :=
  FS (fs_dir s) (fun p => if String.eqb p path then c else fs_files s p).

(** Where the process is killed during the call, if it is: before makedirs,
    while the dataset is generated (or the model trained), or while the file is
    written (format.py:54 opens the final name and writes into it). *)
Inductive crash := NoCrash | BeforeMkdir | Generating | Writing.
Inductive outcome := Returned (path : string) | Raised (e : exn) | Killed.

(** generate.py:61-76 [generate_dataset_file] and the files after it.  The
    arguments are ones for which [generate_dataset] returns. *)
Definition generate_dataset_file (s : fs) (a : args) (k : crash) : outcome * fs :=
  let path := cache_name "dataset" a in
  match fs_files s path with
  | Some _ => (Returned path, s)
  | None =>
    match k with
    | BeforeMkdir => (Killed, s)
    | _ =>
      let s := FS true (fs_files s) in
      match k with
      | Generating => (Killed, s)
      | Writing => (Killed, set_file s path (Some Truncated))
      | _ => (Returned path, set_file s path (Some (Dataset a)))
      end
    end
  end.

(** format.py:65-75 [pickle_load] of a dataset: the end of a gzip file that was
    cut short raises EOFError, the absence of the file OSError. *)
Definition load_dataset (s : fs) (path : string) : result args :=
  match fs_files s path with
  | Some (Dataset a) => Ok a
  | Some (Model _) => Raise KeyError
  | Some Truncated => Raise EOFError
  | None => Raise OSError
  end.

(** generate.py:218-240 [generate_model_file]; [kd] is where the process is killed
    within the call of [generate_dataset_file]. *)
Definition generate_model_file (s : fs) (a : args) (kd k : crash) : outcome * fs :=
  let path := cache_name "model" a in
  match fs_files s path with
  | Some _ => (Returned path, s)
  | None =>
    match k with
    | BeforeMkdir => (Killed, s)
    | _ =>
      let s := FS true (fs_files s) in
      match generate_dataset_file s a kd with
      | (Returned dataset_path, s) =>
        match load_dataset s dataset_path with
        | Raise e => (Raised e, s)
        | Ok b =>
          match k with
          | Generating => (Killed, s)
          | Writing => (Killed, set_file s path (Some Truncated))
          | _ => (Returned path, set_file s path (Some (Model b)))
          end
        end
      | (o, s) => (o, s)
      end
    end
  end.

(** generate.py:243-247 [clean]: rmtree, possibly interrupted when only some
    files have been removed. *)
Definition clean (s : fs) (keep : string -> bool) (done : bool) : fs :=
  if done then FS false (fun _ => None) else FS (fs_dir s) (fun p => if keep p then fs_files s p else None).

(** A history of calls. *)
Inductive event := GenData (a : args) (k : crash) | GenModel (a : args) (kd k : crash) | Clean (keep : string -> bool) (done : bool).
Definition step (s : fs) (e : event) : fs :=
  match e with
  | GenData a k => snd (generate_dataset_file s a k)
  | GenModel a kd k => snd (generate_model_file s a kd k)
  | Clean keep done => clean s keep done
  end.
Definition run (h : list event) : fs := fold_left step h (FS false (fun _ => None)).
