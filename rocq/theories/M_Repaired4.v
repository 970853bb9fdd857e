(** The file caches of treecat/generate.py, and [observed_perplexity], repaired. *)
From Coq Require Import String Ascii.
From Coq Require Import List Arith ZArith QArith Reals Bool.
From Verif Require Import Base M_Config M_Array M_Cache M_Serving.
Import ListNotations.
Open Scope string_scope.

(** generate.py:67-68 and 224-225 with the format '{}-{}-{}-{}-{}.dataset.pkz'
    and the rate written as [*rate.as_integer_ratio()], its exact value. *)
Definition repaired_name (kind : string) (a : args) : string :=
  (str_int (a_rows a) ++ "-" ++ str_int (a_cols a) ++ "-" ++ str_int (a_cats a) ++ "-" ++
   str_int (Qnum (Qred (a_rate a))) ++ "-" ++ str_int (Zpos (Qden (Qred (a_rate a)))) ++ "." ++ kind ++ ".pkz")%string.

(** Where the process is killed: the points of [crash], or after writing the
    temporary file and before renaming it. *)
Inductive crash_point := AtNone | AtMkdir | AtGenerating | AtWriting | AtRenaming.

(** The end of generate.py:61-76 and 218-240 with lines 75 and 239 changed to
      pickle_dump(data, 'tmp-' + name)
      os.rename('tmp-' + name, name)
    (within the directory DATA). *)
Definition write_renamed (s : fs) (path : string) (c : content) (k : crash_point) : outcome * fs :=
  let tmp := "tmp-" ++ path in
  match k with
  | AtWriting => (Killed, set_file s tmp (Some Truncated))
  | AtRenaming => (Killed, set_file s tmp (Some c))
  | _ => (Returned path, set_file (set_file s tmp None) path (Some c))
  end.

(** generate.py:61-76 [generate_dataset_file] with both. *)
Definition repaired_dataset_file (s : fs) (a : args) (k : crash_point) : outcome * fs :=
  let path := repaired_name "dataset" a in
  match fs_files s path with
  | Some _ => (Returned path, s)
  | None =>
    match k with
    | AtMkdir => (Killed, s)
    | _ =>
      let s := FS true (fs_files s) in
      match k with
      | AtGenerating => (Killed, s)
      | _ => write_renamed s path (Dataset a) k
      end
    end
  end.

(** generate.py:218-240 [generate_model_file] with both. *)
Definition repaired_model_file (s : fs) (a : args) (kd k : crash_point) : outcome * fs :=
  let path := repaired_name "model" a in
  match fs_files s path with
  | Some _ => (Returned path, s)
  | None =>
    match k with
    | AtMkdir => (Killed, s)
    | _ =>
      let s := FS true (fs_files s) in
      match repaired_dataset_file s a kd with
      | (Returned dataset_path, s) =>
        match load_dataset s dataset_path with
        | Raise e => (Raised e, s)
        | Ok b =>
          match k with
          | AtGenerating => (Killed, s)
          | _ => write_renamed s path (Model b) k
          end
        end
      | (o, s) => (o, s)
      end
    end
  end.

(** A history of calls of these, as in M_Cache. *)
Inductive repaired_event :=
  RGenData (a : args) (k : crash_point) | RGenModel (a : args) (kd k : crash_point) | RClean (keep : string -> bool) (done : bool).
Definition repaired_step (s : fs) (e : repaired_event) : fs :=
  match e with
  | RGenData a k => snd (repaired_dataset_file s a k)
  | RGenModel a kd k => snd (repaired_model_file s a kd k)
  | RClean keep done => clean s keep done
  end.
Definition repaired_run (h : list repaired_event) : fs := fold_left repaired_step h (FS false (fun _ => None)).

(** serving.py:439-463 [observed_perplexity] with line 453 changed to
      if counts is None:  *)
Definition repaired_observed_perplexity (s : server) (counts : option (list Z)) : result (list R) :=
  let counts := match counts with
                | Some counts => counts
                | None => repeat 1%Z (sv_V s)
                end in
  _ <- assert_ (length counts =? sv_V s)%nat ;;
  _ <- assert_ (forallb (fun c => 0 <? c)%Z counts) ;;
  mapM (fun v =>
          beg <- get IndexError (sv_ri s) v ;; fin <- get IndexError (sv_ri s) (v + 1)%nat ;;
          let probs := map (fun r => dot (sv_M s) (fun r m => sv_feat s r m) (sv_vert s v) r) (seq beg (fin - beg)) in
          count <- get IndexError counts v ;;
          h <- multinomial_entropy probs count ;;
          Ok (exp h)) (seq 0 (sv_V s)).
