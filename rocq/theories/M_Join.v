(** Model of treecat/format.py: pd_outer_join. *)
From Coq Require Import String Ascii.
From Coq Require Import List Arith Bool.
From Verif Require Import Base M_Config M_Cache.
Import ListNotations.
Open Scope list_scope.
Open Scope nat_scope.

(** A cell of a dataframe read by read_csv (format.py:106-107, dtype=object): a
    string, or NaN ([None]). *)
Definition cell := option string.

Definition cell_eqb (a b : cell) : bool :=
  match a, b with
  | None, None => true
  | Some x, Some y => String.eqb x y
  | _, _ => false
  end.

(** A pandas dataframe: its columns, and in each row one cell for each column. *)
Record frame := { f_cols : list string; f_rows : list (list cell) }.

(** A dataframe with an index (pandas' set_index): each row has a key. *)
Record indexed := { i_cols : list string; i_rows : list (cell * list cell) }.

(** Where the column [c] is. *)
Fixpoint place (c : string) (cols : list string) : option nat :=
  match cols with
  | [] => None
  | x :: t => if String.eqb c x then Some 0 else match place c t with Some i => Some (S i) | None => None end
  end.

Definition has_col (c : string) (cols : list string) : bool := existsb (String.eqb c) cols.

(** A list without its position [i]. *)
Fixpoint drop_at {A} (i : nat) (l : list A) : list A :=
  match l, i with
  | [], _ => []
  | _ :: t, 0 => t
  | x :: t, S i => x :: drop_at i t
  end.

(** pandas: [df.set_index(on)] for the name [on] of one column. *)
Definition set_index (on : string) (df : frame) : result indexed :=
  match place on (f_cols df) with
  | None => Raise KeyError
  | Some i => Ok {| i_cols := drop_at i (f_cols df); i_rows := map (fun row => (nth i row None, drop_at i row)) (f_rows df) |}
  end.

(** pandas: the rows of [left.join(right, how='outer')]: each row of the left
    frame beside each row of the right one that has the same key (NaN equals NaN
    there), NaN where a side has none.  [wl] and [wr] are the numbers of columns. *)
Definition outer_rows (wl wr : nat) (left right : list (cell * list cell)) : list (cell * list cell) :=
  flat_map (fun '(k, l) =>
    match filter (fun '(k', _) => cell_eqb k k') right with
    | [] => [(k, l ++ repeat None wr)]
    | matches => map (fun '(_, r) => (k, l ++ r)) matches
    end) left ++
  map (fun '(k, r) => (k, repeat None wl ++ r))
    (filter (fun '(k, _) => negb (existsb (fun '(k', _) => cell_eqb k k') left)) right).

Fixpoint distinct (l : list string) : bool :=
  match l with [] => true | x :: t => negb (has_col x t) && distinct t end.

(** pandas: [left.join(right, how='outer', rsuffix=suffix)].  Columns of the
    right frame that are also in the left one get the suffix.  [arrange] is the
    order into which pandas brings the rows.  What pandas does when two columns get
    the same name depends on its version; here it raises ValueError. *)
Definition outer_join (suffix : string) (arrange : list (cell * list cell) -> list (cell * list cell)) (left right : indexed) : result indexed :=
  let cols := i_cols left ++ map (fun c => if has_col c (i_cols left) then (c ++ suffix)%string else c) (i_cols right) in
  if distinct cols
  then Ok {| i_cols := cols; i_rows := arrange (outer_rows (length (i_cols left)) (length (i_cols right)) (i_rows left) (i_rows right)) |}
  else Raise ValueError.

(** [fillna]: a cell, or the other one if it is NaN. *)
Definition fillna (a b : cell) : cell := match a with None => b | Some _ => a end.

(** [right[:-6]], where 6 is the length of the suffix. *)
Definition chop (suffix s : string) : string := substring 0 (String.length s - String.length suffix) s.

(** format.py:125-132: the body of the loop over the columns.  The fillna with
    inplace=True acts on the frame (as in pandas before copy-on-write); the
    renamed copy of line 132 is dropped.  The suffix '_JOIN_' is an argument here. *)
Definition merge_column (suffix : string) (df_cols : list string) (res : indexed) (right : string) : result indexed :=
  if ends_with suffix right then
    let left := chop suffix right in
    if has_col left df_cols then
      match place left (i_cols res), place right (i_cols res) with
      | Some i, Some j =>
          Ok {| i_cols := drop_at j (i_cols res);
                i_rows := map (fun '(k, row) => (k, drop_at j (upd row i (fillna (nth i row None) (nth j row None))))) (i_rows res) |}
      | _, _ => Raise KeyError
      end
    else Ok res
  else Ok res.

(** format.py:122-132: the body of the loop over the frames. *)
Definition join_frame (suffix : string) (arrange : list (cell * list cell) -> list (cell * list cell)) (on : string) (res : indexed) (df : frame) : result indexed :=
  _ <- assert_ (negb (existsb (ends_with suffix) (i_cols res))) ;;
  right <- set_index on df ;;
  joined <- outer_join suffix arrange res right ;;
  foldM (merge_column suffix (f_cols df)) (i_cols joined) joined.

(** pandas: [sort_index(axis=1)]. *)
Definition sort_columns (res : indexed) : indexed :=
  let cols := str_sort (i_cols res) in
  {| i_cols := cols;
     i_rows := map (fun '(k, row) => (k, map (fun c => match place c (i_cols res) with Some i => nth i row None | None => None end) cols)) (i_rows res) |}.

(** format.py:110-135 [pd_outer_join], for the name [on] of one column, with the
    suffix as an argument. *)
Definition outer_join_with (suffix : string) (arrange : list (cell * list cell) -> list (cell * list cell)) (dfs : list frame) (on : string) : result indexed :=
  match dfs with
  | [] => Raise IndexError
  | df :: rest =>
      first <- set_index on df ;;
      res <- foldM (join_frame suffix arrange on) rest first ;;
      Ok (sort_columns res)
  end.

(** format.py:110-135 [pd_outer_join]. *)
Definition pd_outer_join : (list (cell * list cell) -> list (cell * list cell)) -> list frame -> string -> result indexed :=
  outer_join_with "_JOIN_".

(** [max(...)] of lengths, 0 of none. *)
Definition longest (l : list string) : nat := fold_right Nat.max 0 (map String.length l).
Fixpoint underscores (n : nat) : string := match n with 0 => EmptyString | S n => String "_"%char (underscores n) end.

(** format.py:110-135 [pd_outer_join] with '_JOIN_' replaced by
      suffix = '_' * max(len(c) for df in dfs for c in df.columns) + '_JOIN_'
    and [:-6] by [:-len(suffix)]. *)
Definition repaired_outer_join (arrange : list (cell * list cell) -> list (cell * list cell)) (dfs : list frame) (on : string) : result indexed :=
  outer_join_with (underscores (longest (flat_map f_cols dfs)) ++ "_JOIN_")%string arrange dfs on.
