(** Model of treecat/tables.py: who can write to the arrays of a table.

    numpy arrays are objects that refer to shared memory.  Arrays are flattened here; the shapes
    that Table asserts are in M_Generate.v. *)
From Coq Require Import List Arith Bool ZArith.
From Verif Require Import Base.
Import ListNotations.
Open Scope nat_scope.

(** The number of bits of an integer dtype; 0 stands for a Python list, which numpy always copies. *)
Definition dtype := nat.
Definition cast (dt : dtype) (z : Z) : Z :=
  match dt with 0 => z | _ => let m := (2 ^ Z.of_nat (dt - 1))%Z in ((z + m) mod (2 * m) - m)%Z end.

(** An array: its dtype, the memory it refers to, the places there that it shows, and [flags.writeable]. *)
Record ndarray := Arr { a_dtype : dtype; a_mem : nat; a_pos : list nat; a_write : bool }.

(** All arrays, by reference, and all memory. *)
Record heap := Heap { h_arrays : list ndarray; h_mem : list (list Z) }.

Definition content (h : heap) (r : nat) : list Z :=
  match nth_error (h_arrays h) r with
  | Some a => map (fun p => nth p (nth (a_mem a) (h_mem h) []) 0%Z) (a_pos a)
  | None => []
  end.

(** numpy: a new array that owns its memory. *)
Definition alloc (h : heap) (dt : dtype) (l : list Z) : heap * nat :=
  (Heap (h_arrays h ++ [Arr dt (length (h_mem h)) (seq 0 (length l)) true]) (h_mem h ++ [map (cast dt) l]), length (h_arrays h)).

(** numpy: [np.asarray(r, dt)] is the same array if it has the dtype, a copy otherwise. *)
Definition asarray (h : heap) (dt : dtype) (r : nat) : heap * nat :=
  match nth_error (h_arrays h) r with
  | Some a => if a_dtype a =? dt then (h, r) else alloc h dt (content h r)
  | None => alloc h dt []
  end.

(** numpy: [r.flags.writeable = False]. *)
Definition read_only (h : heap) (r : nat) : heap :=
  match nth_error (h_arrays h) r with
  | Some a => Heap (upd (h_arrays h) r (Arr (a_dtype a) (a_mem a) (a_pos a) false)) (h_mem h)
  | None => h
  end.

Record table_refs := TabRefs { t_types : nat; t_ri : nat; t_data : nat; t_cat : nat }.

(** tables.py:36-65 [Table.__init__]. *)
Definition new_table (h : heap) (feature_types ragged_index data : nat) (categorical_data : option nat) : heap * table_refs :=
  let '(h, feature_types) := asarray h 8 feature_types in
  let h := read_only h feature_types in
  let '(h, ragged_index) := asarray h 32 ragged_index in
  let h := read_only h ragged_index in
  let '(h, data) := asarray h 8 data in
  let h := read_only h data in
  let '(h, categorical_data) := match categorical_data with None => alloc h 16 [] | Some r => (h, r) end in
  let '(h, categorical_data) := asarray h 16 categorical_data in
  (h, TabRefs feature_types ragged_index data categorical_data).

(** tables.py:36-65 with np.array, which always copies, in place of np.asarray, and all arrays
    made read-only. *)
Definition repaired_new_table (h : heap) (feature_types ragged_index data : nat) (categorical_data : option nat) : heap * table_refs :=
  let '(h, feature_types) := alloc h 8 (content h feature_types) in
  let h := read_only h feature_types in
  let '(h, ragged_index) := alloc h 32 (content h ragged_index) in
  let h := read_only h ragged_index in
  let '(h, data) := alloc h 8 (content h data) in
  let h := read_only h data in
  let '(h, categorical_data) := alloc h 16 match categorical_data with None => [] | Some r => content h r end in
  let h := read_only h categorical_data in
  (h, TabRefs feature_types ragged_index data categorical_data).

(** numpy: [r[i] = z], i.e. ValueError if the array is read-only.  There is always an array [r]. *)
Definition write (h : heap) (r i : nat) (z : Z) : result heap :=
  match nth_error (h_arrays h) r with
  | None => Raise KeyError
  | Some a =>
    if a_write a then
      match nth_error (a_pos a) i with
      | None => Raise IndexError
      | Some p => Ok (Heap (h_arrays h) (upd (h_mem h) (a_mem a) (upd (nth (a_mem a) (h_mem h) []) p (cast (a_dtype a) z))))
      end
    else Raise ValueError
  end.

(** numpy: a view of some of the entries of [r], such as a slice; it shares the memory and is writeable if [r] is. *)
Definition view (h : heap) (r : nat) (is : list nat) : result heap :=
  match nth_error (h_arrays h) r with
  | None => Raise KeyError
  | Some a =>
    ps <- mapM (fun i => match nth_error (a_pos a) i with Some p => Ok p | None => Raise IndexError end) is ;;
    Ok (Heap (h_arrays h ++ [Arr (a_dtype a) (a_mem a) ps (a_write a)]) (h_mem h))
  end.

(** What callers do with arrays: all but setting [flags.writeable] to True. *)
Inductive action :=
| Write (r i : nat) (z : Z)
| View (r : nat) (is : list nat)
| AsArray (dt : dtype) (r : nat)
| Copy (dt : dtype) (r : nat)
| ReadOnly (r : nat)
| NewTable (feature_types ragged_index data : nat) (categorical_data : option nat).

Definition act (h : heap) (a : action) : heap :=
  match a with
  | Write r i z => match write h r i z with Ok h' => h' | Raise _ => h end
  | View r is => match view h r is with Ok h' => h' | Raise _ => h end
  | AsArray dt r => fst (asarray h dt r)
  | Copy dt r => fst (alloc h dt (content h r))
  | ReadOnly r => read_only h r
  | NewTable ft ri d c => fst (new_table h ft ri d c)
  end.

(** A history. *)
Definition acts (h : heap) (l : list action) : heap := fold_left act l h.
