(** Model of treecat/plotting.py: layout_tree.  Simplification: exact real
    arithmetic. *)
From Coq Require Import List Arith Bool Reals.
From Verif Require Import Base.
Import ListNotations.
Open Scope nat_scope.

(** plotting.py:74-76: the laplacian.  [sum(axis=0)] adds up each column. *)
Definition layout_laplacian (correlation : list (list R)) : list (list R) :=
  let V := length correlation in
  let entry (m : list (list R)) i j := nth j (nth i m []) 0%R in
  let negated := map (fun i => map (fun j => if i =? j then 0 else - entry correlation i j)%R (seq 0 V)) (seq 0 V) in
  let column_sum j := fold_right Rplus 0%R (map (fun i => entry negated i j) (seq 0 V)) in
  map (fun i => map (fun j => if i =? j then - column_sum j else entry negated i j)%R (seq 0 V)) (seq 0 V).

(** plotting.py:77 [scipy.linalg.eigh(laplacian, eigvals=...)].  [eigh] gives all
    eigenvalues in ascending order, each with its eigenvector.  scipy unpacks
    [eigvals] into the first and the last index it should return, which raises
    ValueError unless there are exactly two, as does a last index out of range. *)
Definition eigh_range (eigh : list (list R) -> list (R * list R)) (eigvals : list nat) (laplacian : list (list R)) : result (list (R * list R)) :=
  match eigvals with
  | [lo; hi] => if hi <? length laplacian then Ok (firstn (hi + 1 - lo) (skipn lo (eigh laplacian))) else Raise ValueError
  | _ => Raise ValueError
  end.

(** plotting.py:61-80 [layout_tree], with the argument [eigvals] of line 77 left
    open. *)
Definition layout_tree_with (eigvals : list nat) (eigh : list (list R) -> list (R * list R)) (correlation : list (list R)) : result (list (list R)) :=
  let V := length correlation in
  _ <- assert_ (forallb (fun row => length row =? V) correlation) ;;
  let laplacian := layout_laplacian correlation in
  picked <- eigh_range eigh eigvals laplacian ;;
  _ <- assert_ (forallb (fun '(x, _) => if Rlt_dec 0 x then true else false) picked) ;;
  _ <- assert_ (length picked =? 3) ;;
  Ok (map (fun v => map (fun '(_, vec) => nth v vec 0%R) picked) (seq 0 V)).

(** plotting.py:61-80 [layout_tree]: line 77 passes [eigvals=[1, 2, 3]]. *)
Definition layout_tree := layout_tree_with [1; 2; 3].

(** What line 77 should be for [layout_tree] to return anything: [eigvals=[1, 3]]. *)
Definition repaired_layout_tree := layout_tree_with [1; 3].
