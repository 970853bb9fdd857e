(** Ragged columns. *)
From Coq Require Import List Arith ZArith.
Import ListNotations.

(** Column [v] of a table with column widths [ws] owns position [p] of a row:
    [p] lies after the columns before [v] and within the width of [v]. *)
Definition owns (ws : list nat) (v p : nat) : Prop :=
  v < length ws /\ list_sum (firstn v ws) <= p < list_sum (firstn v ws) + nth v ws 0.

(** Sum of the entries of a row at the positions owned by column [v]. *)
Definition block_sum (ws : list nat) (row : list Z) (v : nat) : Z :=
  fold_right Z.add 0%Z (map (fun i => nth (list_sum (firstn v ws) + i) row 0%Z) (seq 0 (nth v ws 0))).
