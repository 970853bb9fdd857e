(** The full conditional of the latent classes of one row. *)
From Coq Require Import List Arith ZArith Reals.
From Verif Require Import Base Spec_Sum Spec_Joint M_Structure M_Training Spec_Stats.
Import ListNotations.
Open Scope nat_scope.

(** The positions of feature [v] in a row. *)
Definition block (ws : list nat) (v : nat) : list nat := seq (list_sum (firstn v ws)) (nth v ws 0).

(** Weight of class [m] of vertex [v]: class count plus Jeffreys prior. *)
Definition class_weight (s : tstate) (v m : nat) : R := (IZR (s_vert s v m) + 1 / 2)%R.

(** Vertex factor for a row with counts [c]: class weight times the Polya
    likelihood of the cell given the observations in class [m]. *)
Definition node_factor (ws : list nat) (M : nat) (s : tstate) (c : nat -> nat) (v m : nat) : R :=
  (class_weight s v m * polya (block ws v) (fun r => IZR (s_feat s r m) + 1 / 2 / INR M) c)%R.

(** Edge factor: pair count plus prior over the class weights of the ends. *)
Definition pair_factor (M : nat) (s : tstate) (e m1 m2 : nat) : R :=
  let '(v1, v2) := nth e (ts_get_edges (s_tree s)) (0, 0) in
  ((IZR (s_edge s e m1 m2) + 1 / 2 / INR M) / (class_weight s v1 m1 * class_weight s v2 m2))%R.

(** Unnormalised probability of the class vector [z] for row [n]. *)
Definition conditional_weight (ws : list nat) (tb : table) (M : nat) (s : tstate) (n : nat) (z : list nat) : R :=
  tree_weight (num_cols tb) (ts_get_edges (s_tree s))
    (node_factor ws M s (fun r => Z.to_nat (datum tb n r))) (pair_factor M s) z.

(** The classes of row [n] in state [s], as a vector. *)
Definition classes_of (tb : table) (s : tstate) (n : nat) : list nat := map (s_asg s n) (seq 0 (num_cols tb)).

(** The trainer's state with another propagation program. *)
Definition with_program (s : tstate) (prog : list instr) : tstate :=
  TSt (s_tree s) prog (s_added s) (s_asg s) (s_vert s) (s_edge s) (s_feat s) (s_meas s) (s_eprobs s).

(** All counts in the table are nonnegative. *)
Definition nonneg_data (tb : table) : Prop := forall n r, (0 <= datum tb n r)%Z.
