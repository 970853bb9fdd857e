(** What a valid trained model is. *)
From Coq Require Import List Arith Bool ZArith Reals Permutation QArith.
From Verif Require Import Base Spec_Graph Spec_Ragged M_Structure M_Util M_Rand M_Training Spec_Stats Spec_Conditional.
Import ListNotations.
Open Scope nat_scope.

(** The model holds every row of the table once; classes are in range; the tree
    spans the features and the program is its program; all the statistics have
    the margins that follow from that. *)
Record valid_model (ws : list nat) (tb : table) (M : nat) (s : tstate) : Prop := {
  vm_rows : Permutation (s_added s) (seq 0 (num_rows tb));
  vm_asg : forall n v, n < num_rows tb -> v < num_cols tb -> s_asg s n v < M;
  vm_tree : ts_V (s_tree s) = num_cols tb /\ spanning_tree (num_cols tb) (ts_get_edges (s_tree s));
  vm_prog : make_propagation_program (ts_grid (s_tree s)) None = Ok (s_prog s);
  (* every vertex counts every row once *)
  vm_vert : forall v, v < num_cols tb -> total (seq 0 M) (s_vert s v) = Z.of_nat (num_rows tb);
  (* both margins of the table of an edge are the tables of its ends *)
  vm_edge : forall e v1 v2 m, nth_error (ts_get_edges (s_tree s)) e = Some (v1, v2) -> m < M ->
    total (seq 0 M) (fun m2 => s_edge s e m m2) = s_vert s v1 m /\
    total (seq 0 M) (fun m1 => s_edge s e m1 m) = s_vert s v2 m;
  (* a feature's block sums over its positions to the measured counts, and over
     the classes to the column of the data *)
  vm_meas : forall v m, v < num_cols tb -> m < M -> total (block ws v) (fun r => s_feat s r m) = s_meas s v m;
  vm_feat : forall v r, owns ws v r ->
    total (seq 0 M) (fun m => s_feat s r m) = total (seq 0 (num_rows tb)) (fun n => datum tb n r);
  (* no count is negative *)
  vm_nonneg : forall v m, v < num_cols tb -> m < M -> (0 <= s_vert s v m)%Z
}.

(** Configurations the trainer accepts (treecat/config.py:8-51). *)
Definition config_ok (cfg : train_config) : Prop :=
  1 <= c_clusters cfg <= 128 /\ (1 <= c_init_epochs cfg)%Q /\ (1 <= c_tree_rate cfg)%Q.
