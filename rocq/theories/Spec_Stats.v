(** Tables, operation histories and the statistics counted from scratch. *)
From Coq Require Import List Arith Bool ZArith Reals.
From Verif Require Import Base Spec_Graph Spec_Ragged M_Structure M_Util M_Rand M_Training.
Import ListNotations.
Open Scope nat_scope.
Open Scope rprog_scope.

(** A well-formed table of multinomial features, feature [v] having [nth v ws]
    categories (treecat/tables.py:37-60). *)
Record table_ok (ws : list nat) (tb : table) : Prop := {
  tk_types : Forall (fun t => t = TY_MULTINOMIAL) (tb_types tb);
  tk_width : length ws = num_cols tb;
  tk_ri : tb_ri tb = make_ragged_index ws;
  tk_rows : Forall (fun row => length row = list_sum ws) (tb_rows tb)
}.

(** Entry [r] of row [n] of the table. *)
Definition datum (tb : table) (n r : nat) : Z := nth r (nth n (tb_rows tb) []) 0%Z.

(** The sum of [f n] over [n] in [l]. *)
Definition total (l : list nat) (f : nat -> Z) : Z := fold_right (fun n acc => f n + acc)%Z 0%Z l.
(** 1 or 0 *)
Definition one_if (b : bool) : Z := if b then 1%Z else 0%Z.

(** The statistics of the trainer are the counts over the added rows. *)
Record from_scratch (ws : list nat) (tb : table) (M : nat) (s : tstate) : Prop := {
  (* exactly rows of the table are added, each once, all classes in range *)
  fs_rows : NoDup (s_added s) /\ forall n, In n (s_added s) -> n < num_rows tb;
  fs_asg : forall n v, In n (s_added s) -> v < num_cols tb -> s_asg s n v < M;
  (* the tree spans the features and the program is its program *)
  fs_tree : ts_V (s_tree s) = num_cols tb /\ spanning_tree (num_cols tb) (ts_get_edges (s_tree s));
  fs_prog : make_propagation_program (ts_grid (s_tree s)) None = Ok (s_prog s);
  (* number of rows of class m at vertex v *)
  fs_vert : forall v m, v < num_cols tb -> m < M ->
    s_vert s v m = total (s_added s) (fun n => one_if (s_asg s n v =? m));
  (* number of rows of classes (m1, m2) at the ends of tree edge e *)
  fs_edge : forall e v1 v2 m1 m2, nth_error (ts_get_edges (s_tree s)) e = Some (v1, v2) -> m1 < M -> m2 < M ->
    s_edge s e m1 m2 = total (s_added s) (fun n => one_if ((s_asg s n v1 =? m1) && (s_asg s n v2 =? m2)));
  fs_eprobs : forall e m1 m2, e < num_cols tb - 1 -> m1 < M -> m2 < M ->
    s_eprobs s e m1 m2 = (IZR (s_edge s e m1 m2) + 1 / 2 / INR M)%R;
  (* observations of position r, in rows whose class at its feature v is m *)
  fs_feat : forall v r m, owns ws v r -> m < M ->
    s_feat s r m = total (s_added s) (fun n => one_if (s_asg s n v =? m)%nat * datum tb n r)%Z;
  (* observations of feature v in rows whose class at v is m *)
  fs_meas : forall v m, v < num_cols tb -> m < M ->
    s_meas s v m = total (s_added s) (fun n => one_if (s_asg s n v =? m)%nat * block_sum ws (nth n (tb_rows tb) []) v)%Z
}.

(** Histories of calls; a call that raises leaves the state it left behind. *)
Inductive op := OpAdd (n : nat) | OpRemove (n : nat) | OpSetEdges (edges : list (nat * nat)).

Definition run_op (tb : table) (M : nat) (s : tstate) (o : op) : rprog (tstate * option exn) :=
  match o with
  | OpAdd n => add_row tb M s n
  | OpRemove n => lift (remove_row tb M s n)
  | OpSetEdges edges => lift (set_edges M s edges)
  end.

Definition run_ops (tb : table) (M : nat) (ops : list op) (s : tstate) : rprog tstate :=
  rfold (fun s o => ' (s, _) <~ run_op tb M s o ;; Ret s) ops s.

(** Row ids exist; edge lists are spanning trees, or are rejected for their
    length. *)
Definition op_ok (tb : table) (o : op) : Prop :=
  match o with
  | OpAdd n | OpRemove n => n < num_rows tb
  | OpSetEdges edges => spanning_tree (num_cols tb) edges \/ S (length edges) <> num_cols tb
  end.

(** States reached from a new trainer by some history. *)
Definition reachable (tb : table) (prior : list R) (M : nat) (s : tstate) : Prop :=
  exists s0 ops, init_trainer tb prior M = Ok s0 /\ Forall (op_ok tb) ops /\ may_return (run_ops tb M ops s0) (Ok s).
