(** What it means for random draws to be made from usable float32 weights. *)
From Coq Require Import List Arith Bool ZArith Reals.
From Flocq Require Import Core.Zaux Core.Raux IEEE754.BinarySingleNaN.
From Verif Require Import Base Spec_Graph Spec_Ragged M_Structure M_Training Spec_Stats M_Float32 M_Train32.
Import ListNotations.
Open Scope nat_scope.

(** Weights one can draw from: no NaN, infinity or negative number, none near
    overflow, and not all zero. *)
Definition usable (w : list f32) : Prop :=
  (Z.of_nat (length w) <= 2 ^ 16)%Z /\
  Forall (fun x => is_finite x = true /\ (0 <= B2R x <= bpow radix2 100)%R) w /\
  exists x, In x w /\ (0 < B2R x)%R.

(** An output of [np.random.rand()]. *)
Definition uniform01 (u : f64) : Prop := is_finite u = true /\ (0 <= B2R u < 1)%R.

(** Every draw the program may make is from usable weights, whatever indices of
    positive weight the earlier draws gave; it never fails, and it ends with [Q]. *)
Fixpoint draws_usable {A} (Q : A -> Prop) (p : fprog A) : Prop :=
  match p with
  | FRet a => Q a
  | FFail _ => False
  | FCat w k => usable w /\ forall i, i < length w -> (0 < B2R (nth i w fzero))%R -> draws_usable Q (k i)
  end.

(** What is used about [np.dot] on nonnegative vectors, true of every order of
    summation: the result is nonnegative, at least each product rounded down to
    a power of two, and at most length * max * max rounded up to powers of two. *)
Definition dot_ok (dot : list f32 -> list f32 -> f32) : Prop :=
  forall x y a b k, length x = length y -> (Z.of_nat (length x) <= 2 ^ k)%Z -> (0 <= k <= 24)%Z ->
  (-149 <= a + b)%Z -> (a + b + k <= 127)%Z ->
  Forall (fun z => is_finite z = true /\ (0 <= B2R z <= bpow radix2 a)%R) x ->
  Forall (fun z => is_finite z = true /\ (0 <= B2R z <= bpow radix2 b)%R) y ->
  is_finite (dot x y) = true /\ (0 <= B2R (dot x y) <= bpow radix2 (a + b + k))%R /\
  forall i c d, i < length x -> (-149 <= c + d)%Z -> (bpow radix2 c <= B2R (nth i x fzero))%R ->
    (bpow radix2 d <= B2R (nth i y fzero))%R -> (bpow radix2 (c + d) <= B2R (dot x y))%R.

(** Trainers reached from a new one by some history of calls and random numbers. *)
Inductive reachable32_with (cell : cell_fun) (dot : list f32 -> list f32 -> f32) (tb : table) (prior : list R) (M : nat) : trainer32 -> Prop :=
| r32_init t : init_trainer32 tb prior M = Ok t -> reachable32_with cell dot tb prior M t
| r32_add t n us t' x : reachable32_with cell dot tb prior M t -> op_ok tb (OpAdd n) -> Forall uniform01 us ->
    frun us (add_row32_with cell dot tb M t n) = Ok (t', x) -> reachable32_with cell dot tb prior M t'
| r32_remove t n t' x : reachable32_with cell dot tb prior M t -> op_ok tb (OpRemove n) ->
    remove_row32 tb M t n = Ok (t', x) -> reachable32_with cell dot tb prior M t'
| r32_edges t es t' x : reachable32_with cell dot tb prior M t -> op_ok tb (OpSetEdges es) ->
    set_edges32 M t es = Ok (t', x) -> reachable32_with cell dot tb prior M t'.
Definition reachable32 := reachable32_with treecat_add_cell32.

(** No row has more than [c] observations of one feature. *)
Definition at_most (c : nat) (ws : list nat) (tb : table) : Prop :=
  forall n v, n < num_rows tb -> v < num_cols tb -> (block_sum ws (nth n (tb_rows tb) []) v <= Z.of_nat c)%Z.
