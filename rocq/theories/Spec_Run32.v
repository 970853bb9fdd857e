(** Vocabulary for whole training runs in float32. *)
From Coq Require Import List Arith ZArith Reals Permutation.
From Flocq Require Import Core.Zaux Core.Raux IEEE754.BinarySingleNaN.
From Verif Require Spec_MST.
From Verif Require Import Base Spec_Sum Spec_Graph M_Structure M_Training Spec_Stats Spec_EdgeLogits M_Float32 M_Train32 Spec_Float32 M_Logits32 Spec_Logits32 M_Run32.
Import ListNotations.
Open Scope nat_scope.

(** No run of the program raises, every draw is from weights the sampler handles, and
    every result satisfies [Q], whatever the draws and permutations are. *)
Fixpoint gsafe {A} (Q : A -> Prop) (p : gprog A) : Prop :=
  match p with
  | GRet a => Q a
  | GFail _ => False
  | GCat w k => usable w /\ forall i, i < length w -> (0 < B2R (nth i w fzero))%R -> gsafe Q (k i)
  | GPerm n k => forall l, Permutation l (seq 0 n) -> gsafe Q (k l)
  end.

(** The outputs of the generators. *)
Definition generators (us : nat -> f64) (ps : nat -> nat -> list nat) : Prop :=
  (forall i, uniform01 (us i)) /\ forall j n, Permutation (ps j n) (seq 0 n).

(** Log-gamma is at most [G] at the counts 0 .. N plus a prior. *)
Definition gammaln_below (G : R) (N M : nat) (lg : R -> R) : Prop :=
  forall c p, (0 <= c <= Z.of_nat N)%Z -> p = (1 / 2 / INR M)%R \/ p = (1 / 2)%R -> (Rabs (lg (IZR c + p)) <= G)%R.

(** The pairs of [T] all have a prior above minus infinity. *)
Definition allowed_by (prior : list f32) (T : list edge) : Prop :=
  forall x y, In (x, y) T -> is_finite (nth (find_complete_edge x y) prior fzero) = true.

(** The exact log posterior of the tree [T], up to a constant. *)
Definition tree_score (lg : R -> R) (M : nat) (s : tstate) (prior : list f32) (T : list edge) : R :=
  sumf T (fun '(x, y) => (edge_score lg M s x y + B2R (nth (find_complete_edge x y) prior fzero))%R).

(** What is assumed of minimum_spanning_tree also for graphs that are not connected: it returns
    edges of the graph, and they close no cycle, i.e. they are part of a spanning tree
    of all vertices. *)
Definition mst_forest (mst : list (list R) -> list edge) : Prop :=
  forall V w, 1 <= V -> Spec_MST.sym_matrix V w ->
    Spec_MST.uses_present_edges w (mst w) /\ exists rest, spanning_tree V (mst w ++ rest).
