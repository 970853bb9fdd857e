(** Specification vocabulary for graphs, independent of the model. *)
From Coq Require Import List Arith.
Import ListNotations.

Notation edge := (nat * nat)%type.

(** Adjacency in the undirected multigraph with edge list [es]. *)
Definition adj (es : list edge) (u v : nat) : Prop := In (u, v) es \/ In (v, u) es.

(** [walk es u v n]: there is a walk of [n] edges from [u] to [v]. *)
Inductive walk (es : list edge) : nat -> nat -> nat -> Prop :=
| walk_nil : forall v, walk es v v 0
| walk_cons : forall u v w n, adj es u v -> walk es v w n -> walk es u w (S n).

Definition reach (es : list edge) (u v : nat) : Prop := exists n, walk es u v n.

(** The graph on vertices [0..V-1] is connected. *)
Definition connected (V : nat) (es : list edge) : Prop :=
  forall u v, u < V -> v < V -> reach es u v.

Definition in_range (V : nat) (es : list edge) : Prop :=
  forall u v, In (u, v) es -> u < V /\ v < V.

(** A spanning tree on [V] vertices: [V-1] edges between vertices below [V]
    that connect everything. *)
Definition spanning_tree (V : nat) (es : list edge) : Prop :=
  S (length es) = V /\ in_range V es /\ connected V es.

(** Graph distance. *)
Definition dist (es : list edge) (u v d : nat) : Prop :=
  walk es u v d /\ forall n, walk es u v n -> d <= n.

(** [ecc V es c d]: the eccentricity of [c] is [d], i.e. [d] is the greatest
    distance from [c] to a vertex. *)
Definition ecc (V : nat) (es : list edge) (c d : nat) : Prop :=
  (exists v, v < V /\ dist es c v d) /\
  (forall v n, v < V -> dist es c v n -> n <= d).

(** [c] is a center: its eccentricity is minimal. *)
Definition center (V : nat) (es : list edge) (c : nat) : Prop :=
  c < V /\
  exists d, ecc V es c d /\ forall c' d', c' < V -> ecc V es c' d' -> d <= d'.

(** The same undirected edge. *)
Definition same_edge (e f : edge) : Prop :=
  e = f \/ (fst e = snd f /\ snd e = fst f).

(** Lexicographic order on pairs, Python's order on tuples. *)
Definition pair_le (p q : edge) : Prop :=
  fst p < fst q \/ (fst p = fst q /\ snd p <= snd q).
