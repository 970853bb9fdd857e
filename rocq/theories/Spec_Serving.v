(** The distribution a trained model stands for, computed from its sufficient
    statistics. *)
From Coq Require Import List Arith ZArith Reals.
From Verif Require Import Base Spec_Graph Spec_Sum Spec_Joint Spec_Stats Spec_Conditional M_Structure M_Util M_Serving.
Import ListNotations.
Open Scope nat_scope.

(** A model whose statistics belong together: [V] features, feature [v] having
    [nth v ws] categories, [M] classes, [N] rows. *)
Record consistent (ws : list nat) (V M N : nat) (m : smodel) : Prop := {
  cm_width : length ws = V;
  cm_ri : d_ri m = make_ragged_index ws;
  (* classes fit an int8 *)
  cm_M : d_M m = M /\ 1 <= M <= 128;
  (* the tree was set from a spanning tree (TreeStructure.set_edges) *)
  cm_tree : exists es, spanning_tree V es /\ d_tree m = TS V (make_tree es);
  (* every vertex has seen every row once *)
  cm_vert : forall v, v < V -> total (seq 0 M) (d_vert m v) = Z.of_nat N;
  (* both margins of the table of an edge are the tables of its ends *)
  cm_edge : forall e v1 v2 c, nth_error (ts_get_edges (d_tree m)) e = Some (v1, v2) -> c < M ->
    total (seq 0 M) (fun c2 => d_edge m e c c2) = d_vert m v1 c /\
    total (seq 0 M) (fun c1 => d_edge m e c1 c) = d_vert m v2 c;
  (* counts are not negative *)
  cm_vert_nonneg : forall v c, v < V -> c < M -> (0 <= d_vert m v c)%Z;
  cm_edge_nonneg : forall e c1 c2, e < V - 1 -> c1 < M -> c2 < M -> (0 <= d_edge m e c1 c2)%Z;
  cm_feat_nonneg : forall q c, q < list_sum ws -> c < M -> (0 <= d_feat m q c)%Z;
  (* one logit for each pair of features *)
  cm_logits : length (d_logits m) = V * (V - 1) / 2
}.

(** Counts plus Jeffreys priors, normalised: classes of feature [v]; classes of
    the two ends of tree edge [e]; categories of a feature given its class. *)
Definition vert_prob (m : smodel) (v c : nat) : R :=
  ((IZR (d_vert m v c) + 1 / 2) / sumf (seq 0 (d_M m)) (fun c => IZR (d_vert m v c) + 1 / 2))%R.
Definition edge_prob (m : smodel) (e c1 c2 : nat) : R :=
  ((IZR (d_edge m e c1 c2) + 1 / 2 / INR (d_M m)) /
   sumf (seq 0 (d_M m)) (fun c1 => sumf (seq 0 (d_M m)) (fun c2 => IZR (d_edge m e c1 c2) + 1 / 2 / INR (d_M m))))%R.
Definition feat_prob (ws : list nat) (m : smodel) (v q c : nat) : R :=
  ((IZR (d_feat m q c) + 1 / 2 / INR (d_M m)) /
   sumf (block ws v) (fun q => IZR (d_feat m q c) + 1 / 2 / INR (d_M m)))%R.

(** Probability of the latent classes [z], one per feature: the product of the
    class probabilities, corrected along every edge of the tree. *)
Definition latent_prob (m : smodel) (z : list nat) : R :=
  tree_weight (ts_V (d_tree m)) (ts_get_edges (d_tree m)) (vert_prob m)
    (fun e c1 c2 => let '(v1, v2) := nth e (ts_get_edges (d_tree m)) (0, 0)%nat in
       edge_prob m e c1 c2 / (vert_prob m v1 c1 * vert_prob m v2 c2))%R z.

(** Probability of a row of counts given the classes (each count is the number
    of times a category was seen; the order of the observations is known). *)
Definition row_given (ws : list nat) (m : smodel) (row : list Z) (z : list nat) : R :=
  prodf (seq 0 (ts_V (d_tree m))) (fun v =>
    prodf (block ws v) (fun q => powerRZ (feat_prob ws m v q (nth v z 0)) (nth q row 0%Z))).

(** Probability of a row: the sum over all class vectors. *)
Definition row_prob (ws : list nat) (m : smodel) (row : list Z) : R :=
  sumf (vectors (ts_V (d_tree m)) (d_M m)) (fun z => latent_prob m z * row_given ws m row z)%R.

(** The server with another propagation program. *)
Definition with_prog (s : server) (prog : list instr) : server :=
  Srv (sv_tree s) (sv_ri s) (sv_M s) (sv_R s) prog (sv_vert s) (sv_edge s) (sv_trans s) (sv_feat s) (sv_logits s) (sv_est s).

(** The row with one more observation of category [q]. *)
Definition bump (row : list Z) (q : nat) : list Z :=
  map (fun i => nth i row 0%Z + if (i =? q)%nat then 1 else 0)%Z (seq 0 (length row)).

(** The rows with exactly one observation of every feature. *)
Definition one_hot (w c : nat) : list Z := map (fun i => if (i =? c)%nat then 1%Z else 0%Z) (seq 0 w).
Fixpoint complete_rows (ws : list nat) : list (list Z) :=
  match ws with
  | [] => [[]]
  | w :: ws => flat_map (fun c => map (app (one_hot w c)) (complete_rows ws)) (seq 0 w)
  end.

(** A row with [counts] observations of the features. *)
Definition legal_row (ws : list nat) (counts x : list Z) : Prop :=
  length x = list_sum ws /\ (forall n, In n x -> (0 <= n)%Z) /\
  forall v, v < length ws -> total (block ws v) (fun q => nth q x 0%Z) = nth v counts 0%Z.

(** In how many orders the observations of a row can be made. *)
Definition arrangements (ws : list nat) (counts x : list Z) : R :=
  prodf (seq 0 (length ws)) (fun v =>
    INR (fact (Z.to_nat (nth v counts 0%Z))) / prodf (block ws v) (fun q => INR (fact (Z.to_nat (nth q x 0%Z)))))%R.

(** The observations of two rows together. *)
Definition merge (x y : list Z) : list Z := map (fun '(a, b) => a + b)%Z (combine x y).

(** The program returns exactly [rows]. *)
Definition prob_of (p : M_Rand.rprog (list (list Z))) (rows : list (list Z)) : R :=
  M_Rand.prob p (fun r => if list_eq_dec (list_eq_dec Z.eq_dec) r rows then true else false).

(** In a tree rooted at [root], [u] lies on the path from the root to [v]. *)
Definition above (es : list (nat * nat)) (root u v : nat) : Prop :=
  exists i j, dist es root u i /\ dist es u v j /\ dist es root v (i + j).
Definition in_line (es : list (nat * nat)) (root u v : nat) : Prop := above es root u v \/ above es root v u.

(** [row'] has the observations of [row] at the features satisfying [keep], and
    no others. *)
Definition restricted (ws : list nat) (keep : nat -> Prop) (row row' : list Z) : Prop :=
  length row' = list_sum ws /\
  forall u q, u < length ws -> In q (block ws u) ->
    (keep u -> nth q row' 0%Z = nth q row 0%Z) /\ (~ keep u -> nth q row' 0%Z = 0%Z).

(** The posterior predictive probability of category [q] of feature [v] given a
    row of observations. *)
Definition predictive (ws : list nat) (m : smodel) (row : list Z) (v q : nat) : R :=
  (row_prob ws m (bump row q) / sumf (block ws v) (fun q => row_prob ws m (bump row q)))%R.
