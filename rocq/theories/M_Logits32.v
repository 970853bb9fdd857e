(** [compute_edge_logits], treecat/training.py:53-60, 412-463, 504-506 and 577-594, and
    [TreeTrainer.sample_tree], training.py:196-213, with their float32 numbers.

    As in M_Training.v, which it follows line by line; [gammaln] and the sum over an
    axis are arguments, the tree prior is an array of float32 numbers. *)
From Coq Require Import List Arith Bool ZArith.
From Flocq Require Import IEEE754.BinarySingleNaN.
From Verif Require Import Base M_Structure M_Array M_Util M_Training M_Float32 M_Train32 M_SampleTree32.
Import ListNotations.
Open Scope nat_scope.

Section LIB.
(** [scipy.special.gammaln] and [ndarray.sum] on float32 arrays. *)
Variables (gammaln32 : f32 -> f32) (sum : list f32 -> f32).

(** training.py:60: the sum of the integers, as float32, with the prior, a Python float,
    is taken in float32. *)
Definition logprob_dc32 (counts : list Z) (prior : f64) : f32 :=
  sum (map (fun c => gammaln32 (fadd (f32_of c 0) (to32 prior))) counts).

(** training.py:504-505: the table; reading beyond its N + 1 entries is undefined
    behaviour. *)
Definition gammaln_table32 (N M i : nat) : result f32 :=
  if i <=? N then Ok (gammaln32 (fadd (f32_of (Z.of_nat i) 0) (to32 (prior64 M)))) else Raise OutOfBounds.

(** training.py:412-420 [treecat_compute_edge_logit]. *)
Definition edge_logit32 (N M : nat) (assigns : list (nat * nat)) : result f32 :=
  (counts <- foldM (fun counts '(a1, a2) =>
              _ <- check ((a1 <? M) && (a2 <? M)) ;;
              Ok (set2 counts a1 a2 (counts a1 a2 + 1))) assigns (fun _ _ => 0) ;;
   foldM (fun acc m1 => foldM (fun acc m2 =>
            x <- gammaln_table32 N M (counts m1 m2) ;; Ok (fadd acc x)) (seq 0 M) acc) (seq 0 M) fzero)%res.

(** training.py:440-452 [treecat_compute_edge_logits_seq]: the logit of a column. *)
Definition edge_logit_of32 (N M V : nat) (rows : list (nat -> nat)) (vert_logits : nat -> f32) (col : triple) : result f32 :=
  (let '(_, v1, v2) := col in
   _ <- check ((v1 <? V) && (v2 <? V)) ;;
   x <- edge_logit32 N M (map (fun a : nat -> nat => (a v1, a v2)) rows) ;;
   Ok (fsub (fsub x (vert_logits v1)) (vert_logits v2)))%res.

(** training.py:577-594 [compute_edge_logits]. *)
Definition compute_edge_logits32 (tb : table) (tree_prior : list f32) (M : nat) (s : tstate) : result (list f32) :=
  (let V := num_cols tb in
   let N := num_rows tb in
   let vert_logits := fun v => logprob_dc32 (vec M (s_vert s v)) vert_prior64 in
   let rows := if length (s_added s) =? V then map (s_asg s) (seq 0 N) else map (s_asg s) (s_added s) in
   grid <- make_complete_graph V ;;
   logits <- mapM (edge_logit_of32 N M V rows vert_logits) grid ;;
   Ok (map (fun '(x, p) => fadd x p) (combine logits tree_prior)))%res.

Variable exp32 : f32 -> f32.

(** training.py:196-213 [TreeTrainer.sample_tree]; [order] is the permutation drawn by
    sample_tree. *)
Definition trainer_sample_tree32 (tb : table) (tree_prior : list f32) (M : nat) (s : tstate) (order : list nat)
  : fprog (list (nat * nat)) :=
  (grid <~ flift (make_complete_graph (ts_V (s_tree s))) ;;
   logits <~ flift (compute_edge_logits32 tb tree_prior M s) ;;
   _ <~ flift (assert_ (length logits =? length grid)) ;;
   sample_tree32 exp32 sum grid logits (ts_get_edges (s_tree s)) order)%fp.
End LIB.
