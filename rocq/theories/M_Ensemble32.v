(** EnsembleServer.logprob, edge_logits and estimate_tree in float32,
    treecat/serving.py:521-541 and 566-572.

    Simplifications: as in M_EnsembleServer.v and M_Serving32.v; one row of data. *)
From Coq Require Import List Arith Bool ZArith Reals.
From Flocq Require Import IEEE754.BinarySingleNaN.
From Verif Require Import Base M_Structure M_Serving M_Float32 M_Train32 M_Serving32 M_SampleTree32 M_EstimateTree32.
Import ListNotations.
Open Scope nat_scope.

(** [scipy.misc.logsumexp] (serving.py:10) of a float32 array: the maximum, or 0 if it is not
    finite, is subtracted before [np.exp] and added to the logarithm of the sum. *)
Definition logsumexp32 (lib : numlib) (exp32 : f32 -> f32) (a : list f32) : result f32 :=
  match a with
  | [] => Raise ValueError
  | x :: t =>
    let a_max := fmax x t in
    let a_max := if is_finite a_max then a_max else fzero in
    Ok (fadd (l_log lib (l_sum lib (map (fun y => exp32 (fsub y a_max)) a))) a_max)
  end.

(** serving.py:566-572, one row.  [log_size n] is [np.log(n)], which [-=] casts to
    float32. *)
Definition ens_logprob_row32 (lib : numlib) (exp32 : f32 -> f32) (log_size : nat -> f32) (members : list server32) (row : list Z) : result f32 :=
  logprobs <- mapM (fun s => logprob_row32 lib s row) members ;;
  x <- logsumexp32 lib exp32 logprobs ;;
  Ok (fsub x (log_size (length members))).

(** [a += b] for float32 arrays. *)
Definition add_arrays32 (a b : list f32) : result (list f32) :=
  if length a =? length b then Ok (map (fun '(x, y) => fadd x y) (combine a b)) else Raise ValueError.

(** serving.py:528-531: the first array, [+=] the others, [/=] the number of arrays. *)
Definition average32 (arrays : list (list f32)) : result (list f32) :=
  match arrays with
  | [] => Raise IndexError
  | a :: rest =>
    sum <- foldM add_arrays32 rest a ;;
    Ok (map (fun x => fdiv x (f32_of (Z.of_nat (length arrays)) 0)) sum)
  end.

(** serving.py:528-533: [_edge_logits] and [_estimated_tree]; [logits] are the edge_logits of the
    members and [grid] is the complete graph. *)
Definition ens_tree32 (mst : list (list R) -> list (nat * nat)) (grid : list triple) (logits : list (list f32)) : result (list f32 * list (nat * nat)) :=
  edge_logits <- average32 logits ;;
  estimated_tree <- estimate_tree32 mst grid edge_logits ;;
  Ok (edge_logits, estimated_tree).
