(** Model of [sample_tree], treecat/structure.py:364-428, with its float32 weights.

    As M_SampleTree.v, which it follows line by line, but logits and weights are
    float32 numbers; the order of the edges drawn by [np.random.permutation] is an
    argument. *)
From Coq Require Import List Arith.
From Flocq Require Import IEEE754.BinarySingleNaN.
From Verif Require Import Base M_Structure M_Rand M_SampleTree M_Float32 M_Train32.
Import ListNotations.
Open Scope nat_scope.
Open Scope fprog_scope.

(** float32 subtraction. *)
Definition fsub (x y : f32) : f32 := Bminus (prec_gt_0_ := p24) (prec_lt_emax_ := e128) mode_NE x y.

Section LIB.
(** [np.exp] and [ndarray.sum] on float32 arrays. *)
Variables (exp32 : f32 -> f32) (sum : list f32 -> f32).

(** structure.py:408-410. *)
Definition valid_probs32 (lp : list f32) : result (list f32) :=
  match lp with
  | [] => Raise ValueError
  | x :: l => let m := fmax x l in Ok (map (fun y => exp32 (fsub y m)) lp)
  end.

(** structure.py:411-416. *)
Definition choose_edge32 (w : list f32) (buf : list nat) (k1 : nat) : fprog nat :=
  let total_prob := sum w in
  if fltb fzero total_prob then FCat w (fun i => flift (get IndexError buf i)) else FRet k1.

(** structure.py:405-417: the loop body for edge [e]. *)
Definition st_step32 (grid : list triple) (logits : list f32) (st : st_state) (e : nat) : fprog st_state :=
  let '(e2k, nb, comp, buf) := st in
  ' (k1, nb, comp) <~ flift (jit_remove_edge grid e2k nb comp e) ;;
  ' (n, buf) <~ flift (find_valid_edges comp buf) ;;
  lp <~ flift (mapM (get IndexError logits) (firstn n buf)) ;;
  w <~ flift (valid_probs32 lp) ;;
  k2 <~ choose_edge32 w buf k1 ;;
  ' (e2k, nb, comp) <~ flift (jit_add_edge grid e2k nb comp e k2) ;;
  FRet (e2k, nb, comp, buf).

(** structure.py:364-428 [sample_tree]; [order] is [np.random.permutation(E)]. *)
Definition sample_tree32 (grid : list triple) (logits : list f32) (edges : list (nat * nat)) (order : list nat)
  : fprog (list (nat * nat)) :=
  if length edges <=? 1 then FRet edges else
  let E := length edges in
  let V := E + 1 in
  let K := V * (V - 1) / 2 in
  ' (e2k, nb) <~ flift (st_init V edges) ;;
  ' (e2k, nb, comp, buf) <~ ffold (st_step32 grid logits) order (e2k, nb, repeat false V, repeat 0 K) ;;
  es <~ flift (st_edges grid e2k) ;;
  _ <~ flift (assert_ (length es =? E)) ;;
  FRet es.
End LIB.
