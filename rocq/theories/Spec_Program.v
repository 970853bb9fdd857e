(** What a propagation program for a tree must look like. Instructions are the
    rows [ op | vertex | relative_vertex | relative_edge ] that the API returns. *)
From Coq Require Import List Arith.
From Verif Require Import Spec_Graph M_Structure.
Import ListNotations.

(** [x] occurs before [y] in [prog]. *)
Definition precedes {A} (prog : list A) (x y : A) : Prop :=
  exists l1 l2 l3, prog = l1 ++ x :: l2 ++ y :: l3.

(** [y] comes directly after [x]. *)
Definition directly_follows {A} (prog : list A) (x y : A) : Prop :=
  exists l1 l2, prog = l1 ++ x :: y :: l2.

(** Edge number [e] of the tree joins [p] and [c], and [p] is the endpoint
    closer to the root. *)
Definition parent_edge (es : list edge) (root p c e : nat) : Prop :=
  (exists f, nth_error es e = Some f /\ same_edge (p, c) f) /\
  exists d, dist es root p d /\ dist es root c (S d).

Record valid_program (V : nat) (es : list edge) (root : nat) (prog : list instr) : Prop := {
  vp_length : length prog = 2 * V + 2 * length es + 1;
  (** every instruction occurs once, and the instructions are exactly these *)
  vp_nodup : NoDup prog;
  vp_up : forall v a b, In (I OP_UP v a b) prog <-> v < V /\ a = 0 /\ b = 0;
  vp_in : forall p c e, In (I OP_IN p c e) prog <-> parent_edge es root p c e;
  vp_root : forall v a b, In (I OP_ROOT v a b) prog <-> v = root /\ a = 0 /\ b = 0;
  vp_out : forall c p e, In (I OP_OUT c p e) prog <-> parent_edge es root p c e;
  vp_down : forall v a b, In (I OP_DOWN v a b) prog <-> v < V /\ a = 0 /\ b = 0;
  (** order of the inward pass *)
  vp_in_up : forall p c e, In (I OP_IN p c e) prog ->
    precedes prog (I OP_UP c 0 0) (I OP_IN p c e) /\ precedes prog (I OP_UP p 0 0) (I OP_IN p c e);
  vp_in_in : forall p c e d e', In (I OP_IN p c e) prog -> In (I OP_IN c d e') prog ->
    precedes prog (I OP_IN c d e') (I OP_IN p c e);
  vp_root_after : forall v, v < V -> precedes prog (I OP_UP v 0 0) (I OP_ROOT root 0 0);
  vp_root_after_in : forall p c e, In (I OP_IN p c e) prog ->
    precedes prog (I OP_IN p c e) (I OP_ROOT root 0 0);
  (** order of the outward pass *)
  vp_out_root : forall c p e, In (I OP_OUT c p e) prog ->
    precedes prog (I OP_ROOT root 0 0) (I OP_OUT c p e);
  vp_out_down : forall c p e, In (I OP_OUT c p e) prog ->
    precedes prog (I OP_DOWN p 0 0) (I OP_OUT c p e);
  vp_down_out : forall c p e, In (I OP_OUT c p e) prog ->
    directly_follows prog (I OP_OUT c p e) (I OP_DOWN c 0 0);
  vp_down_root : directly_follows prog (I OP_ROOT root 0 0) (I OP_DOWN root 0 0)
}.
