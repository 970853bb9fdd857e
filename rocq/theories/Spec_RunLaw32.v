(** The law of whole training runs in float32. *)
From Coq Require Import List Arith ZArith Reals.
From Flocq Require Import IEEE754.BinarySingleNaN.
From Verif Require Import Base Spec_Sum M_Structure M_Rand M_Training M_Float32 M_Train32 M_Run32 Spec_Law.
Import ListNotations.
Open Scope R_scope.

(** The expectation of [f] of the result, every output of [np.random.rand()] and every
    permutation being equally likely; runs that raise count as 0. *)
Fixpoint gexpect {A} (p : gprog A) (f : A -> R) : R :=
  match p with
  | GRet a => f a
  | GFail _ => 0
  | GCat w k => sumf (seq 0 (length w)) (fun i => draw_prob w i * gexpect (k i) f)
  | GPerm n k => sumf (perms (seq 0 n)) (fun l => gexpect (k l) f) / INR (length (perms (seq 0 n)))
  end.

(** The probability that a run returns a value satisfying [b]. *)
Definition gprob {A} (p : gprog A) (b : A -> bool) : R := gexpect p (fun a => if b a then 1 else 0).

(** [k] epochs. *)
Definition epochs32 (dot : list f32 -> list f32 -> f32) (gammaln32 exp32 : f32 -> f32) (sum : list f32 -> f32) (tb : table) (tree_prior : list f32) (M k : nat)
  (t : trainer32) : gprog trainer32 :=
  gfold (fun t _ => full_epoch32 dot gammaln32 exp32 sum tb tree_prior M t) (seq 0 k) t.
