(** [train], treecat/training.py:186-284 and 614-638, with its float32 numbers.

    As M_Training.v, which it follows line by line, with the float32 trainer of
    M_Train32.v, M_Logits32.v, M_SampleTree32.v and M_EstimateTree32.v. *)
From Coq Require Import List Arith Bool ZArith QArith Qround Reals.
From Flocq Require Import IEEE754.BinarySingleNaN.
From Verif Require Import Base M_Structure M_Schedule M_Array M_Util M_Training M_Float32 M_Train32 M_SampleTree32 M_Logits32 M_EstimateTree32.
Import ListNotations.
Open Scope nat_scope.

(** Programs that draw from float32 weights and draw permutations of [0 .. n-1]. *)
Inductive gprog (A : Type) : Type :=
| GRet (a : A)
| GFail (e : exn)
| GCat (w : list f32) (k : nat -> gprog A)
| GPerm (n : nat) (k : list nat -> gprog A).
Arguments GRet {A} a.
Arguments GFail {A} e.
Arguments GCat {A} w k.
Arguments GPerm {A} n k.

Fixpoint gbind {A B} (p : gprog A) (f : A -> gprog B) : gprog B :=
  match p with
  | GRet a => f a
  | GFail e => GFail e
  | GCat w k => GCat w (fun i => gbind (k i) f)
  | GPerm n k => GPerm n (fun l => gbind (k l) f)
  end.
Definition glift {A} (r : result A) : gprog A := match r with Ok a => GRet a | Raise e => GFail e end.
Fixpoint gfold {A S} (f : S -> A -> gprog S) (l : list A) (s : S) : gprog S :=
  match l with [] => GRet s | a :: t => gbind (f s a) (fun s' => gfold f t s') end.
Fixpoint of_f {A} (p : fprog A) : gprog A :=
  match p with FRet a => GRet a | FFail e => GFail e | FCat w k => GCat w (fun i => of_f (k i)) end.

(** Running a program: [us i] is the i-th output of [np.random.rand()] and [ps j n] the
    j-th output of [np.random.permutation(n)] or shuffle. *)
Fixpoint grun {A} (us : nat -> f64) (ps : nat -> nat -> list nat) (i j : nat) (p : gprog A) {struct p} : result A :=
  match p with
  | GRet a => Ok a
  | GFail e => Raise e
  | GCat w k => (x <- sample_from_probs32 (us i) w ;; grun us ps (S i) j (k x))%res
  | GPerm n k => grun us ps i (S j) (k (ps j n))
  end.

Declare Scope gprog_scope.
Delimit Scope gprog_scope with gp.
Notation "x <~ c1 ;; c2" := (gbind c1 (fun x => c2))
  (at level 61, c1 at next level, right associativity) : gprog_scope.
Notation "' p <~ c1 ;; c2" := (gbind c1 (fun x => let p := x in c2))
  (at level 61, p pattern, c1 at next level, right associativity) : gprog_scope.
Open Scope gprog_scope.

(** An exception reported by a trainer method ends the run of [train]. *)
Definition unless_raised32 (p : gprog (trainer32 * option exn)) : gprog trainer32 :=
  ' (t, x) <~ p ;; match x with None => GRet t | Some e => GFail e end.

Section LIB.
Variables (dot : list f32 -> list f32 -> f32) (gammaln32 exp32 : f32 -> f32) (sum : list f32 -> f32)
  (mst : list (list R) -> list (nat * nat)).
Variables (tb : table) (tree_prior : list f32) (M : nat).

(** training.py:258-259, 266-267 with 196-213.  Simplification: the permutation of
    structure.py:401 is drawn before the logits are computed, and also for trees of
    fewer than two edges, where it is not used. *)
Definition resample_tree32 (t : trainer32) : gprog trainer32 :=
  GPerm (length (ts_get_edges (s_tree (t_state t)))) (fun order =>
    edges <~ of_f (trainer_sample_tree32 gammaln32 sum exp32 tb tree_prior M (t_state t) order) ;;
    unless_raised32 (glift (set_edges32 M t edges))).

(** training.py:252-261. *)
Definition train_action32 (t : trainer32) (a : action) : gprog trainer32 :=
  match a with
  | AddRow r => unless_raised32 (of_f (add_row32 dot tb M t r))
  | RemoveRow r => unless_raised32 (glift (remove_row32 tb M t r))
  | SampleTree => resample_tree32 t
  end.

(** training.py:265-270. *)
Definition full_epoch32 (t : trainer32) : gprog trainer32 :=
  t <~ resample_tree32 t ;;
  gfold (fun t row_id => t <~ unless_raised32 (glift (remove_row32 tb M t row_id)) ;;
                         unless_raised32 (of_f (add_row32 dot tb M t row_id))) (seq 0 (num_rows tb)) t.
End LIB.

(** training.py:215-284 and 614-638 [estimate_tree] and [train], after construction and
    seeding. *)
Definition train32 (dot : list f32 -> list f32 -> f32) (gammaln32 exp32 : f32 -> f32) (sum : list f32 -> f32)
  (mst : list (list R) -> list (nat * nat)) (tb : table) (tree_prior : list f32)
  (cfg : train_config) (t : trainer32) : gprog (trainer32 * list f32) :=
  let M := c_clusters cfg in
  let N := num_rows tb in
  _ <~ glift (assert_ (length (s_added (t_state t)) =? 0)) ;;
  GPerm N (fun row_ids =>
    schedule <~ glift (make_annealing_schedule (sched_fuel N (c_init_epochs cfg)) row_ids
                        (c_init_epochs cfg) (c_tree_rate cfg)) ;;
    t <~ gfold (train_action32 dot gammaln32 exp32 sum tb tree_prior M) schedule t ;;
    _ <~ glift (assert_ (length (s_added (t_state t)) =? N)) ;;
    t <~ gfold (fun t _ => full_epoch32 dot gammaln32 exp32 sum tb tree_prior M t) (seq 0 (c_full_epochs cfg)) t ;;
    _ <~ glift (assert_ (length (s_added (t_state t)) =? N)) ;;
    grid <~ glift (make_complete_graph (ts_V (s_tree (t_state t)))) ;;
    logits <~ glift (compute_edge_logits32 gammaln32 sum tb tree_prior M (t_state t)) ;;
    edges <~ glift (estimate_tree32 mst grid logits) ;;
    t <~ (if c_estimate_tree cfg then unless_raised32 (glift (set_edges32 M t edges)) else GRet t) ;;
    GRet (t, logits)).
