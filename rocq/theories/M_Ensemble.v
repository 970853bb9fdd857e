(** treecat/training.py:819-882 [train_model], [train_ensemble] and
    treecat/util.py:213-220 [parallel_map], with explicit random generators. *)
From Coq Require Import String.
From Coq Require Import List Arith ZArith Reals QArith.
From Verif Require Import Base M_Structure M_Config M_Rand M_Training.
Import ListNotations.
Open Scope string_scope.
Open Scope nat_scope.

(** The random generators of a process: numpy's and numba's.  They are arbitrary
    deterministic state machines; util.py:57-65 [set_random_seed] and
    [jit_random_seed] reset them ([np.random.seed] rejects some seeds). *)
Record generators := Gen {
  np_state : Type;
  jit_state : Type;
  np_seed : Z -> result np_state;
  jit_seed : Z -> result jit_state;
  draw_cat : list R -> np_state * jit_state -> nat * (np_state * jit_state);
  draw_perm : nat -> np_state * jit_state -> list nat * (np_state * jit_state);
}.

Section Ensemble.
Variable g : generators.
Definition rng : Type := (np_state g * jit_state g)%type.

(** Programs that draw, run with the generators. *)
Definition comp (A : Type) : Type := rng -> result A * rng.
Definition ret {A} (a : A) : comp A := fun st => (Ok a, st).
Definition from {A} (r : result A) : comp A := fun st => (r, st).
Definition cbind {A B} (c : comp A) (f : A -> comp B) : comp B := fun st =>
  match c st with (Ok a, st) => f a st | (Raise e, st) => (Raise e, st) end.
Local Notation "x <! c1 ;; c2" := (cbind c1 (fun x => c2)) (at level 61, c1 at next level, right associativity).

Fixpoint interp {A} (p : rprog A) : comp A := fun st =>
  match p with
  | Ret a => (Ok a, st)
  | Fail e => (Raise e, st)
  | Cat w k => match w with
               | [] => (Raise IndexError, st)
               | _ => let '(i, st) := draw_cat g w st in interp (k i) st
               end
  | Perm n k => let '(s, st) := draw_perm g n st in interp (k s) st
  end.

(** util.py:62-65. *)
Definition set_random_seed (seed : Z) : comp unit := fun '(a, b) =>
  match np_seed g seed with
  | Raise e => (Raise e, (a, b))
  | Ok a => match jit_seed g seed with
            | Raise e => (Raise e, (a, b))
            | Ok b => (Ok tt, (a, b))
            end
  end.

Definition key (config : dict) (k : string) : result Z :=
  match lookup config k with Some v => Ok (to_int v) | None => Raise KeyError end.

(** What train_model returns (training.py:280-284, 628-638). *)
Record model := Model { m_config : dict; m_state : tstate; m_logits : list R }.

Variables (lg : R -> R) (mst : list (list R) -> list (nat * nat)).

(** training.py:469-519 and 231-284, 614-638: [TreeCatTrainer(...).train()].
    Reading learning_parallel (training.py:581) is left out: C21 says it does not
    change the result. *)
Definition treecat_train (tb : table) (tree_prior : list R) (config : dict) : comp model :=
  M <! from (key config "model_num_clusters") ;;
  s <! from (init_trainer tb tree_prior (Z.to_nat M)) ;;
  seed <! from (key config "seed") ;;
  _ <! set_random_seed seed ;;
  init_epochs <! from (key config "learning_init_epochs") ;;
  full_epochs <! from (key config "learning_full_epochs") ;;
  rate <! from (key config "learning_sample_tree_rate") ;;
  est <! from (key config "learning_estimate_tree") ;;
  let cfg := Cfg (Z.to_nat M) (inject_Z init_epochs) (Z.to_nat full_epochs) (inject_Z rate) (negb (est =? 0)%Z) in
  r <! interp (train lg mst tb tree_prior cfg s) ;;
  ret (Model config (fst r) (snd r)).

(** training.py:819-850 [train_model].  TreeGaussTrainer rejects a Table
    (training.py:704), TreeMogTrainer is not implemented (training.py:797). *)
Definition train_model (tb : table) (tree_prior : list R) (config : dict) : comp model :=
  M <! from (key config "model_num_clusters") ;;
  D <! from (key config "model_latent_dim") ;;
  _ <! from (assert_ (1 <=? M)%Z) ;;
  _ <! from (assert_ (0 <=? D)%Z) ;;
  if (D =? 0)%Z then treecat_train tb tree_prior config
  else if (M =? 1)%Z then from (Raise AssertionError)
  else from (Raise NotImplementedError).

(** Config dicts are objects: a heap maps addresses to their contents. *)
Definition heap := list dict.

(** [config.copy()]: a new object with the same contents. *)
Definition dict_copy (h : heap) (a : nat) : result (nat * heap) :=
  d <- get OutOfBounds h a ;; Ok (length h, (h ++ [d])%list).

(** [d[k] += i]. *)
Definition dict_incr (h : heap) (a : nat) (k : string) (i : Z) : result heap :=
  d <- get OutOfBounds h a ;; x <- key d k ;; Ok (upd h a (dict_set d k (PInt (x + i)))).

(** training.py:875-880: the addresses of the sub-configs. *)
Definition ensemble_tasks (h : heap) (config : nat) : result (heap * list nat) :=
  d <- get OutOfBounds h config ;;
  size <- key d "model_ensemble_size" ;;
  foldM (fun '(h, tasks) sub_seed =>
           ' (sub_config, h) <- dict_copy h config ;;
           h <- dict_incr h sub_config "seed" (Z.of_nat sub_seed) ;;
           Ok (h, (tasks ++ [sub_config])%list)) (seq 0 (Z.to_nat size)) (h, []).

(** One call of [_train_model]. *)
Definition run_task (tb : table) (tree_prior : list R) (h : heap) (task : nat) : comp model :=
  config <! from (get OutOfBounds h task) ;; train_model tb tree_prior config.

Fixpoint seq_map (tb : table) (tree_prior : list R) (h : heap) (tasks : list nat) : comp (list model) :=
  match tasks with
  | [] => ret []
  | t :: ts => m <! run_task tb tree_prior h t ;; ms <! seq_map tb tree_prior h ts ;; ret (m :: ms)
  end.

(** A pool of processes, each with its own generators.  An event (w, i) is the
    execution of task i by process w.  The results are collected per task; if a
    call raises, the first exception to arrive is raised in the caller. *)
Record pool := Pool { p_rng : nat -> rng; p_done : list (nat * model); p_raised : option exn }.

Definition pool_step (tb : table) (tree_prior : list R) (h : heap) (tasks : list nat) (p : pool) (event : nat * nat) : pool :=
  let '(w, i) := event in
  match nth_error tasks i with
  | None => p
  | Some t =>
      let '(r, st) := run_task tb tree_prior h t (p_rng p w) in
      let rngs := fun w' => if w' =? w then st else p_rng p w' in
      match r with
      | Ok m => Pool rngs (p_done p ++ [(i, m)])%list (p_raised p)
      | Raise e => Pool rngs (p_done p) (match p_raised p with None => Some e | x => x end)
      end
  end.

Definition pool_map (tb : table) (tree_prior : list R) (h : heap) (tasks : list nat) (workers : nat -> rng)
  (events : list (nat * nat)) : result (list model) :=
  let p := fold_left (pool_step tb tree_prior h tasks) events (Pool workers [] None) in
  match p_raised p with
  | Some e => Raise e
  | None => mapM (fun i => match find (fun '(j, _) => j =? i) (p_done p) with
                           | Some (_, m) => Ok m
                           | None => Raise OutOfBounds end) (seq 0 (length tasks))
  end.

(** util.py:213-220 [parallel_map]. *)
Definition parallel_map (threads : nat) (workers : nat -> rng) (events : list (nat * nat)) (st : rng)
  (tb : table) (tree_prior : list R) (h : heap) (tasks : list nat) : result (list model) :=
  if (length tasks <? 2) || (threads =? 1) then fst (seq_map tb tree_prior h tasks st)
  else pool_map tb tree_prior h tasks workers events.

(** training.py:858-882 [train_ensemble]: the outcome, and the heap it leaves
    (what a failing construction of the tasks allocates is left out). *)
Definition train_ensemble (threads : nat) (workers : nat -> rng) (events : list (nat * nat)) (st : rng)
  (tb : table) (tree_prior : list R) (h : heap) (config : nat) : result (list model) * heap :=
  match ensemble_tasks h config with
  | Raise e => (Raise e, h)
  | Ok (h, tasks) => (parallel_map threads workers events st tb tree_prior h tasks, h)
  end.
End Ensemble.
