(** Model of [make_annealing_schedule], treecat/training.py:63-116.

    The floats [epochs], [sample_tree_rate], [state] and the number
    [next_batch] are rationals: every finite float is one, but the rounding of
    [state -= remove_rate] and the like is not modelled.  The generator is
    modelled by the list of the actions it yields.  [row_ids] is the result of
    [np.random.shuffle(list(range(num_rows)))] (training.py:88-89), an
    argument of the model that ranges over all permutations. *)
From Coq Require Import List ZArith QArith.
From Verif Require Import Base.
Import ListNotations.

(** The (action, arg) pairs of training.py:104-115. *)
Inductive action : Set :=
| AddRow (row : nat)
| RemoveRow (row : nat)
| SampleTree.

(** Local variables of the generator; [s_add] and [s_rem] are the positions of
    the two [itertools.cycle] iterators (training.py:90-91). *)
Record sched := mkSched {
  s_add : nat;
  s_rem : nat;
  s_state : Q;
  s_num : Z;
  s_next : Q;
}.

(** [next(itertools.cycle(l))] at position [i] (training.py:90-91, 104, 109). *)
Definition cycle_next (l : list nat) (i : nat) : nat := nth (Nat.modulo i (length l)) l 0%nat.

(** training.py:113-115: the test after each add or remove. *)
Definition sched_sample (s : sched) : sched * list action :=
  if andb (0 <? s_num s)%Z (Qle_bool (s_next s) 0)
  then (mkSched (s_add s) (s_rem s) (s_state s) (s_num s) (inject_Z (s_num s)), [SampleTree])
  else (s, []).

(** training.py:103-115: one turn of the loop. *)
Definition sched_step (row_ids : list nat) (epochs rate : Q) (s : sched) : sched * list action :=
  let '(s', a) :=
    if Qle_bool 0 (s_state s)
    then (mkSched (s_add s + 1) (s_rem s) (s_state s - (epochs - 1)) (s_num s + 1)%Z (s_next s - rate),
          AddRow (cycle_next row_ids (s_add s)))
    else (mkSched (s_add s) (s_rem s + 1) (s_state s + epochs) (s_num s - 1)%Z (s_next s),
          RemoveRow (cycle_next row_ids (s_rem s))) in
  let '(s'', b) := sched_sample s' in (s'', a :: b).

(** training.py:102-115: the loop, with fuel. *)
Fixpoint sched_loop (fuel : nat) (row_ids : list nat) (epochs rate : Q) (s : sched) : result (list action) :=
  if (s_num s <? Z.of_nat (length row_ids))%Z then
    match fuel with
    | 0%nat => Raise OutOfFuel
    | S fuel => let '(s', a) := sched_step row_ids epochs rate s in
                rest <- sched_loop fuel row_ids epochs rate s' ;;
                Ok (a ++ rest)
    end
  else Ok [].

(** training.py:85-115. *)
Definition make_annealing_schedule (fuel : nat) (row_ids : list nat) (epochs rate : Q) : result (list action) :=
  _ <- assert_ (Qle_bool 1 epochs) ;;
  _ <- assert_ (Qle_bool 1 rate) ;;
  sched_loop fuel row_ids epochs rate (mkSched 0 0 (2 * epochs) 0 0).
