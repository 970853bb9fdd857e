(** Property C78: profiling statistics. *)
From Coq Require Import String.
From Coq Require Import List Arith Reals Lra.
From Verif Require Import Base Spec_Graph Spec_Sum M_Structure M_Rand M_SampleTree M_Profile Spec_Profile.
From Verif Require L_MakeTree L_Profile.
Import ListNotations.
Open Scope list_scope.
Open Scope nat_scope.

(** C78: recording statistics does not change what sample_tree returns, or how likely. *)
Theorem C78_counting_changes_nothing : forall grid logits edges t,
  rbind (counted_sample_tree grid logits edges t) (fun x => Ret (fst x)) = sample_tree grid logits edges.
Proof. intros. apply L_Profile.counted_same. Qed.
Print Assumptions C78_counting_changes_nothing.

(** C78: whatever sample_tree has been called with before, and whatever is drawn, the
    counters, the series and the histogram agree with the calls.  The number of accepted
    moves recorded for a call is at least the number of edges of the result that were
    not there before, and 0 if the tree has not changed.  If all logits are finite, no
    proposal is infeasible. *)
Theorem C78_sample_tree_statistics_add_up : forall V grid logits edges h t,
  make_complete_graph V = Ok grid -> spanning_tree V edges -> length logits = length grid -> add_up h t ->
  always (fun '(T, t') => add_up (h ++ [length edges]) t' /\
      (2 <= length edges -> exists a, t_accepted t' = t_accepted t ++ [a] /\ length (new_edges edges T) <= a /\ (new_edges edges T = [] -> a = 0)) /\
      ((forall k, k < length grid -> nth k logits None <> None) -> t_infeasible t' = t_infeasible t))
    (counted_sample_tree grid logits edges t).
Proof. exact L_Profile.tallied_call. Qed.
Print Assumptions C78_sample_tree_statistics_add_up.

(** At the start, and two calls later. *)
Example C78_start : add_up [] no_tallies.
Proof. exact L_Profile.nothing_tallied. Qed.
Example C78_case : exists grid, make_complete_graph 3 = Ok grid /\ spanning_tree 3 [(0, 1); (1, 2)] /\ length [Some 0%R; None; Some 1%R] = length grid.
Proof. eexists. split; [reflexivity|]. split; [exact (L_MakeTree.path_spanning 3 (le_S _ _ (le_S _ _ (le_n 1))))|reflexivity]. Qed.

(** C78: after any calls of profiled functions, nested in any way and raising or not,
    the timer of each function has counted its calls and shows the sum of their
    times.  (The time of a function that calls itself is counted once for each call
    it is in.) *)
Theorem C78_timers_add_up : forall cs ts f,
  run_calls cs ts f = Timer (tm_elapsed (ts f) + time_in (calls_of f cs)) (tm_count (ts f) + length (calls_of f cs)).
Proof. exact L_Profile.timers_add_up. Qed.
Print Assumptions C78_timers_add_up.

Example C78_nested_calls :
  let ts := run_calls [Call "train" 1 [Call "add_row" 2 [] 3; Call "add_row" 4 [] 6] 9] (fun _ => new_timer) in
  (tm_elapsed (ts "train"%string) = 8 /\ tm_elapsed (ts "add_row"%string) = 3)%R /\ tm_count (ts "add_row"%string) = 2.
Proof. cbn. split; [split; lra|reflexivity]. Qed.

(** Statistics taken while a function runs are not times: its timer has the time of
    the clock at which it started subtracted. *)
Theorem C78_timers_of_running_functions_are_negative : forall now, (0 < now)%R ->
  (tm_elapsed (at_timer (fun _ => new_timer) "f"%string (timer_enter now) "f"%string) < 0)%R.
Proof. exact L_Profile.running_negative. Qed.
Print Assumptions C78_timers_of_running_functions_are_negative.
