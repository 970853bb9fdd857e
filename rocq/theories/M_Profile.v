(** Model of the profiling statistics, treecat/util.py:222-279, and of what
    [sample_tree] records in them, treecat/structure.py:387-424. *)
From Coq Require Import String.
From Coq Require Import List Arith Bool Reals.
From Verif Require Import Base Spec_Sum M_Structure M_Rand M_SampleTree.
Import ListNotations.
Open Scope list_scope.
Open Scope nat_scope.

(** ** What sample_tree records *)

(** The entries of COUNTERS, SERIES and HISTOGRAMS (util.py:262-264) that sample_tree
    uses.  They are created with 0, [] and Counter() when first used. *)
Record tallies := Tallies {
  t_calls : nat;            (* COUNTERS.sample_tree_calls *)
  t_infeasible : nat;       (* COUNTERS.sample_tree_infeasible *)
  t_accept : nat;           (* COUNTERS.sample_tree_accept *)
  t_propose : nat;          (* COUNTERS.sample_tree_propose *)
  t_accepted : list nat;    (* SERIES.sample_tree_accepted *)
  t_choices : nat -> nat;   (* HISTOGRAMS.sample_tree_log2_choices *)
}.
Definition no_tallies : tallies := Tallies 0 0 0 0 [] (fun _ => 0).

(** [int.bit_length]. *)
Definition bit_length (n : nat) : nat := match n with 0 => 0 | _ => S (Nat.log2 n) end.
(** [Counter.update] with a list. *)
Definition counter_update (c : nat -> nat) (l : list nat) : nat -> nat :=
  fold_left (fun c x y => if y =? x then S (c y) else c y) l c.

Open Scope R_scope.
Open Scope rprog_scope.

(** structure.py:412-416, with the counter of line 416. *)
Definition choose_counted (w : option (list R)) (buf : list nat) (k1 : nat) : rprog (nat * nat) :=
  match w with
  | Some w => if Rlt_dec 0 (rsum w) then Cat w (fun i => lift (k <- get IndexError buf i ;; Ok (k, 0%nat))) else Ret (k1, 1%nat)
  | None => Ret (k1, 1%nat)
  end.

(** structure.py:406-420: the loop body for edge [e], with [accepted] and
    [log2_choices]. *)
Definition counted_step (grid : list triple) (logits : list (option R)) (all : st_state * tallies * nat * list nat) (e : nat)
  : rprog (st_state * tallies * nat * list nat) :=
  let '(e2k, nb, comp, buf, t, accepted, log2_choices) := all in
  ' (k1, nb, comp) <~ lift (jit_remove_edge grid e2k nb comp e) ;;
  ' (n, buf) <~ lift (find_valid_edges comp buf) ;;
  lp <~ lift (mapM (get IndexError logits) (firstn n buf)) ;;
  w <~ lift (valid_probs lp) ;;
  ' (k2, failed) <~ choose_counted w buf k1 ;;
  ' (e2k, nb, comp) <~ lift (jit_add_edge grid e2k nb comp e k2) ;;
  Ret (e2k, nb, comp, buf,
       Tallies (t_calls t) (t_infeasible t + failed) (t_accept t) (t_propose t) (t_accepted t) (t_choices t),
       (accepted + (if k1 =? k2 then 0 else 1))%nat, log2_choices ++ [bit_length n]).

(** structure.py:364-428 [sample_tree] with the statistics. *)
Definition counted_sample_tree (grid : list triple) (logits : list (option R)) (edges : list (nat * nat)) (t : tallies)
  : rprog (list (nat * nat) * tallies) :=
  let t := Tallies (t_calls t + 1) (t_infeasible t) (t_accept t) (t_propose t) (t_accepted t) (t_choices t) in
  if (length edges <=? 1)%nat then Ret (edges, t) else
  let E := length edges in
  let V := (E + 1)%nat in
  let K := (V * (V - 1) / 2)%nat in
  ' (e2k, nb) <~ lift (st_init V edges) ;;
  Perm E (fun order =>
    ' (e2k, nb, comp, buf, t, accepted, log2_choices) <~
      rfold (counted_step grid logits) order (e2k, nb, repeat false V, repeat 0%nat K, t, 0%nat, []) ;;
    let t := Tallies (t_calls t) (t_infeasible t) (t_accept t + accepted) (t_propose t + E)
                     (t_accepted t ++ [accepted]) (counter_update (t_choices t) log2_choices) in
    es <~ lift (st_edges grid e2k) ;;
    _ <~ lift (assert_ (length es =? E)%nat) ;;
    Ret (es, t)).

(** ** Timers *)

(** util.py:227-240 [ProfileTimer]; [default_timer()] is an argument. *)
Record timer := Timer { tm_elapsed : R; tm_count : nat }.
Definition new_timer : timer := Timer 0 0.
Definition timer_enter (now : R) (t : timer) : timer := Timer (tm_elapsed t - now) (tm_count t).
Definition timer_exit (now : R) (t : timer) : timer := Timer (tm_elapsed t + now) (tm_count t + 1).

(** TIMERS (util.py:261): a timer for each name. *)
Definition timers := string -> timer.
Definition at_timer (ts : timers) (f : string) (g : timer -> timer) : timers :=
  fun f' => if String.eqb f' f then g (ts f') else ts f'.

(** The calls of functions decorated by [profile_timed] (util.py:243-255): the
    function, when it is entered, the decorated functions it calls, one after the
    other, and when it is left.  [with timer] runs [__exit__] also if the function
    raises, so that what it returns or raises does not matter here. *)
Inductive call := Call (name : string) (start : R) (inner : list call) (finish : R).
Fixpoint run_call (c : call) (ts : timers) : timers :=
  match c with
  | Call f a cs b =>
    let ts := at_timer ts f (timer_enter a) in
    let ts := fold_left (fun ts c => run_call c ts) cs ts in
    at_timer ts f (timer_exit b)
  end.
Definition run_calls (cs : list call) (ts : timers) : timers := fold_left (fun ts c => run_call c ts) cs ts.
