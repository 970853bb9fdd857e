(** Model of the parallel edge scoring, treecat/training.py:423-437
    [treecat_compute_edge_logits_par].

    [prange] may run the iterations in any order and interleave them on any
    number of threads.  Iteration [k] is a thread with its own registers (numba
    makes the variables assigned in the loop body private, and the [counts] and
    [result] of [treecat_compute_edge_logit] are locals of a call); the shared
    memory is the array [edge_logits]; everything else is only read.  One step of
    a thread is one iteration of a loop or one read or write of memory. *)
From Coq Require Import List Arith Bool Reals.
From Verif Require Import Base M_Structure M_Array M_Training.
Import ListNotations.
Open Scope nat_scope.

(** The program counter and registers of an iteration. *)
Inductive thread :=
| PStart                                                        (* line 430 *)
| PCount (v1 v2 n : nat) (counts : nat -> nat -> nat)             (* lines 414-415 *)
| PSum (v1 v2 : nat) (counts : nat -> nat -> nat) (m1 m2 : nat) (acc : R)  (* lines 416-419 *)
| PWrite (v1 v2 : nat) (edge_logit : R)                           (* line 435 *)
| PDone.

Section Par.
Variables (lg : R -> R) (N M V : nat) (grid : list triple) (rows : list (nat -> nat)) (vert_logits : nat -> R).

(** One step of iteration [k] on the shared array [mem]. *)
Definition thread_step (k : nat) (t : thread) (mem : list R) : result (thread * list R) :=
  match t with
  | PStart =>
    ' (_, v1, v2) <- get OutOfBounds grid k ;;
    _ <- check ((v1 <? V) && (v2 <? V)) ;;
    Ok (PCount v1 v2 0 (fun _ _ => 0), mem)
  | PCount v1 v2 n counts =>
    match nth_error rows n with
    | Some a =>
      _ <- check ((a v1 <? M) && (a v2 <? M)) ;;
      Ok (PCount v1 v2 (S n) (set2 counts (a v1) (a v2) (counts (a v1) (a v2) + 1)), mem)
    | None => Ok (PSum v1 v2 counts 0 0 0%R, mem)
    end
  | PSum v1 v2 counts m1 m2 acc =>
    if m1 <? M then
      if m2 <? M then
        x <- gammaln_table lg N M (counts m1 m2) ;;
        Ok (PSum v1 v2 counts m1 (S m2) (acc + x)%R, mem)
      else Ok (PSum v1 v2 counts (S m1) 0 acc, mem)
    else Ok (PWrite v1 v2 acc, mem)
  | PWrite v1 v2 x =>
    mem <- put OutOfBounds mem k (x - vert_logits v1 - vert_logits v2)%R ;;
    Ok (PDone, mem)
  | PDone => Ok (PDone, mem)
  end.

(** The scheduler lets iteration [k] take a step. *)
Definition sched_step (st : list thread * list R) (k : nat) : result (list thread * list R) :=
  let '(ths, mem) := st in
  t <- get OutOfBounds ths k ;;
  ' (t, mem) <- thread_step k t mem ;;
  Ok (upd ths k t, mem).

(** All K iterations, under the schedule [sched]. *)
Definition run_schedule (sched : list nat) : result (list thread * list R) :=
  let K := length grid in
  foldM sched_step sched (repeat PStart K, repeat 0%R K).
End Par.
