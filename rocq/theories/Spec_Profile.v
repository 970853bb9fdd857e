(** What profiling statistics should say. *)
From Coq Require Import String.
From Coq Require Import List Arith Bool Reals.
From Verif Require Import Spec_Sum M_Profile.
Import ListNotations.
Open Scope list_scope.
Open Scope nat_scope.

(** The statistics after calls of sample_tree with trees of [h] edges each, the
    latest last: all calls are counted; each call with two or more edges proposes to
    move each of its edges once; the accepted proposals add up; a proposal is
    accepted, rejected or infeasible; each was a choice among some number of places,
    at least one and at most all pairs of vertices; and the histogram counts how many
    binary digits these numbers have ([n] has [b] if 2^(b-1) <= n < 2^b). *)
Definition add_up (h : list nat) (t : tallies) : Prop :=
  let moved := filter (fun E => 2 <=? E) h in
  t_calls t = length h /\
  t_propose t = list_sum moved /\
  Forall2 (fun a E => a <= E) (t_accepted t) moved /\
  t_accept t = list_sum (t_accepted t) /\
  t_accept t + t_infeasible t <= t_propose t /\
  exists choices, map (@length nat) choices = moved /\
    Forall2 (fun E => Forall (fun n => 1 <= n <= (E + 1) * E / 2)) moved choices /\
    forall b, t_choices t b = length (filter (fun n => (2 ^ b <=? 2 * n) && (n <? 2 ^ b)) (concat choices)).

(** The edges of the tree [T] that are not edges of [edges]. *)
Definition new_edges (edges T : list (nat * nat)) : list (nat * nat) :=
  filter (fun '(x, y) => negb (existsb (fun '(a, b) => ((a =? x) && (b =? y)) || ((a =? y) && (b =? x))) edges)) T.

(** All calls, nested ones included. *)
Fixpoint all_calls (c : call) : list (string * R * R) :=
  match c with Call f a cs b => (f, a, b) :: flat_map all_calls cs end.
Definition calls_of (f : string) (cs : list call) : list (string * R * R) :=
  filter (fun x => String.eqb (fst (fst x)) f) (flat_map all_calls cs).
(** How long they took together. *)
Definition time_in (l : list (string * R * R)) : R := sumf l (fun x => snd x - snd (fst x))%R.
