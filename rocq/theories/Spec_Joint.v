(** Vectors of latent classes and tree-structured weights. *)
From Coq Require Import List Arith Reals.
From Verif Require Import Spec_Sum.
Import ListNotations.

(** All vectors of [V] classes out of [M]. *)
Fixpoint vectors (V M : nat) : list (list nat) :=
  match V with
  | 0 => [[]]
  | S V => flat_map (fun m => map (cons m) (vectors V M)) (seq 0 M)
  end.

(** The unnormalised probability of the class vector [z]: a factor
    [node v m] for every vertex [v] of class [m] and a factor [pair e m1 m2] for
    every edge [(v1, v2)], the [e]-th of the list, with classes [m1], [m2]. *)
Definition tree_weight (V : nat) (es : list (nat * nat)) (node : nat -> nat -> R)
  (pair : nat -> nat -> nat -> R) (z : list nat) : R :=
  (prodf (seq 0 V) (fun v => node v (nth v z 0%nat)) *
   prodf (combine (seq 0 (length es)) es) (fun '(e, (v1, v2)) => pair e (nth v1 z 0%nat) (nth v2 z 0%nat)))%R.

(** rising factorial [x (x+1) ... (x+k-1)] *)
Fixpoint rising (x : R) (k : nat) : R :=
  match k with O => 1%R | S k => (x * rising (x + 1) k)%R end.

(** Probability of a sequence of observations from a Polya urn with
    pseudo-counts [a r], [r] in [l], in which category [r] is seen [c r] times. *)
Definition polya (l : list nat) (a : nat -> R) (c : nat -> nat) : R :=
  (prodf l (fun r => rising (a r) (c r)) / rising (sumf l a) (list_sum (map c l)))%R.
