(** Basic vocabulary of the model: Python exceptions as values, bounds-checked
    lists (arrays), duplicate-free sorted lists (sets of small integers). *)
From Coq Require Import List Arith Lia Bool.
Import ListNotations.

(** Python exceptions, plus two error values that stand for undefined
    behaviour: [OutOfBounds] for an array access outside its array in
    jit-compiled code (numba does not check bounds), and [OutOfFuel] for a
    loop that did not finish within the fuel the model gives it. *)
Inductive exn : Set :=
| AssertionError | IndexError | KeyError | TypeError | ValueError
| OverflowError | ZeroDivisionError | NotImplementedError | AttributeError
| StopIteration | OSError | EOFError
| OutOfBounds | OutOfFuel.

Inductive result (A : Type) : Type :=
| Ok (a : A)
| Raise (e : exn).
Arguments Ok {A} a.
Arguments Raise {A} e.

Definition bind {A B} (x : result A) (f : A -> result B) : result B :=
  match x with Ok a => f a | Raise e => Raise e end.

Declare Scope res_scope.
Delimit Scope res_scope with res.
Notation "x <- c1 ;; c2" := (bind c1 (fun x => c2))
  (at level 61, c1 at next level, right associativity) : res_scope.
Notation "' p <- c1 ;; c2" := (bind c1 (fun x => let p := x in c2))
  (at level 61, p pattern, c1 at next level, right associativity) : res_scope.
Open Scope res_scope.

(** [assert b] of Python. *)
Definition assert_ (b : bool) : result unit :=
  if b then Ok tt else Raise AssertionError.

(** Reading index [i] of a sequence, [e] being the error for a bad index. *)
Definition get {A} (e : exn) (l : list A) (i : nat) : result A :=
  match nth_error l i with Some a => Ok a | None => Raise e end.

(** [l] with position [i] replaced by [x] ([l] itself if [i] is out of range). *)
Fixpoint upd {A} (l : list A) (i : nat) (x : A) : list A :=
  match l, i with
  | [], _ => []
  | _ :: t, 0 => x :: t
  | h :: t, S i => h :: upd t i x
  end.

(** Writing index [i] of a sequence. *)
Definition put {A} (e : exn) (l : list A) (i : nat) (x : A) : result (list A) :=
  if i <? length l then Ok (upd l i x) else Raise e.

(** Iterating a fallible step over a list ([for x in l: ...]). *)
Fixpoint foldM {A S} (f : S -> A -> result S) (l : list A) (s : S) : result S :=
  match l with
  | [] => Ok s
  | a :: t => s' <- f s a ;; foldM f t s'
  end.

(** Mapping a fallible function ([[f(x) for x in l]]). *)
Fixpoint mapM {A B} (f : A -> result B) (l : list A) : result (list B) :=
  match l with
  | [] => Ok []
  | a :: t => b <- f a ;; bs <- mapM f t ;; Ok (b :: bs)
  end.

(** Python sets of ints are represented by strictly increasing lists, so that
    [sorted(s)] is the representation itself. *)
Fixpoint set_add (x : nat) (s : list nat) : list nat :=
  match s with
  | [] => [x]
  | y :: t => if x <? y then x :: y :: t
              else if x =? y then y :: t
              else y :: set_add x t
  end.

Fixpoint set_remove_raw (x : nat) (s : list nat) : list nat :=
  match s with
  | [] => []
  | y :: t => if x =? y then t else y :: set_remove_raw x t
  end.

Definition set_mem (x : nat) (s : list nat) : bool := existsb (Nat.eqb x) s.

(** [s.remove(x)]: KeyError if absent. *)
Definition set_remove (x : nat) (s : list nat) : result (list nat) :=
  if set_mem x s then Ok (set_remove_raw x s) else Raise KeyError.
