(** Programs that draw random numbers.

    A program is the tree of its draws.  The draws of treecat are
    [sample_from_probs] (treecat/util.py:78-88), [np.random.permutation],
    and [np.random.randint] / [np.random.choice] / shuffles, which are uniform. *)
From Coq Require Import List Reals Arith Permutation.
From Verif Require Import Base Spec_Sum.
Import ListNotations.
Open Scope R_scope.

Inductive rprog (A : Type) : Type :=
| Ret (a : A)
| Fail (e : exn)
| Cat (w : list R) (k : nat -> rprog A)
| Perm (n : nat) (k : list nat -> rprog A).
Arguments Ret {A} a.
Arguments Fail {A} e.
Arguments Cat {A} w k.
Arguments Perm {A} n k.

Fixpoint rbind {A B} (p : rprog A) (f : A -> rprog B) : rprog B :=
  match p with
  | Ret a => f a
  | Fail e => Fail e
  | Cat w k => Cat w (fun i => rbind (k i) f)
  | Perm n k => Perm n (fun s => rbind (k s) f)
  end.

Definition lift {A} (r : result A) : rprog A :=
  match r with Ok a => Ret a | Raise e => Fail e end.

Declare Scope rprog_scope.
Delimit Scope rprog_scope with rp.
Notation "x <~ c1 ;; c2" := (rbind c1 (fun x => c2))
  (at level 61, c1 at next level, right associativity) : rprog_scope.
Notation "' p <~ c1 ;; c2" := (rbind c1 (fun x => let p := x in c2))
  (at level 61, p pattern, c1 at next level, right associativity) : rprog_scope.

Fixpoint rfold {A S} (f : S -> A -> rprog S) (l : list A) (s : S) : rprog S :=
  match l with
  | [] => Ret s
  | a :: t => rbind (f s a) (fun s' => rfold f t s')
  end.

Fixpoint rmap {A B} (f : A -> rprog B) (l : list A) : rprog (list B) :=
  match l with
  | [] => Ret []
  | a :: t => rbind (f a) (fun b => rbind (rmap f t) (fun bs => Ret (b :: bs)))
  end.

(** util.py:78-88 [sample_from_probs]:
    [cdf = probs.cumsum(); return (np.random.rand() * cdf[-1] < cdf).argmax()]
    as a function of the uniform [u].  [argmax] of an all-False array is 0; an
    empty array raises IndexError. *)
Fixpoint first_above (t acc : R) (w : list R) (i : nat) : option nat :=
  match w with
  | [] => None
  | x :: w => if Rlt_dec t (acc + x) then Some i else first_above t (acc + x) w (S i)
  end.

Definition sample_from_probs (u : R) (w : list R) : result nat :=
  match w with
  | [] => Raise IndexError
  | _ => Ok (match first_above (u * rsum w) 0 w 0 with Some i => i | None => 0%nat end)
  end.

(** util.py:91-105 [sample_from_probs2]: one draw per row. *)
Definition sample_from_probs2 (us : list R) (rows : list (list R)) : result (list nat) :=
  mapM (fun '(u, w) => sample_from_probs u w) (combine us rows).

(** Which outcomes a categorical draw can have (theorem C12 relates this to
    [sample_from_probs]): an index of positive weight, or index 0 when the
    weights are not nonnegative with a positive sum. *)
Definition cat_outcome (w : list R) (i : nat) : Prop :=
  (i < length w)%nat /\
  (0 < nth i w 0 \/ (i = 0%nat /\ ~ ((forall x, In x w -> 0 <= x) /\ 0 < rsum w))).

(** [always P p]: whatever is drawn, [p] raises nothing and returns a value
    satisfying [P]. *)
Fixpoint always {A} (P : A -> Prop) (p : rprog A) : Prop :=
  match p with
  | Ret a => P a
  | Fail _ => False
  | Cat w k => w <> [] /\ forall i, cat_outcome w i -> always P (k i)
  | Perm n k => forall s, Permutation s (seq 0 n) -> always P (k s)
  end.

(** [may_return p r]: [r] is a possible outcome of [p]. *)
Fixpoint may_return {A} (p : rprog A) (r : result A) : Prop :=
  match p with
  | Ret a => r = Ok a
  | Fail e => r = Raise e
  | Cat w k => match w with [] => r = Raise IndexError
               | _ => exists i, cat_outcome w i /\ may_return (k i) r end
  | Perm n k => exists s, Permutation s (seq 0 n) /\ may_return (k s) r
  end.

(** All permutations of a list. *)
Fixpoint inserts {A} (x : A) (l : list A) : list (list A) :=
  (x :: l) :: match l with [] => [] | y :: t => map (cons y) (inserts x t) end.
Fixpoint perms {A} (l : list A) : list (list A) :=
  match l with [] => [[]] | x :: t => flat_map (inserts x) (perms t) end.

(** [expect p f]: the expectation of [f] of the outcome, draws being exact. *)
Fixpoint expect {A} (p : rprog A) (f : result A -> R) : R :=
  match p with
  | Ret a => f (Ok a)
  | Fail e => f (Raise e)
  | Cat w k => match w with
               | [] => f (Raise IndexError)
               | _ => if Req_EM_T (rsum w) 0 then expect (k 0%nat) f
                      else sumf (seq 0 (length w)) (fun i => nth i w 0 / rsum w * expect (k i) f)
               end
  | Perm n k => sumf (perms (seq 0 n)) (fun s => expect (k s) f) / INR (length (perms (seq 0 n)))
  end.

(** The probability that [p] returns a value satisfying the boolean [b]. *)
Definition prob {A} (p : rprog A) (b : A -> bool) : R :=
  expect p (fun r => match r with Ok a => if b a then 1 else 0 | Raise _ => 0 end).
