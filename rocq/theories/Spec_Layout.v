(** Spectral layouts. *)
From Coq Require Import List Arith Reals.
From Verif Require Import Spec_Sum.
Import ListNotations.
Open Scope R_scope.

Definition dot (n : nat) (x y : nat -> R) : R := sumf (seq 0 n) (fun i => x i * y i).

(** An [n] x [n] matrix as a function, from a list of rows. *)
Definition entry (m : list (list R)) (i j : nat) : R := nth j (nth i m []) 0.

(** A full system of eigenvectors of a matrix: orthonormal, in ascending order of
    their eigenvalues, and spanning the whole space. *)
Record eigen_system (n : nat) (m : list (list R)) (es : list (R * list R)) : Prop := {
  es_length : length es = n;
  es_value : forall k i, (k < n)%nat -> (i < n)%nat ->
    dot n (entry m i) (fun j => nth j (snd (nth k es (0, []))) 0) = fst (nth k es (0, [])) * nth i (snd (nth k es (0, []))) 0;
  es_unit : forall k l, (k < n)%nat -> (l < n)%nat ->
    dot n (fun j => nth j (snd (nth k es (0, []))) 0) (fun j => nth j (snd (nth l es (0, []))) 0) = if (k =? l)%nat then 1 else 0;
  es_ascending : forall k l, (k <= l < n)%nat -> fst (nth k es (0, [])) <= fst (nth l es (0, []));
  es_spanning : forall x i, (i < n)%nat ->
    x i = sumf (seq 0 n) (fun k => dot n x (fun j => nth j (snd (nth k es (0, []))) 0) * nth i (snd (nth k es (0, []))) 0)
}.

(** Two features are tied if a chain of positive correlations leads from one to
    the other. *)
Inductive tied (c : nat -> nat -> R) (n : nat) : nat -> nat -> Prop :=
| tied_self u : tied c n u u
| tied_step u v w : (v < n)%nat -> (w < n)%nat -> tied c n u v -> 0 < c v w -> tied c n u w.

(** How far apart a coordinate puts correlated features. *)
Definition energy (n : nat) (c : nat -> nat -> R) (x : nat -> R) : R :=
  sumf (seq 0 n) (fun i => sumf (seq 0 i) (fun j => c i j * ((x i - x j) * (x i - x j)))).

Definition centered (n : nat) (x : nat -> R) : Prop := sumf (seq 0 n) x = 0.

(** The coordinates of a layout are centered, of unit length and orthogonal, and
    each puts correlated features as near to each other as any such coordinate
    orthogonal to those before it. *)
Record spectral (n : nat) (c : nat -> nat -> R) (positions : list (list R)) : Prop := {
  sp_shape : length positions = n /\ forall v, (v < n)%nat -> length (nth v positions []) = 3%nat;
  sp_centered : forall k, (k < 3)%nat -> centered n (fun v => entry positions v k);
  sp_unit : forall k l, (k < 3)%nat -> (l < 3)%nat ->
    dot n (fun v => entry positions v k) (fun v => entry positions v l) = if (k =? l)%nat then 1 else 0;
  sp_nearest : forall k x, (k < 3)%nat -> centered n x -> dot n x x = 1 ->
    (forall l, (l < k)%nat -> dot n x (fun v => entry positions v l) = 0) ->
    energy n c (fun v => entry positions v k) <= energy n c x
}.

(** A correlation matrix: square, symmetric, nowhere negative. *)
Definition correlations (n : nat) (c : list (list R)) : Prop :=
  length c = n /\ (forall row, In row c -> length row = n) /\
  forall i j, (i < n)%nat -> (j < n)%nat -> entry c i j = entry c j i /\ 0 <= entry c i j.

(** The laplacian of the weights [c]. *)
Definition laplacian_of (n : nat) (c : nat -> nat -> R) (m : list (list R)) : Prop :=
  length m = n /\ (forall row, In row m -> length row = n) /\
  forall i j, (i < n)%nat -> (j < n)%nat ->
    entry m i j = if (i =? j)%nat then sumf (seq 0 n) (fun k => if (i =? k)%nat then 0 else c i k) else - c i j.

(** [eigh] finds the eigenvectors of the laplacian of [c]. *)
Definition eigh_contract (eigh : list (list R) -> list (R * list R)) (n : nat) (c : nat -> nat -> R) : Prop :=
  forall m, laplacian_of n c m -> eigen_system n m (eigh m).
