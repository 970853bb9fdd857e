(** The law of a program whose draws come from float32 weights. *)
From Coq Require Import List Arith ZArith Reals.
From Flocq Require Import IEEE754.BinarySingleNaN.
From Verif Require Import Base M_Rand M_Float32 M_Train32.
Import ListNotations.

(** Every draw takes entry [i] with exactly the probability of its float32 weight.
    A simplification of [sample_from_probs] (treecat/util.py:78-105), which compares
    a 53-bit uniform number with cumulative sums rounded to float32; [run_prob]
    below does without it. *)
Fixpoint ideal {A} (p : fprog A) : rprog A :=
  match p with
  | FRet a => Ret a
  | FFail e => Fail e
  | FCat w k => Cat (map B2R w) (fun i => ideal (k i))
  end.

(** An output of [np.random.rand()]: a multiple of 2^-53 below 1, all equally likely. *)
Definition rand_of (k : nat) : f64 := f64_of (Z.of_nat k) (-53).
Definition all_rands : list f64 := map rand_of (seq 0 (Z.to_nat (2 ^ 53))).

(** The probability that [sample_from_probs] returns [i]. *)
Definition draw_prob (w : list f32) (i : nat) : R :=
  (INR (length (filter (fun u => match sample_from_probs32 u w with Ok j => j =? i | Raise _ => false end) all_rands)) / IZR (2 ^ 53))%R.

(** All ways the generator can give [D] numbers. *)
Fixpoint rand_lists (D : nat) : list (list f64) :=
  match D with O => [[]] | S D => flat_map (fun u => map (cons u) (rand_lists D)) all_rands end.

(** The probability that a program run on [D] outputs of the generator returns a
    value satisfying [b]. *)
Definition run_prob {A} (D : nat) (p : fprog A) (b : A -> bool) : R :=
  (INR (length (filter (fun us => match frun us p with Ok a => b a | Raise _ => false end) (rand_lists D))) / IZR (2 ^ 53) ^ D)%R.

(** At most [D] draws, from at most [B] weights each. *)
Fixpoint shape {A} (B D : nat) (p : fprog A) {struct p} : Prop :=
  match p with
  | FRet _ => True
  | FFail _ => True
  | FCat w k => match D with O => False | S D => (length w <= B) /\ forall i, (i < length w) -> shape B D (k i) end
  end.

(** The event that the rows drawn are in a list. *)
Definition one_of (Xs : list (list (list Z))) (X : list (list Z)) : bool :=
  if in_dec (list_eq_dec (list_eq_dec Z.eq_dec)) X Xs then true else false.
