(** Entropies, perplexities and correlations, as quantities of the model that
    the server represents. *)
From Coq Require Import List Arith Bool ZArith Reals.
From Verif Require Import Base M_Structure Spec_Sum Spec_Joint Spec_Conditional M_Serving Spec_Serving.
Import ListNotations.

(** The probability that feature [u] is in class [a] and feature [v] in class
    [b]: a sum over all class vectors. *)
Definition pair_prob (m : smodel) (u v a b : nat) : R :=
  sumf (vectors (ts_V (d_tree m)) (d_M m))
    (fun z => if (nth u z 0 =? a) && (nth v z 0 =? b) then latent_prob m z else 0%R).

(** Mutual information of a joint distribution of two classes below [M]. *)
Definition mutual_information (M : nat) (joint : nat -> nat -> R) : R :=
  sumf (seq 0 M) (fun a => sumf (seq 0 M) (fun b =>
    joint a b * ln (joint a b / (sumf (seq 0 M) (joint a) * sumf (seq 0 M) (fun a => joint a b)))))%R.

(** Shannon entropy, in nats ([0 * ln 0] is 0). *)
Definition shannon {A} (outcomes : list A) (prob : A -> R) : R :=
  sumf outcomes (fun x => - (prob x * ln (prob x)))%R.

(** The ways to make [n] draws from [w] categories, as counts. *)
Fixpoint draws_of (w n : nat) : list (list nat) :=
  match w with
  | 0 => match n with 0 => [[]] | S _ => [] end
  | S w => flat_map (fun k => map (cons k) (draws_of w (n - k))) (seq 0 (S n))
  end.
(** Their (multinomial) probabilities. *)
Definition draws_prob (probs : list R) (n : nat) (counts : list nat) : R :=
  (INR (fact n) * prodf (combine probs counts) (fun '(p, k) => p ^ k / INR (fact k)))%R.

(** Entropy of the counts of [n] draws. *)
Definition draws_entropy (probs : list R) (n : nat) : R :=
  shannon (draws_of (length probs) n) (draws_prob probs n).

(** The distribution of the first observation of feature [v]. *)
Definition feature_probs (ws : list nat) (m : smodel) (v : nat) : list R :=
  map (predictive ws m (repeat 0%Z (list_sum ws)) v) (block ws v).
