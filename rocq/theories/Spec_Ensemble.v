(** Configs that differ in the seed; generators that draw legally. *)
From Coq Require Import String.
From Coq Require Import List Arith ZArith Reals QArith Permutation.
From Verif Require Import Base M_Config M_Rand M_Training M_Ensemble.
Import ListNotations.
Open Scope string_scope.
Open Scope nat_scope.

(** [c'] is the config [c] with [i] added to the seed. *)
Definition seeded (c : dict) (i : nat) (c' : dict) : Prop :=
  keys c' = keys c /\
  (exists v, lookup c "seed" = Some v /\ lookup c' "seed" = Some (PInt (to_int v + Z.of_nat i))) /\
  forall k, k <> "seed" -> lookup c' k = lookup c k.

(** Every draw is a possible one: a permutation; a category of positive weight. *)
Definition draws_legally (g : generators) : Prop :=
  (forall w st, w <> [] -> cat_outcome w (fst (draw_cat g w st))) /\
  (forall n st, Permutation (fst (draw_perm g n st)) (seq 0 n)).

(** A config the documentation admits, for the categorical model. *)
Definition admissible (c : dict) : Prop :=
  (exists s, key c "seed" = Ok s) /\
  (exists z, key c "model_num_clusters" = Ok z /\ 1 <= z <= 128)%Z /\
  key c "model_latent_dim" = Ok 0%Z /\
  (exists z, key c "learning_init_epochs" = Ok z /\ 1 <= z)%Z /\
  (exists z, key c "learning_full_epochs" = Ok z) /\
  (exists z, key c "learning_sample_tree_rate" = Ok z /\ 1 <= z)%Z /\
  (exists z, key c "learning_estimate_tree" = Ok z).
