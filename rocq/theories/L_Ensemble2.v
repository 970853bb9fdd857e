(** The configs that train_model refuses (C24). *)
From Coq Require Import String List Arith ZArith Reals QArith Lia.
From Verif Require Import Base M_Config M_Rand M_Training M_Ensemble.
Import ListNotations.
Open Scope string_scope.

Lemma refuses : forall g lg mst tb prior config st M D,
  key config "model_num_clusters" = Ok M -> key config "model_latent_dim" = Ok D ->
  ((M < 1 \/ D < 0)%Z -> train_model g lg mst tb prior config st = (Raise AssertionError, st)) /\
  ((M = 1 /\ 0 < D)%Z -> train_model g lg mst tb prior config st = (Raise AssertionError, st)) /\
  ((1 < M /\ 0 < D)%Z -> train_model g lg mst tb prior config st = (Raise NotImplementedError, st)).
Proof.
  intros g lg mst tb prior config st M D EM ED. unfold train_model, cbind, from. rewrite EM, ED.
  destruct (Z.leb_spec 1 M), (Z.leb_spec 0 D); cbn [assert_]; (split; [|split]); intros H1; try reflexivity; try lia.
  - destruct (Z.eqb_spec D 0); [lia|]. destruct (Z.eqb_spec M 1); [reflexivity|lia].
  - destruct (Z.eqb_spec D 0); [lia|]. destruct (Z.eqb_spec M 1); [lia|reflexivity].
Qed.

(** Configs without a key that [train_ensemble] reads. *)
Lemma ensemble_missing_keys g lg mst threads workers events st tb prior h a c :
  nth_error h a = Some c ->
  (lookup c "model_ensemble_size" = None -> fst (train_ensemble g lg mst threads workers events st tb prior h a) = Raise KeyError) /\
  (forall size, key c "model_ensemble_size" = Ok (Z.of_nat (S size)) -> lookup c "seed" = None ->
     fst (train_ensemble g lg mst threads workers events st tb prior h a) = Raise KeyError).
Proof.
  intros H. unfold train_ensemble, ensemble_tasks. unfold get at 1 2. rewrite H. cbn [bind]. split.
  - intros L. unfold key. rewrite L. reflexivity.
  - intros size E L. rewrite E. cbn [bind]. rewrite Nat2Z.id. cbn [seq foldM]. unfold dict_copy, get at 1. rewrite H. cbn [bind].
    unfold dict_incr, get at 1. rewrite nth_error_app2 by lia. rewrite Nat.sub_diag. cbn [nth_error bind]. unfold key. rewrite L. reflexivity.
Qed.
