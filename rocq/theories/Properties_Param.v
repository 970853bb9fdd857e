(** Property C50, continued: unknown parameters. *)
From Coq Require Import String.
From Coq Require Import List Arith.
From Verif Require Import Base M_Config M_Validate Spec_Validate L_Param.
Import ListNotations.
Open Scope list_scope.

(** C50.  A column or an option that is not a parameter is rejected, as soon as some row is used. *)
Theorem C50_unknown_parameters_are_rejected : forall header rows options k, header <> [] ->
  setting options "seed" = None -> ~ In "seed"%string header -> ~ In "model_ensemble_size"%string header ->
  In k header \/ In k (map fst options) -> ~ In k params -> (exists row, In row rows /\ used header row = true) -> 0 < parts_of options ->
  read_param_csv (header :: rows) options = Raise ValueError.
Proof. exact C50_unknown_proof. Qed.
Print Assumptions C50_unknown_parameters_are_rejected.
Example C50_unknown_case : ~ In "model_num_cluster"%string params /\ used ["model_num_cluster"]%string ["16"]%string = true /\ 0 < parts_of [] /\
  read_param_csv [["model_num_cluster"]; ["# comment"]; ["16"]]%string [] = Raise ValueError.
Proof.
  split; [cbn; intros H; repeat (destruct H as [H|H]; [discriminate H|]); exact H|]. split; [reflexivity|]. split; [cbn; auto with arith|reflexivity].
Qed.
