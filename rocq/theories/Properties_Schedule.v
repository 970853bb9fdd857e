(** Property theorems about [make_annealing_schedule]: C16 and C17. *)
From Coq Require Import List ZArith QArith Permutation.
From Verif Require Import Base M_Schedule Spec_Schedule.
From Verif Require L_Schedule.
Import ListNotations.

(** C16.  For every shuffle of the rows the schedule ends (some amount of fuel
    is enough, and any larger amount gives the same actions). *)
Theorem C16_schedule_terminates : forall N ids epochs rate,
  Permutation ids (seq 0 N) -> (1 <= epochs)%Q -> (1 <= rate)%Q ->
  exists fuel acts, forall fuel', (fuel <= fuel')%nat ->
    make_annealing_schedule fuel' ids epochs rate = Ok acts.
Proof. exact L_Schedule.mas_terminates_more. Qed.
Print Assumptions C16_schedule_terminates.

(** C16.  Its actions are all legal (only unassigned rows of the dataset are
    added, only assigned rows removed, the subsample is never empty after an
    action), they end with every row assigned exactly once; with epochs = 1
    nothing is removed; the number of additions is at most num_rows * epochs and
    falls short of it by at most 3 * epochs - 1. *)
Theorem C16_schedule_is_legal_and_complete : forall N ids epochs rate fuel acts,
  Permutation ids (seq 0 N) -> (1 <= epochs)%Q -> (1 <= rate)%Q ->
  make_annealing_schedule fuel ids epochs rate = Ok acts ->
  (exists R, replays N [] acts R /\ Permutation R (seq 0 N)) /\
  ((epochs == 1)%Q -> removes acts = 0%nat) /\
  (inject_Z (Z.of_nat (adds acts)) <= inject_Z (Z.of_nat N) * epochs)%Q /\
  (inject_Z (Z.of_nat N) * epochs - (3 * epochs - 1) <= inject_Z (Z.of_nat (adds acts)))%Q.
Proof. exact L_Schedule.mas_spec. Qed.
Print Assumptions C16_schedule_is_legal_and_complete.

(** Arguments below 1 are rejected. *)
Theorem C16_bad_arguments_rejected : forall ids epochs rate fuel,
  ~ ((1 <= epochs)%Q /\ (1 <= rate)%Q) ->
  make_annealing_schedule fuel ids epochs rate = Raise AssertionError.
Proof. exact L_Schedule.mas_rejects. Qed.
Print Assumptions C16_bad_arguments_rejected.

(** C17.  The schedule is empty or starts with an addition and a tree sample.
    Between consecutive tree samples, the first taken with |R| rows assigned, the
    last action is an addition and the number of additions is the least [k] with
    [k * rate >= |R|], that is ceil(|R| / rate).  After the last tree sample
    there are fewer additions than that. *)
Theorem C17_tree_sampling_cadence : forall N ids epochs rate fuel acts,
  Permutation ids (seq 0 N) -> (1 <= epochs)%Q -> (1 <= rate)%Q ->
  make_annealing_schedule fuel ids epochs rate = Ok acts ->
  (acts = [] \/ exists r rest, acts = AddRow r :: SampleTree :: rest) /\
  (forall pre mid post, acts = pre ++ SampleTree :: mid ++ SampleTree :: post -> ~ In SampleTree mid ->
     exists mid' r R, mid = mid' ++ [AddRow r] /\ replays N [] pre R /\
       (inject_Z (Z.of_nat (adds mid')) * rate < inject_Z (Z.of_nat (length R)))%Q /\
       (inject_Z (Z.of_nat (length R)) <= inject_Z (Z.of_nat (adds mid)) * rate)%Q) /\
  (forall pre rest, acts = pre ++ SampleTree :: rest -> ~ In SampleTree rest ->
     exists R, replays N [] pre R /\
       (inject_Z (Z.of_nat (adds rest)) * rate < inject_Z (Z.of_nat (length R)))%Q).
Proof. exact L_Schedule.mas_cadence. Qed.
Print Assumptions C17_tree_sampling_cadence.

(** 5 rows in the order 3 1 4 0 2, epochs = 2, rate = 3/2. *)
Example C16_case : Permutation [3; 1; 4; 0; 2]%nat (seq 0 5) /\
  make_annealing_schedule 20 [3; 1; 4; 0; 2]%nat 2 (3 # 2) =
  Ok [AddRow 3; SampleTree; AddRow 1; SampleTree; AddRow 4; AddRow 0; SampleTree;
      AddRow 2].
Proof.
  split; [|vm_compute; reflexivity].
  apply Permutation_sym, NoDup_Permutation_bis; [apply seq_NoDup|cbn; repeat constructor|].
  intros x H. apply in_seq in H. cbn. destruct H as [_ H]. do 5 (destruct x as [|x]; [tauto|]).
  exfalso. cbn in H. repeat apply le_S_n in H. inversion H.
Qed.

(** A case with removals: 7 rows, epochs = 3, rate = 2. *)
Example C17_case : make_annealing_schedule 40 [0; 1; 2; 3; 4; 5; 6]%nat 3 2 =
  Ok [AddRow 0; SampleTree; AddRow 1; SampleTree; AddRow 2; SampleTree; AddRow 3; RemoveRow 0;
      AddRow 4; SampleTree; RemoveRow 1; AddRow 5; AddRow 6; SampleTree; RemoveRow 2; AddRow 0;
      RemoveRow 3; AddRow 1; AddRow 2; SampleTree; RemoveRow 4; AddRow 3; RemoveRow 5; AddRow 4;
      AddRow 5; SampleTree].
Proof. vm_compute. reflexivity. Qed.
