(** Proofs about M_Repaired4 (C51, C32). *)
From Coq Require Import String Ascii.
From Coq Require Import List Arith ZArith QArith Bool Lia Decimal DecimalString.
From Verif Require Import Base M_Config M_Cache L_Base L_Config L_Cache M_Repaired4 Spec_Cache.
Import ListNotations.
Open Scope string_scope.

(** ** Names *)
Lemma repaired_name_inj : forall kind a b, repaired_name kind a = repaired_name kind b -> same_args a b.
Proof.
  intros kind a b H. unfold repaired_name in H. cbn [append] in H.
  do 4 (apply intlike_sep in H as [? H]; try apply intlike_str). apply app_dot_inv in H as [? H]; try apply nodot_str.
  repeat match goal with X : str_int _ = str_int _ |- _ => apply str_int_inj in X end.
  split; [auto|]. split; [auto|]. split; [auto|]. rewrite <- (Qred_correct (a_rate a)), <- (Qred_correct (a_rate b)).
  unfold Qeq. congruence.
Qed.
Lemma repaired_kinds : forall a b, repaired_name "dataset" a <> repaired_name "model" b.
Proof.
  intros a b H. unfold repaired_name in H. cbn [append] in H.
  do 4 (apply intlike_sep in H as [? H]; try apply intlike_str). apply app_dot_inv in H as [? H]; try apply nodot_str. discriminate.
Qed.
Lemma same_args_name kind a b : same_args a b -> repaired_name kind a = repaired_name kind b.
Proof. intros (A & B & C & D). unfold repaired_name. rewrite (Qred_complete _ _ D). congruence. Qed.
Lemma not_tmp kind a p : repaired_name kind a <> "tmp-" ++ p.
Proof.
  intros H. unfold repaired_name in H. cbn [append] in H. destruct (a_rows a) as [|q|q]; cbn in H; [discriminate| |discriminate].
  unfold str_int in H. cbn in H. destruct (Pos.to_uint q); discriminate.
Qed.
Lemma same_sym a b : same_args a b -> same_args b a.
Proof. intros (A & B & C & D). repeat split; auto. now symmetry. Qed.
Lemma same_trans a b c : same_args a b -> same_args b c -> same_args a c.
Proof. intros (A & B & C & D) (A' & B' & C' & D'). unfold same_args. rewrite A, B, C, D. auto. Qed.

(** ** Histories: under every name of the cache is the right file. *)
Definition fine (s : fs) : Prop :=
  forall a, match fs_files s (repaired_name "dataset" a) with Some c => exists b, c = Dataset b /\ same_args b a | None => True end /\
            match fs_files s (repaired_name "model" a) with Some c => exists b, c = Model b /\ same_args b a | None => True end.

Lemma fine_tmp s p c : fine s -> fine (set_file s ("tmp-" ++ p) c).
Proof.
  intros F a. cbn [set_file fs_files].
  destruct (String.eqb_spec (repaired_name "dataset" a) ("tmp-" ++ p)) as [E|_]; [now apply not_tmp in E|].
  destruct (String.eqb_spec (repaired_name "model" a) ("tmp-" ++ p)) as [E|_]; [now apply not_tmp in E|]. apply F.
Qed.
Lemma fine_data s a b : fine s -> same_args b a -> fine (set_file s (repaired_name "dataset" a) (Some (Dataset b))).
Proof.
  intros F SA c. cbn [set_file fs_files]. split.
  - destruct (String.eqb_spec (repaired_name "dataset" c) (repaired_name "dataset" a)) as [E|_]; [|apply F].
    exists b. split; auto. eapply same_trans; eauto. apply same_sym. now apply repaired_name_inj in E.
  - destruct (String.eqb_spec (repaired_name "model" c) (repaired_name "dataset" a)) as [E|_]; [|apply F].
    symmetry in E. now apply repaired_kinds in E.
Qed.
Lemma fine_model s a b : fine s -> same_args b a -> fine (set_file s (repaired_name "model" a) (Some (Model b))).
Proof.
  intros F SA c. cbn [set_file fs_files]. split.
  - destruct (String.eqb_spec (repaired_name "dataset" c) (repaired_name "model" a)) as [E|_]; [|apply F]. now apply repaired_kinds in E.
  - destruct (String.eqb_spec (repaired_name "model" c) (repaired_name "model" a)) as [E|_]; [|apply F].
    exists b. split; auto. eapply same_trans; eauto. apply same_sym. now apply repaired_name_inj in E.
Qed.
Lemma same_refl a : same_args a a.
Proof. repeat split; reflexivity. Qed.

Lemma data_step s a k : fine s ->
  let '(o, s') := repaired_dataset_file s a k in fine s' /\
  match o with
  | Returned p => p = repaired_name "dataset" a /\ exists b, fs_files s' p = Some (Dataset b) /\ same_args b a
  | Raised _ => False
  | Killed => k <> AtNone
  end.
Proof.
  intros F. unfold repaired_dataset_file. destruct (fs_files s (repaired_name "dataset" a)) as [c|] eqn:E.
  - split; auto. split; auto. destruct (F a) as [FD _]. rewrite E in FD. destruct FD as (b & -> & SA). eauto.
  - assert (F' : fine (FS true (fs_files s))) by exact F.
    destruct k; cbn [write_renamed]; try (split; [auto using fine_tmp|discriminate]).
    split; [apply fine_data; [now apply fine_tmp|apply same_refl]|]. split; auto. exists a.
    cbn [set_file fs_files]. rewrite String.eqb_refl. split; auto using same_refl.
Qed.
Lemma model_step s a kd k : fine s ->
  let '(o, s') := repaired_model_file s a kd k in fine s' /\
  match o with
  | Returned p => p = repaired_name "model" a /\ exists b, fs_files s' p = Some (Model b) /\ same_args b a
  | Raised _ => False
  | Killed => kd <> AtNone \/ k <> AtNone
  end.
Proof.
  intros F. unfold repaired_model_file. destruct (fs_files s (repaired_name "model" a)) as [c|] eqn:E.
  - split; auto. split; auto. destruct (F a) as [_ FD]. rewrite E in FD. destruct FD as (b & -> & SA). eauto.
  - assert (F' : fine (FS true (fs_files s))) by exact F.
    pose proof (data_step (FS true (fs_files s)) a kd F') as D.
    destruct (repaired_dataset_file (FS true (fs_files s)) a kd) as [o s']. destruct D as [FD D].
    destruct k; try (split; [exact F|right; discriminate]);
      (destruct o as [p|e|]; [destruct D as (-> & b & Eb & SA); unfold load_dataset; rewrite Eb|contradiction|split; [exact FD|now left]]);
      cbn [write_renamed]; try (split; [auto using fine_tmp|right; discriminate]).
    split; [apply fine_model; [now apply fine_tmp|exact SA]|]. split; auto. exists b. cbn [set_file fs_files]. rewrite String.eqb_refl. auto.
Qed.
Lemma fine_run : forall h, fine (repaired_run h).
Proof.
  intros h. unfold repaired_run. assert (F0 : fine (FS false (fun _ => None))) by (intros a; cbn; auto).
  revert F0. generalize (FS false (fun _ => None)). induction h as [|e h IH]; intros s F; cbn [fold_left]; auto. apply IH.
  destruct e as [a k|a kd k|keep done]; cbn [repaired_step].
  - pose proof (data_step s a k F) as D. destruct (repaired_dataset_file s a k). apply D.
  - pose proof (model_step s a kd k F) as D. destruct (repaired_model_file s a kd k). apply D.
  - unfold clean. destruct done; intros a; cbn [fs_files]; [auto|]. specialize (F a).
    destruct (keep (repaired_name "dataset" a)), (keep (repaired_name "model" a)); tauto.
Qed.

Lemma C51_repaired_data : forall h a,
  exists s b, repaired_dataset_file (repaired_run h) a AtNone = (Returned (repaired_name "dataset" a), s) /\
    fs_files s (repaired_name "dataset" a) = Some (Dataset b) /\ same_args b a.
Proof.
  intros h a. pose proof (data_step _ a AtNone (fine_run h)) as D. destruct (repaired_dataset_file (repaired_run h) a AtNone) as [o s].
  destruct D as [_ D]. destruct o as [p|e|]; [|contradiction|congruence]. destruct D as (-> & b & E & SA). eauto 6.
Qed.
Lemma C51_repaired_model : forall h a,
  exists s b, repaired_model_file (repaired_run h) a AtNone AtNone = (Returned (repaired_name "model" a), s) /\
    fs_files s (repaired_name "model" a) = Some (Model b) /\ same_args b a.
Proof.
  intros h a. pose proof (model_step _ a AtNone AtNone (fine_run h)) as D. destruct (repaired_model_file (repaired_run h) a AtNone AtNone) as [o s].
  destruct D as [_ D]. destruct o as [p|e|]; [|contradiction|destruct D; congruence]. destruct D as (-> & b & E & SA). eauto 6.
Qed.
