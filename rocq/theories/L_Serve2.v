(** Proofs of C28 and C29. *)
From Coq Require Import List Arith Lia Bool ZArith Reals Lra.
From Verif Require Import Base L_Base Spec_Graph L_Graph Spec_Sum L_Sum M_Structure L_MakeTree L_Program Spec_Program M_Rand L_Rand M_Util Spec_Ragged L_Ragged M_Array M_SampleTree M_EstimateTree Spec_Trees Spec_MST M_Training Spec_Stats L_Stats Spec_Joint Spec_Conditional L_AddRow M_Serving Spec_Serving L_Server L_Inward L_Logprob L_Draws L_Sample L_SampleCounts L_Serve1.
Import ListNotations.
Open Scope R_scope.

Definition evidence (ws : list nat) (data : option (list Z)) : list Z :=
  match data with None => repeat 0%Z (list_sum ws) | Some d => d end.

Lemma sample_evidence ws V M edges s n counts data : sfacts ws V M edges s -> sample s n counts data = sample s n counts (Some (evidence ws data)).
Proof. intros SF. unfold sample, evidence. rewrite (sf_R _ _ _ _ _ SF). now destruct data. Qed.

Lemma wide ws V counts : (forall v, (v < V)%nat -> (0 < nth v counts 0)%Z -> (1 <= nth v ws 0)%nat) ->
  forall v, (v < V)%nat -> (0 < nth v counts 0%Z)%Z -> block ws v <> [].
Proof. intros W v Hv C E. specialize (W v Hv C). apply (f_equal (@length nat)) in E. unfold block in E. rewrite seq_length in E. simpl in E. lia. Qed.

Lemma C28_surely : forall ws V M N m mst s n counts data, consistent ws V M N m -> mst_contract mst -> tree_server mst m = Ok s ->
  length counts = V -> (forall v, (v < V)%nat -> (0 <= nth v counts 0 <= 127)%Z) ->
  (forall v, (v < V)%nat -> (0 < nth v counts 0)%Z -> (1 <= nth v ws 0)%nat) ->
  (forall d, data = Some d -> length d = list_sum ws) ->
  surely (fun rows => length rows = n /\ forall x, In x rows -> legal_row ws counts x) (sample s n counts data).
Proof.
  intros ws V M N m mst s n counts data C MC E CL CB CW DL.
  destruct (build_server ws V M N m C mst MC) as (s' & edges & E' & SF & ST & SV & SE & SFe & _ & _ & EP). rewrite E in E'. inversion E'; subst s'.
  rewrite (sample_evidence ws V M edges s) by auto.
  destruct (sf_tree _ _ _ _ _ SF) as (ET & T). rewrite ET in EP. cbn [ts_grid] in EP.
  destruct (prog_shape V edges None (sv_prog s) T ltac:(discriminate) EP) as (r & par & dep & np & RT & BL & EQ).
  apply (sample_surely ws V M edges s SF r par dep RT np BL n counts (evidence ws data) CL); auto.
  - destruct data; cbn [evidence]; [now apply DL|apply repeat_length].
  - eapply wide; eauto.
Qed.
Lemma C28_proof : forall ws V M N m mst s n counts data, consistent ws V M N m -> mst_contract mst -> tree_server mst m = Ok s ->
  length counts = V -> (forall v, (v < V)%nat -> (0 <= nth v counts 0 <= 127)%Z) ->
  (forall v, (v < V)%nat -> (0 < nth v counts 0)%Z -> (1 <= nth v ws 0)%nat) ->
  (forall d, data = Some d -> length d = list_sum ws) ->
  always (fun rows => length rows = n /\ forall x, In x rows -> legal_row ws counts x) (sample s n counts data).
Proof. intros. apply surely_always. eapply C28_surely; eauto. Qed.


Lemma law : forall ws V M N m mst s n counts data X, consistent ws V M N m -> mst_contract mst -> tree_server mst m = Ok s ->
  length counts = V -> (forall v, (v < V)%nat -> (0 <= nth v counts 0 <= 127)%Z) ->
  (forall v, (v < V)%nat -> (0 < nth v counts 0)%Z -> (1 <= nth v ws 0)%nat) ->
  (forall d, data = Some d -> length d = list_sum ws) ->
  length X = n -> (forall x, In x X -> legal_row ws counts x) ->
  prob_of (sample s n counts data) X =
  prodf X (fun x => arrangements ws counts x * (row_prob ws m (merge (evidence ws data) x) / row_prob ws m (evidence ws data))).
Proof.
  intros ws V M N m mst s n counts data X C MC E CL CB CW DL LX LR.
  destruct (build_server ws V M N m C mst MC) as (s' & edges & E' & SF & ST & SV & SE & SFe & _ & _ & EP). rewrite E in E'. inversion E'; subst s'.
  rewrite (sample_evidence ws V M edges s) by auto.
  destruct (sf_tree _ _ _ _ _ SF) as (ET & T). rewrite ET in EP. cbn [ts_grid] in EP.
  destruct (prog_shape V edges None (sv_prog s) T ltac:(discriminate) EP) as (r & par & dep & np & RT & BL & EQ).
  assert (EL : length (evidence ws data) = list_sum ws) by (destruct data; cbn [evidence]; [now apply DL|apply repeat_length]).
  rewrite (sample_law ws V M edges s SF r par dep RT np BL n counts (evidence ws data) CL EL (wide ws V counts CW) X CB EQ LX LR).
  apply prodf_ext. intros x _. now rewrite !(total_eq ws V M m edges s SF ST (proj1 (cm_M _ _ _ _ _ C)) SV SE SFe).
Qed.

Lemma merge_length x y k : length x = k -> length y = k -> length (merge x y) = k.
Proof. intros A B. unfold merge. rewrite map_length, combine_length. lia. Qed.

Lemma exp_ratio a b : 0 < a -> 0 < b -> exp (ln a - ln b) = a / b.
Proof. intros A B. unfold Rminus. rewrite exp_plus, exp_Ropp, !exp_ln by auto. reflexivity. Qed.

Lemma prodf_combine {A B} (g : A -> B) (f : A -> B -> R) l : prodf (combine l (map g l)) (fun '(a, b) => f a b) = prodf l (fun a => f a (g a)).
Proof. induction l; [reflexivity|]. cbn [map combine]. rewrite !prodf_cons. now rewrite IHl. Qed.

Lemma C29_any : forall ws V M N m mst s n counts data X, consistent ws V M N m -> mst_contract mst -> tree_server mst m = Ok s ->
  length counts = V -> (forall v, (v < V)%nat -> (0 <= nth v counts 0 <= 127)%Z) ->
  (forall v, (v < V)%nat -> (0 < nth v counts 0)%Z -> (1 <= nth v ws 0)%nat) ->
  length data = list_sum ws -> length X = n -> (forall x, In x X -> legal_row ws counts x) ->
  exists lps lp, logprob s (map (merge data) X) = Ok lps /\ logprob_row s data = Ok lp /\
    prob_of (sample s n counts (Some data)) X = prodf (combine X lps) (fun '(x, l) => arrangements ws counts x * exp (l - lp)).
Proof.
  intros ws V M N m mst s n counts data X C MC E CL CB CW DL LX LR.
  destruct (C26_data ws V M N m mst s (map (merge data) X) C MC E) as (EL & P).
  { intros row I. apply in_map_iff in I. destruct I as (x & <- & Hx). apply merge_length; auto. now apply LR. }
  destruct (C26_row ws V M N m mst s data C MC E DL) as (E1 & P1).
  do 2 eexists. split; [exact EL|]. split; [exact E1|]. rewrite map_map.
  rewrite (prodf_combine (fun x => ln (row_prob ws m (merge data x))) (fun x l => arrangements ws counts x * exp (l - ln (row_prob ws m data)))).
  rewrite (law ws V M N m mst s n counts (Some data) X C MC E CL CB CW) by (auto; intros d Ed; injection Ed as <-; auto).
  apply prodf_ext. intros x Hx. cbn [evidence]. rewrite exp_ratio; auto. apply P, in_map. auto.
Qed.

Lemma nth_rep {A} (a d : A) n v : (v < n)%nat -> nth v (repeat a n) d = a.
Proof. intros H. rewrite nth_indep with (d' := a) by (now rewrite repeat_length). apply nth_repeat. Qed.

Lemma arrangements_ones ws x : legal_row ws (repeat 1%Z (length ws)) x -> arrangements ws (repeat 1%Z (length ws)) x = 1.
Proof.
  intros (LX & NN & T). unfold arrangements. apply prodf_one. intros v Hv. apply in_seq in Hv. specialize (T v ltac:(lia)).
  rewrite nth_rep in * by lia. rewrite prodf_one.
  - change (INR (fact (Z.to_nat 1))) with 1. field.
  - intros q Hq. assert (0 <= nth q x 0 <= 1)%Z.
    { assert (P : forall q', (0 <= nth q' x 0)%Z).
      { intros q'. destruct (Nat.lt_ge_cases q' (length x)); [apply NN, nth_In; auto|rewrite nth_overflow by auto; lia]. }
      split; [apply P|]. rewrite <- T. clear T. revert Hq. generalize (block ws v). induction l; intros I; [destruct I|]. rewrite total_cons.
      assert (0 <= total l (fun q0 => nth q0 x 0))%Z by (clear - P; induction l; [unfold total; cbn; lia|rewrite total_cons; specialize (P a); lia]).
      destruct I as [->|I]; [lia|]. specialize (IHl I). specialize (P a). lia. }
    destruct (Z.eq_dec (nth q x 0%Z) 0) as [->|NZ]; [reflexivity|]. replace (nth q x 0%Z) with 1%Z by lia. reflexivity.
Qed.

Lemma C29_one : forall ws V M N m mst s data x, consistent ws V M N m -> mst_contract mst -> tree_server mst m = Ok s ->
  (forall w, In w ws -> (1 <= w)%nat) -> length data = list_sum ws -> legal_row ws (repeat 1%Z V) x ->
  exists lp le, logprob s [merge data x; data] = Ok [lp; le] /\
    prob_of (sample s 1 (repeat 1%Z V) (Some data)) [x] = exp (lp - le).
Proof.
  intros ws V M N m mst s data x C MC E WP DL LR. pose proof (cm_width _ _ _ _ _ C) as LW.
  destruct (C29_any ws V M N m mst s 1%nat (repeat 1%Z V) data [x] C MC E) as (lps & lp & E1 & E2 & E3); auto.
  - apply repeat_length.
  - intros. rewrite nth_rep by auto. lia.
  - intros v Hv _. apply WP, nth_In. lia.
  - intros y [<-|[]]. auto.
  - cbn [map] in E1. unfold logprob in E1. cbn [mapM] in E1.
    destruct (logprob_row s (merge data x)) as [l|] eqn:EX; [|discriminate]. cbn [bind] in E1. injection E1 as <-.
    exists l, lp. split; [unfold logprob; cbn [mapM]; rewrite EX, E2; reflexivity|]. rewrite E3.
    cbn [combine]. rewrite prodf_cons. change (prodf [] _) with 1. rewrite <- LW in LR |- *. rewrite arrangements_ones by auto. ring.
Qed.

Lemma merge_empty x n : length x = n -> merge (repeat 0%Z n) x = x.
Proof. revert n. induction x; destruct n; intros L; try discriminate; [reflexivity|]. cbn. f_equal. injection L as L. apply (IHx n L). Qed.

Lemma C29_free : forall ws V M N m mst s x, consistent ws V M N m -> mst_contract mst -> tree_server mst m = Ok s ->
  (forall w, In w ws -> (1 <= w)%nat) -> legal_row ws (repeat 1%Z V) x ->
  exists lp, logprob_row s x = Ok lp /\ prob_of (sample s 1 (repeat 1%Z V) None) [x] = exp lp.
Proof.
  intros ws V M N m mst s x C MC E WP LR.
  destruct (C29_one ws V M N m mst s (repeat 0%Z (list_sum ws)) x C MC E WP (repeat_length _ _) LR) as (lp & le & E1 & E2).
  unfold logprob in E1. cbn [mapM] in E1. rewrite merge_empty in E1 by apply LR. rewrite (C27_empty ws V M N m mst s C MC E) in E1.
  destruct (logprob_row s x) as [l|]; [|discriminate]. cbn [bind] in E1. injection E1 as <- <-. exists l. split; [reflexivity|].
  destruct (build_server ws V M N m C mst MC) as (s' & edges & E' & SF & _). rewrite E in E'. inversion E'; subst s'.
  rewrite (sample_evidence ws V M edges s) by auto. cbn [evidence]. rewrite E2. f_equal. ring.
Qed.
