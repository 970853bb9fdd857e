(** plot_circular for a served dataset. *)
From Coq Require Import String.
From Coq Require Import List Arith Lia Bool ZArith Reals Lra Permutation.
From Verif Require Import Base Spec_Graph Spec_MST Spec_Trees M_Structure M_Rand M_Util M_Training M_Serving M_EnsembleServer M_Format M_DataServer M_EstimateTree Spec_Ragged Spec_Schema Spec_Sum Spec_Serving Spec_DataServer.
From Verif Require Import M_Plot Spec_Plot L_Base L_Pairing L_Estimate L_Rand L_AllTrees L_Server L_Summary L_Observed L_EnsServe L_EnsServe2 L_DataServer2 L_DataServer3 L_Plot2 L_Plot3.
Import ListNotations.
Open Scope list_scope.
Open Scope R_scope.

(** ** Sampled trees are canonical *)
Lemma canonical_samples V grid logits : make_complete_graph V = Ok grid -> length logits = length grid -> forall n edges, canonical_tree V edges ->
  always (fun l => length l = n /\ forall T, In T l -> canonical_tree V T) (tree_samples grid logits edges n).
Proof.
  intros G L. induction n; intros edges T; cbn [tree_samples].
  - cbn. tauto.
  - apply always_bind. eapply always_mono; [|apply (C05_proof V grid (map Some logits) edges G (proj1 T)); now rewrite map_length].
    intros T1 (S1 & S2 & S3). assert (CT : canonical_tree V T1).
    { destruct (le_lt_dec (length edges) 1) as [LE|LE]; [now rewrite S3|]. destruct S2 as (A & B); [lia|]. split; auto. }
    apply always_bind. eapply always_mono; [|apply IHn; exact CT]. intros l (Ll & Hl). cbn [always]. cbn [length]. split; [lia|]. intros T2 [<-|I]; auto.
Qed.

Lemma canonical_server : forall ws V M N m mst s n, consistent ws V M N m -> mst_contract mst -> tree_server mst m = Ok s ->
  canonical_tree V (sv_est s) /\ always (fun l => length l = n /\ forall T, In T l -> canonical_tree V T) (server_sample_tree s n).
Proof.
  intros ws V M N m mst s n C MC E.
  destruct (build_server ws V M N m C mst MC) as (s' & edges & E' & SF & _ & _ & _ & _ & SL & (T & ET & CT & _) & _). rewrite E in E'. injection E' as <-.
  split; [now rewrite ET|].
  unfold server_sample_tree. replace (sv_V s) with V by (unfold sv_V; now rewrite (proj1 (sf_tree _ _ _ _ _ SF))). rewrite make_complete_graph_Ok. cbn [lift rbind]. apply canonical_samples.
  - apply make_complete_graph_Ok.
  - rewrite SL, (cm_logits _ _ _ _ _ C), complete_grid_length, <- tri2, Nat.mul_comm. apply Nat.div_mul. lia.
  - now rewrite ET.
Qed.

Lemma canonical_ensemble : forall ws V M N mst ms es n, ms <> [] -> (forall m, In m ms -> consistent ws V M N m) ->
  mst_contract mst -> ensemble_server mst ms = Ok es ->
  canonical_tree V (es_est es) /\ always (fun l => length l = n /\ forall T, In T l -> canonical_tree V T) (ens_sample_tree es n).
Proof.
  intros ws V M N mst ms es n NE C MC E. assert (O : ens_ok ws V M N ms) by (split; auto). split.
  - destruct (ens_build ws V M N mst ms O MC) as (es' & E' & _ & _ & CT & _). rewrite E in E'. now injection E' as <-.
  - unfold ens_sample_tree, split_samples.
    apply (mixture_always [] server_sample_tree); [apply (members_nonempty ws V M N mst ms es O MC E)|].
    intros s k I. destruct (members_in ws V M N mst ms es s O MC E I) as (m & _ & Cm & Es). apply (canonical_server ws V M N m mst s k); auto.
Qed.

Lemma C69_proof : forall sc data ms d iter n contract, served sc data ms d -> (forall v s, NoDup s -> Permutation (iter v s) s) ->
  (contract = 0 \/ (2 <= length (sc_names sc))%nat) ->
  exists dens obs lat slots at_ place draw,
    feature_density d = Ok (map Some dens) /\ data_observed_perplexity d = Ok obs /\ data_latent_perplexity d = Ok lat /\
    arranged slots at_ /\
    (exists c, center (length (sc_names sc)) (data_estimate_tree d) c /\ forall e rest, Permutation (data_estimate_tree d) (e :: rest) ->
      exists o1 o2 o3, slots = o1 ++ o2 ++ o3 /\ forall u, (u < length (sc_names sc))%nat -> (In u o2 <-> ~ reach rest c u)) /\
    (forall v, (v < length (sc_names sc))%nat -> place v = pulled (contract * (2 * sin (PI / INR (length (sc_names sc))))) at_ (data_estimate_tree d) v) /\
    (Rabs contract < 1 / 4 -> forall u v, (u < length (sc_names sc))%nat -> (v < length (sc_names sc))%nat -> u <> v -> place u <> place v) /\
    plot_circular iter d n contract = rbind (data_sample_tree d n) (fun samples => lift (draw samples)) /\
    (forall samples, length samples = n -> (forall T, In T samples -> canonical_tree (length (sc_names sc)) T) ->
       exists fig, draw samples = Ok fig /\ shows (sc_names sc) dens obs lat (data_estimate_tree d) samples slots place fig) /\
    always (fun samples => length samples = n /\ forall T, In T samples -> canonical_tree (length (sc_names sc)) T) (data_sample_tree d n).
Proof.
  intros sc data ms d iter n contract SD IT HC. set (V := length (sc_names sc)) in *.
  destruct (C40_served sc data ms d SD) as (dens & ED & LD & _).
  assert (MN : ms <> []) by apply (sd_models _ _ _ _ SD).
  destruct (served_full _ _ _ _ SD) as [SO NE DN DG WP (M & N & mst & counts & srv & MC & MST & DD & CG & SG)].
  assert (FACTS : exists obs lat, data_observed_perplexity d = Ok obs /\ length obs = V /\ data_latent_perplexity d = Ok lat /\ length lat = V /\
     canonical_tree V (data_estimate_tree d) /\ always (fun l => length l = n /\ forall T, In T l -> canonical_tree V T) (data_sample_tree d n)).
  { subst d. unfold data_observed_perplexity, data_latent_perplexity, data_estimate_tree, data_sample_tree. cbn [dv_server dv_counts].
    destruct SG as [(m & s & E1 & -> & TS)|(es & E1 & -> & ES)].
    - assert (Cm : consistent (widths sc) V M N m) by (apply MC; rewrite E1; now left).
      destruct (C32_value (widths sc) V M N m mst s counts Cm MST TS WP) as (obs & EO & LO & _).
      destruct (C33_proof (widths sc) V M N m mst s Cm MST TS) as (LL & _).
      destruct (canonical_server (widths sc) V M N m mst s n Cm MST TS) as (A & B).
      exists obs, (latent_perplexity s). repeat (split; [first [assumption|reflexivity]|]). exact B.
    - destruct (C32_ens (widths sc) V M N mst ms es counts MN MC MST ES WP) as (obs & EO & LO & _).
      destruct (C33_ens (widths sc) V M N mst ms es MN MC MST ES) as (lat & EL & LL & _).
      destruct (canonical_ensemble (widths sc) V M N mst ms es n MN MC MST ES) as (A & B).
      exists obs, lat. repeat (split; [assumption|]). exact B. }
  destruct FACTS as (obs & lat & EO & LO & EL & LL & CT & AL).
  destruct (base_Ok V (data_estimate_tree d) iter contract (sc_names sc) dens obs lat (proj1 CT) IT eq_refl LD LO LL HC)
    as (order & slots & XY & fig & at_ & place & EB & Lo & LX & OB & PL & AR & BT & PU & DI & _ & SH).
  exists dens, obs, lat, slots, at_, place, (fun samples => circular_samples (map Some order) XY fig n samples).
  split; [exact ED|]. split; [exact EO|]. split; [exact EL|]. split; [exact AR|]. split; [exact BT|]. split; [exact PU|]. split; [exact DI|]. split.
  { unfold plot_circular. rewrite ED, EO, EL. cbn [bind]. replace (data_feature_names d) with (sc_names sc) by now subst d. rewrite EB. reflexivity. }
  split; [|exact AL]. intros samples Ls CS.
  rewrite <- Ls. eapply samples_Ok with (order := order); eauto. exact (proj1 CT).
Qed.

Lemma C69_always : forall sc data ms d iter n contract, served sc data ms d -> (forall v s, NoDup s -> Permutation (iter v s) s) ->
  (contract = 0 \/ (2 <= length (sc_names sc))%nat) -> always (fun _ => True) (plot_circular iter d n contract).
Proof.
  intros sc data ms d iter n contract SD IT HC. destruct (C69_proof sc data ms d iter n contract SD IT HC) as (dens & obs & lat & slots & at_ & place & draw & _ & _ & _ & _ & _ & _ & _ & E & DR & AL).
  rewrite E. apply always_bind. eapply always_mono; [|exact AL]. intros samples (L & C). destruct (DR samples L C) as (fig & -> & _). exact Logic.I.
Qed.

(** One feature. *)
Lemma C69_one : forall sc data ms d iter n contract, served sc data ms d -> (forall v s, NoDup s -> Permutation (iter v s) s) ->
  length (sc_names sc) = 1%nat -> contract <> 0 -> plot_circular iter d n contract = Fail AssertionError.
Proof.
  intros sc data ms d iter n contract SD IT V1 NC.
  destruct (C69_proof sc data ms d iter n 0 SD IT (or_introl eq_refl)) as (dens & obs & lat & slots & at_ & place & draw & ED & EO & EL & _).
  unfold plot_circular. rewrite ED, EO, EL. cbn [bind].
  assert (MN : ms <> []) by apply (sd_models _ _ _ _ SD).
  assert (FN : data_feature_names d = sc_names sc) by (destruct (served_full _ _ _ _ SD) as [_ _ _ _ _ (M & N & mst & counts & srv & _ & _ & -> & _)]; reflexivity).
  assert (CT : data_estimate_tree d = []).
  { destruct (served_full _ _ _ _ SD) as [_ _ _ _ _ (M & N & mst & counts & srv & MC & MST & -> & _ & SG)]. unfold data_estimate_tree. cbn [dv_server]. rewrite V1 in MC.
    destruct SG as [(m & s & E1 & -> & TS)|(es & E1 & -> & ES)].
    - destruct (canonical_server (widths sc) 1 M N m mst s 0) as (((L & _) & _) & _); auto; [apply MC; rewrite E1; now left|]. destruct (sv_est s); [reflexivity|discriminate].
    - destruct (canonical_ensemble (widths sc) 1 M N mst ms es 0) as (((L & _) & _) & _); auto. destruct (es_est es); [reflexivity|discriminate]. }
  destruct (C40_served sc data ms d SD) as (dens' & ED' & LD' & _). rewrite ED in ED'. injection ED' as ED'.
  assert (LD : length dens = 1%nat) by (rewrite <- (map_length (@Some R)), ED', map_length; congruence).
  assert (LOL : length obs = 1%nat /\ length lat = 1%nat).
  { destruct (served_full _ _ _ _ SD) as [_ _ _ _ WP (M & N & mst & counts & srv & MC & MST & -> & _ & SG)]. unfold data_observed_perplexity, data_latent_perplexity in *. cbn [dv_server dv_counts] in *. rewrite V1 in MC.
    destruct SG as [(m & s & E1 & -> & TS)|(es & E1 & -> & ES)].
    - assert (Cm : consistent (widths sc) 1 M N m) by (apply MC; rewrite E1; now left).
      destruct (C32_value (widths sc) 1 M N m mst s counts Cm MST TS WP) as (obs' & EO' & LO & _).
      destruct (C33_proof (widths sc) 1 M N m mst s Cm MST TS) as (LL & _). split; congruence.
    - destruct (C32_ens (widths sc) 1 M N mst ms es counts MN MC MST ES WP) as (obs' & EO' & LO & _).
      destruct (C33_ens (widths sc) 1 M N mst ms es MN MC MST ES) as (lat' & EL' & LL & _). split; congruence. }
  destruct LOL as (LO & LL). rewrite CT, FN. unfold circular_base.
  assert (EV : order_vertices iter [] = Ok ([Some 0%nat], [0%nat])).
  { destruct (L_Order.C11_proof 1 [] iter) as (order & slots' & c & E & P1 & P2 & _); [split; [reflexivity|]; split; [intros ? ? []|]; intros u v Hu Hv; assert (u = v) as -> by lia; apply L_Graph.reach_refl|exact IT|].
    apply Permutation_sym, Permutation_length_1_inv in P1. apply Permutation_sym, Permutation_length_1_inv in P2. now subst. }
  rewrite EV. cbn [bind mapM].
  destruct (sc_names sc) as [|nm [|]]; try discriminate. destruct dens as [|x [|]]; try discriminate. destruct obs as [|y [|]]; try discriminate. destruct lat as [|z [|]]; try discriminate.
  cbn [index_get mapM get nth_error bind map length seq]. destruct (Req_EM_T contract 0) as [|_]; [tauto|]. reflexivity.
Qed.

(** ** contract_positions *)
Lemma contract_forces : exists XY', contract_positions [(0, 0); (1, 0); (0, 1)] [(0, 1); (0, 2)]%nat (1 / 4) = Ok XY' /\ nth 0 XY' (0, 0) = (0, 1 / 4).
Proof.
  assert (A1 : apart (0, 0) (1, 0) = 1) by (unfold apart; cbn [fst snd]; replace (_ + _) with 1 by ring; apply sqrt_1).
  assert (A2 : apart (0, 0) (0, 1) = 1) by (unfold apart; cbn [fst snd]; replace (_ + _) with 1 by ring; apply sqrt_1).
  destruct (contract_Ok [(0, 0); (1, 0); (0, 1)] [(0, 1); (0, 2)]%nat (1 / 4)) as (XY' & len & E & _ & SH & N).
  - discriminate.
  - reflexivity.
  - intros a b [Q|[Q|[]]]; injection Q as <- <-; cbn [nth length]; rewrite ?A1, ?A2; repeat split; try lia; lra.
  - exists XY'. split; [exact E|]. rewrite N by (cbn; lia). unfold pulled, last_with. cbn [rev app find Nat.eqb fst snd nth].
    assert (L : len = 1) by (destruct SH as ((a & b & [Q|[Q|[]]] & ->) & _); injection Q as <- <-; cbn [nth]; auto).
    unfold toward. rewrite A2, L. cbn [fst snd]. f_equal; field.
Qed.
