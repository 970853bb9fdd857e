(** Proofs of C30. *)
From Coq Require Import List Arith Lia Bool ZArith Reals Lra.
From Verif Require Import Base L_Base Spec_Graph L_Graph Spec_Sum L_Sum M_Structure L_MakeTree L_Program Spec_Program L_Center M_Rand L_Rand M_Util Spec_Ragged L_Ragged M_Array M_SampleTree M_EstimateTree Spec_Trees Spec_MST M_Training Spec_Stats L_Stats Spec_Joint Spec_Conditional L_BP L_BPVec L_AddRow L_EdgeLogits L_Train M_Serving Spec_Serving L_Server L_Inward L_Logprob L_Path L_Marginals L_MargPost L_Asg L_Serve1.
Import ListNotations.
Open Scope R_scope.

Lemma restricted_ext ws keep keep' row row' : (forall u, (u < length ws)%nat -> (keep u <-> keep' u)) ->
  restricted ws keep row row' -> restricted ws keep' row row'.
Proof.
  intros E (L & H). split; auto. intros u q Hu Hq. destruct (H u q Hu Hq) as (A & B). specialize (E u Hu). tauto.
Qed.

Lemma C30_row : forall ws V M N m mst s junk row, consistent ws V M N m -> mst_contract mst -> tree_server mst m = Ok s ->
  length row = list_sum ws ->
  exists root, find_center_of_tree (ts_grid (d_tree m)) = Ok root /\ (root < V)%nat /\
  exists marg, marginals_row s junk row = Ok marg /\ length marg = list_sum ws /\
    forall v row', (v < V)%nat -> restricted ws (fun u => in_line (ts_get_edges (d_tree m)) root u v) row row' ->
      forall q, In q (block ws v) -> nth q marg 0 = predictive ws m row' v q.
Proof.
  intros ws V M N m mst s junk row C MC E RL.
  destruct (build_server ws V M N m C mst MC) as (s' & edges & E' & SF & ST & SV & SE & SFe & _ & _ & EP). rewrite E in E'. inversion E'; subst s'.
  destruct (sf_tree _ _ _ _ _ SF) as (ET & T). rewrite ET in EP. cbn [ts_grid] in EP. rewrite <- ST, ET. cbn [ts_grid].
  destruct (find_center_Ok V edges T) as (r & EC & CC). exists r. split; [exact EC|]. assert (Hr : (r < V)%nat) by apply CC. split; [exact Hr|].
  unfold make_propagation_program in EP. rewrite EC in EP. cbn [bind] in EP.
  destruct (tree_rooted V _ r (make_tree_spanning _ _ T) Hr) as (par & dep & RT).
  destruct (make_program_rooted_Ok _ _ _ _ _ RT) as (np & E2 & BL). rewrite E2 in EP. injection EP as EP.
  destruct (marginals_value ws V M edges s SF r par dep RT np BL m (proj1 (cm_M _ _ _ _ _ C)) row junk RL (eq_sym EP)) as (marg & E3 & L3 & H3).
  exists marg. split; [exact E3|]. split; [exact L3|]. intros v row' Hv RS q Hq. rewrite (H3 v q Hv Hq).
  pose proof (proj1 (cm_M _ _ _ _ _ C)) as SM.
  change (ts_get_edges (TS V (make_tree edges))) with (grid_edges (make_tree edges)) in RS.
  apply restricted_ext with (keep' := fun u => anc r par u v \/ anc r par v u) in RS.
  - assert (MV : forall q, In q (block ws v) -> mval ws M edges s par dep row (tab V r par M (opair edges par (sv_trans s)) (node ws s row)) v q = row_prob ws m (bump row' q)).
    { intros q' Hq'. rewrite (mval_total ws V M edges s SF r par dep RT np BL m SM row row' v RL Hv RS q' Hq').
      apply (total_eq ws V M m edges s SF ST SM SV SE SFe). }
    unfold predictive. rewrite MV by auto. f_equal. apply sumf_ext. auto.
  - intros u Hu. rewrite (cm_width _ _ _ _ _ C) in Hu. unfold in_line.
    rewrite (above_anc V _ r par dep RT u v Hu Hv), (above_anc V _ r par dep RT v u Hv Hu). tauto.
Qed.

Lemma mapM_nth {A B} (f : A -> result B) (l : list A) (P : A -> B -> Prop) da db :
  (forall x, In x l -> exists y, f x = Ok y /\ P x y) ->
  exists ys, mapM f l = Ok ys /\ length ys = length l /\ forall n, (n < length l)%nat -> P (nth n l da) (nth n ys db).
Proof.
  induction l as [|x l IH]; intros H.
  - exists []. split; [reflexivity|]. split; [reflexivity|]. intros n Hn. simpl in Hn. lia.
  - destruct (H x (or_introl eq_refl)) as (y & Ey & Py). destruct IH as (ys & E & L & HP); [intros; apply H; now right|].
    exists (y :: ys). cbn [mapM]. rewrite Ey. cbn [bind]. rewrite E. cbn [bind]. split; [reflexivity|]. split; [simpl; lia|].
    intros [|n] Hn; [exact Py|]. apply HP. simpl in Hn. lia.
Qed.

Lemma C30_data : forall ws V M N m mst s junk data, consistent ws V M N m -> mst_contract mst -> tree_server mst m = Ok s ->
  (forall row, In row data -> length row = list_sum ws) ->
  exists root, find_center_of_tree (ts_grid (d_tree m)) = Ok root /\ (root < V)%nat /\
  exists margs, marginals s junk data = Ok margs /\ length margs = length data /\
    forall n, (n < length data)%nat -> length (nth n margs []) = list_sum ws /\
      forall v row', (v < V)%nat -> restricted ws (fun u => in_line (ts_get_edges (d_tree m)) root u v) (nth n data []) row' ->
        forall q, In q (block ws v) -> nth q (nth n margs []) 0 = predictive ws m row' v q.
Proof.
  intros ws V M N m mst s junk data C MC E RL.
  destruct (C30_row ws V M N m mst s (fun _ _ => 0) (repeat 0%Z (list_sum ws)) C MC E (repeat_length _ _)) as (root & ER & HR & _).
  exists root. split; [exact ER|]. split; [exact HR|]. unfold marginals.
  set (P := fun (x : nat * list Z) (marg : list R) => length marg = list_sum ws /\
      forall v row', (v < V)%nat -> restricted ws (fun u => in_line (ts_get_edges (d_tree m)) root u v) (snd x) row' ->
        forall q, In q (block ws v) -> nth q marg 0 = predictive ws m row' v q).
  destruct (mapM_nth (fun '(n, row) => marginals_row s (junk n) row) (combine (seq 0 (length data)) data) P (0%nat, []) []) as (ms & E1 & L1 & H1).
  - intros [n row] I. apply in_combine_r in I.
    destruct (C30_row ws V M N m mst s (junk n) row C MC E (RL row I)) as (root' & ER' & _ & marg & E2 & L2 & H2).
    rewrite ER in ER'. injection ER' as <-. exists marg. split; [exact E2|]. split; auto.
  - rewrite combine_length, seq_length, Nat.min_id in *. exists ms. split; [exact E1|]. split; [exact L1|].
    intros n Hn. specialize (H1 n Hn). unfold P in H1. rewrite combine_nth in H1 by (now rewrite seq_length). exact H1.
Qed.

Lemma restricted_self ws keep row : length row = list_sum ws ->
  (forall u q, (u < length ws)%nat -> In q (block ws u) -> ~ keep u -> nth q row 0%Z = 0%Z) -> restricted ws keep row row.
Proof. intros L H. split; [exact L|]. intros u q Hu Hq. split; [reflexivity|]. now apply (H u q). Qed.

Lemma C30_exact : forall ws V M N m mst s junk row, consistent ws V M N m -> mst_contract mst -> tree_server mst m = Ok s ->
  length row = list_sum ws ->
  exists root, find_center_of_tree (ts_grid (d_tree m)) = Ok root /\ (root < V)%nat /\
  exists marg, marginals_row s junk row = Ok marg /\
    forall v, (v < V)%nat ->
      (forall u q, (u < V)%nat -> In q (block ws u) -> nth q row 0%Z <> 0%Z -> in_line (ts_get_edges (d_tree m)) root u v) ->
      forall q, In q (block ws v) -> nth q marg 0 = predictive ws m row v q.
Proof.
  intros ws V M N m mst s junk row C MC E RL.
  destruct (C30_row ws V M N m mst s junk row C MC E RL) as (root & ER & HR & marg & E2 & L2 & H2).
  exists root. split; auto. split; auto. exists marg. split; auto. intros v Hv K q Hq. apply H2; auto.
  apply restricted_self; auto. intros u p Hu Hp NK. destruct (Z.eq_dec (nth p row 0%Z) 0) as [|NZ]; auto. exfalso. apply NK.
  rewrite (cm_width _ _ _ _ _ C) in Hu. eapply K; eauto.
Qed.

Lemma dist_self es v : dist es v v 0%nat.
Proof. split; [constructor|]. intros. lia. Qed.

Lemma C30_root : forall ws V M N m mst s junk row, consistent ws V M N m -> mst_contract mst -> tree_server mst m = Ok s ->
  length row = list_sum ws ->
  exists root, find_center_of_tree (ts_grid (d_tree m)) = Ok root /\ (root < V)%nat /\
  exists marg, marginals_row s junk row = Ok marg /\
    forall q, In q (block ws root) -> nth q marg 0 = predictive ws m row root q.
Proof.
  intros ws V M N m mst s junk row C MC E RL.
  destruct (C30_exact ws V M N m mst s junk row C MC E RL) as (root & ER & HR & marg & E2 & H2).
  exists root. split; auto. split; auto. exists marg. split; auto. intros q Hq. apply H2; auto.
  intros u p Hu _ _. right.
  destruct (build_server ws V M N m C mst MC) as (s' & edges & E' & SF & ST & _). rewrite E in E'. inversion E'; subst s'.
  destruct (sf_tree _ _ _ _ _ SF) as (ET & T). rewrite <- ST, ET.
  destruct (tree_rooted V _ root (make_tree_spanning _ _ T) HR) as (par & dep & RT).
  exists 0%nat, (dep u). split; [apply dist_self|]. split; apply (rt_dist _ _ _ _ _ RT); auto.
Qed.

(** ** A model in which the marginals miss evidence: the path 0 - 1 - 2, two
    classes, two categories, two rows, everything equal to the row number. *)
Definition chain_model : smodel :=
  SModel (TS 3 (make_tree [(0, 1); (1, 2)]%nat)) [0; 2; 4; 6]%nat
    (fun v c => 1)%Z
    (fun e c1 c2 => if (c1 =? c2)%nat then 1 else 0)%Z
    (fun q c => if (q mod 2 =? c)%nat then 1 else 0)%Z
    2 [0; 0; 0]%R.

Lemma chain_consistent : consistent [2; 2; 2]%nat 3 2 2 chain_model.
Proof.
  assert (LE : forall v n, (v < n)%nat -> In v (seq 0 n)) by (intros; apply in_seq; lia).
  constructor; cbn [chain_model d_ri d_M d_tree d_vert d_edge d_feat d_logits]; auto.
  - split; [reflexivity|lia].
  - exists [(0, 1); (1, 2)]%nat. split; [|reflexivity]. exact (path_spanning 3 ltac:(lia)).
  - intros e v1 v2 c He Hc. apply LE in Hc. cbn [seq In] in Hc. destruct Hc as [<-|[<-|[]]]; split; reflexivity.
  - intros. lia.
  - intros. destruct (c1 =? c2)%nat; lia.
  - intros. destruct (q mod 2 =? c)%nat; lia.
Qed.

Lemma chain_vert v c : vert_prob chain_model v c = 1 / 2.
Proof. unfold vert_prob, chain_model, d_vert, d_M. unfold sumf. cbn [seq fold_right]. field. Qed.
Lemma chain_edge e c1 c2 : (c1 < 2)%nat -> (c2 < 2)%nat -> edge_prob chain_model e c1 c2 = if (c1 =? c2)%nat then 5 / 12 else 1 / 12.
Proof.
  intros H1 H2. unfold edge_prob, chain_model, d_edge, d_M. unfold sumf. cbn [seq fold_right Nat.eqb INR].
  destruct c1 as [|[|]], c2 as [|[|]]; try lia; cbn [Nat.eqb]; field.
Qed.
Lemma chain_feat v q c : (v < 3)%nat -> In q (block [2; 2; 2]%nat v) -> (c < 2)%nat ->
  feat_prob [2; 2; 2]%nat chain_model v q c = if (q mod 2 =? c)%nat then 5 / 6 else 1 / 6.
Proof.
  intros Hv Hq Hc. unfold feat_prob, chain_model, d_feat, d_M. unfold sumf.
  destruct v as [|[|[|]]]; try lia; cbn [block firstn list_sum fold_right nth Nat.add seq In] in Hq; destruct Hq as [<-|[<-|[]]]; destruct c as [|[|]]; try lia;
    cbn -[Rmult Rplus Rinv Rdiv IZR INR]; change (INR 2) with (1 + 1); field.
Qed.

Lemma chain_row row : row_prob [2; 2; 2]%nat chain_model row =
  sumf (vectors 3 2) (fun z =>
    prodf (seq 0 3) (fun v => 1 / 2) * prodf (seq 0 2) (fun e => (if (nth e z 0 =? nth (S e) z 0)%nat then 5 / 3 else 1 / 3)) *
    prodf (seq 0 6) (fun q => powerRZ (if (q mod 2 =? nth (q / 2) z 0)%nat then 5 / 6 else 1 / 6) (nth q row 0%Z))).
Proof.
  unfold row_prob. change (ts_V (d_tree chain_model)) with 3%nat. change (d_M chain_model) with 2%nat. apply sumf_ext. intros z Hz.
  apply in_vectors in Hz. destruct Hz as (Lz & Bz). destruct z as [|a [|b [|c [|]]]]; try discriminate Lz.
  assert (Ha : (a < 2)%nat) by (apply Bz; cbn; auto). assert (Hb : (b < 2)%nat) by (apply Bz; cbn; auto). assert (Hc : (c < 2)%nat) by (apply Bz; cbn; auto).
  unfold latent_prob, tree_weight, row_given. change (ts_V (d_tree chain_model)) with 3%nat.
  change (ts_get_edges (d_tree chain_model)) with [(0, 1); (1, 2)]%nat.
  unfold prodf. cbn [seq fold_right map nth length combine block firstn list_sum Nat.add].
  rewrite !chain_vert, !chain_edge, !chain_feat by (auto; try lia; cbn; auto).
  cbn [Nat.modulo Nat.divmod Nat.div fst snd Nat.sub nth]. 
  destruct a as [|[|]], b as [|[|]], c as [|[|]]; try lia; cbn [Nat.eqb]; field.
Qed.

Ltac chain_calc := rewrite !chain_row; unfold sumf, prodf;
  cbn [seq fold_right map nth vectors flat_map app Nat.modulo Nat.divmod Nat.div fst snd Nat.sub Nat.eqb powerRZ Pos.to_nat Pos.iter_op Nat.add pow bump length Z.add];
  change (Pos.to_nat 1) with 1%nat; cbn [pow].

Lemma chain_free q : (q < 2)%nat -> row_prob [2; 2; 2]%nat chain_model (bump [0; 0; 0; 0; 0; 0]%Z q) = 1 / 2.
Proof. intros Hq. destruct q as [|[|]]; [| |lia]; chain_calc; field. Qed.

Lemma chain_seen : row_prob [2; 2; 2]%nat chain_model (bump [0; 0; 0; 0; 1; 0]%Z 0) = 97 / 324 /\
  row_prob [2; 2; 2]%nat chain_model (bump [0; 0; 0; 0; 1; 0]%Z 1) = 65 / 324.
Proof. split; chain_calc; field. Qed.

Lemma chain_side : ~ in_line [(0, 1); (1, 2)]%nat 1 2 0.
Proof.
  intros [(i & j & D1 & D2 & D3)|(i & j & D1 & D2 & D3)].
  - assert (W : walk [(0, 1); (1, 2)]%nat 1 0 1) by (eapply walk_cons; [|constructor]; unfold adj; cbn; auto).
    assert (B : (i + j <= 1)%nat) by (apply (proj2 D3); exact W).
    assert (i <> 0)%nat by (intros ->; destruct D1 as (W1 & _); inversion W1; discriminate).
    assert (j = 0)%nat as -> by lia. destruct D2 as (W2 & _). inversion W2; discriminate.
  - assert (W : walk [(0, 1); (1, 2)]%nat 1 2 1) by (eapply walk_cons; [|constructor]; unfold adj; cbn; auto).
    assert (B : (i + j <= 1)%nat) by (apply (proj2 D3); exact W).
    assert (i <> 0)%nat by (intros ->; destruct D1 as (W1 & _); inversion W1; discriminate).
    assert (j = 0)%nat as -> by lia. destruct D2 as (W2 & _). inversion W2; discriminate.
Qed.

Lemma C30_refutation : exists ws V M N m row v q,
  consistent ws V M N m /\ length row = list_sum ws /\ Forall (fun c => (0 <= c)%Z) row /\ (v < V)%nat /\ In q (block ws v) /\
  forall mst, mst_contract mst -> exists s, tree_server mst m = Ok s /\
  forall junk, exists marg, marginals_row s junk row = Ok marg /\ nth q marg 0 <> predictive ws m row v q.
Proof.
  exists [2; 2; 2]%nat, 3%nat, 2%nat, 2%nat, chain_model, [0; 0; 0; 0; 1; 0]%Z, 0%nat, 0%nat.
  split; [exact chain_consistent|]. split; [reflexivity|]. split; [repeat constructor; lia|]. split; [lia|]. split; [cbn; auto|].
  intros mst MC. destruct (build_server _ _ _ _ _ chain_consistent mst MC) as (s & edges & E & _). exists s. split; [exact E|].
  intros junk. destruct (C30_row _ _ _ _ _ _ _ junk [0; 0; 0; 0; 1; 0]%Z chain_consistent MC E eq_refl) as (root & ER & HR & marg & E2 & L2 & H2).
  assert (root = 1)%nat as -> by (vm_compute in ER; congruence). exists marg. split; [exact E2|].
  rewrite (H2 0%nat [0; 0; 0; 0; 0; 0]%Z); [| lia | | cbn; auto].
  - unfold predictive. change (block [2; 2; 2]%nat 0) with [0; 1]%nat. unfold sumf. cbn [fold_right].
    rewrite !chain_free by lia. destruct chain_seen as (-> & ->). lra.
  - split; [reflexivity|]. intros u p Hu Hp. change (ts_get_edges (d_tree chain_model)) with [(0, 1); (1, 2)]%nat.
    assert (Z0 : nth p [0; 0; 0; 0; 0; 0]%Z 0%Z = 0%Z) by (do 6 (destruct p as [|p]; [reflexivity|]); destruct p; reflexivity).
    rewrite Z0. split; [|reflexivity]. intros K. destruct u as [|[|[|]]]; cbn in Hu; try lia.
    + cbn in Hp. destruct Hp as [<-|[<-|[]]]; reflexivity.
    + cbn in Hp. destruct Hp as [<-|[<-|[]]]; reflexivity.
    + now apply chain_side in K.
Qed.
