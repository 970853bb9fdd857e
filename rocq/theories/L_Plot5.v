(** plot_feature_overlap, nx_plot_tree and add_panning_to_svg. *)
From Coq Require Import String Ascii.
From Coq Require Import List Arith Lia Bool ZArith Reals Lra Permutation.
From Verif Require Import Base Spec_Graph Spec_MST Spec_Trees M_Structure M_Rand M_Util M_Training M_Serving M_EnsembleServer M_Format M_DataServer M_EstimateTree Spec_Ragged Spec_Schema Spec_Sum Spec_Serving Spec_DataServer.
From Verif Require Import M_Plot M_Plot2 Spec_Plot Spec_Svg L_Base L_Sum L_Pairing L_Estimate L_Order L_Server L_Summary L_Observed L_EnsServe L_EnsServe2 L_DataServer2 L_DataServer3 L_Plot2 L_Plot3 L_Plot4.
Import ListNotations.
Open Scope list_scope.
Open Scope R_scope.

(** ** Overlaps *)
Lemma overlap_both rows u v : overlap_count rows u v = length (filter (both u v) rows).
Proof.
  unfold overlap_count. induction rows as [|r rows IH]; [reflexivity|]. cbn [map list_sum fold_right filter]. change (fold_right Nat.add 0%nat) with list_sum. rewrite IH. unfold both.
  destruct (nth u r false), (nth v r false); cbn [andb length]; lia.
Qed.

Lemma nth_table {A} (f : nat -> A) V i d : (i < V)%nat -> nth i (map f (seq 0 V)) d = f i.
Proof. intros H. rewrite (nth_indep _ d (f 0%nat)) by now rewrite map_length, seq_length. rewrite map_nth, seq_nth by auto. reflexivity. Qed.

Lemma fill_weights (g : nat -> nat -> R) (over : list (list R)) V : (forall u v, (u < V)%nat -> (v < V)%nat ->
    (row <- get IndexError over u ;; get IndexError row v) = Ok (g u v)) ->
  forall l w, (forall k a b, In (k, a, b) l -> (k < length w)%nat /\ (a < V)%nat /\ (b < V)%nat) ->
  exists w', foldM (fun w '(k, v1, v2) => row <- get IndexError over v1 ;; x <- get IndexError row v2 ;; put IndexError w k x) l w = Ok w' /\ length w' = length w /\
    (forall j, ~ In j (map (fun t => fst (fst t)) l) -> nth j w' 0 = nth j w 0) /\
    (NoDup (map (fun t => fst (fst t)) l) -> forall k a b, In (k, a, b) l -> nth k w' 0 = g a b).
Proof.
  intros H. induction l as [|[[k a] b] l IH]; intros w R.
  - exists w. split; [reflexivity|]. split; [auto|]. split; [auto|]. intros _ ? ? ? [].
  - destruct (R k a b (or_introl eq_refl)) as (Hk & Ha & Hb). cbn [foldM].
    specialize (H a b Ha Hb). destruct (get IndexError over a) as [row|]; [|discriminate]. cbn [bind] in *. rewrite H. cbn [bind].
    rewrite put_Ok by auto. cbn [bind]. destruct (IH (upd w k (g a b))) as (w' & E & L & O & N).
    { intros k' a' b' I. rewrite upd_length. apply R. now right. }
    rewrite E. exists w'. split; [reflexivity|]. split; [now rewrite L, upd_length|]. cbn [map fst]. split.
    + intros j NJ. rewrite O by (intros I; apply NJ; now right). apply nth_upd_other. intros ->. apply NJ. now left.
    + intros ND k' a' b' [Q|I].
      * injection Q as <- <- <-. inversion ND; subst. rewrite O by auto. now apply nth_upd_same.
      * inversion ND; subst. auto.
Qed.


Lemma shown mst leaves junk iter V rows method slots :
  (let overlap := map (fun u => map (fun v => INR (overlap_count rows u v)) (seq 0 V)) (seq 0 V) in
   (if String.eqb method "tree" then
       grid <- make_complete_graph V ;;
       weights <- foldM (fun weights '(k, v1, v2) =>
                    row <- get IndexError overlap v1 ;; x <- get IndexError row v2 ;; put IndexError weights k x)
                  grid (map junk (seq 0 (length grid))) ;;
       edges <- estimate_tree mst grid weights ;;
       '(_, order_inv) <- order_vertices iter edges ;; Ok order_inv
     else if String.eqb method "cluster" then leaves overlap
     else Raise ValueError) = Ok slots) -> Permutation slots (seq 0 V) ->
  exists image, plot_feature_overlap mst leaves junk iter V rows method = Ok image /\ overlap_shown V rows slots image.
Proof.
  intros E P. cbv zeta in E. unfold plot_feature_overlap. rewrite E. cbn [bind].
  assert (SB : forall v, In v slots -> (v < V)%nat) by (intros v I; apply (Permutation_in _ P) in I; apply in_seq in I; lia).
  assert (Ls : length slots = V) by (rewrite (Permutation_length P); apply seq_length).
  set (row := fun u => map (fun v => INR (overlap_count rows u v)) (seq 0 V)).
  assert (LR : forall u, length (row u) = V) by (intros; unfold row; now rewrite map_length, seq_length).
  rewrite (index_get_Ok (map row (seq 0 V)) slots []) by (intros i I; rewrite map_length, seq_length; auto). cbn [bind].
  replace (map (fun i => nth i (map row (seq 0 V)) []) slots) with (map row slots).
  2: { apply map_ext_in. intros i I. now rewrite nth_table by auto. }
  rewrite (mapM_total _ (fun r => map (fun i => nth i r 0) slots)).
  2: { intros r I. apply in_map_iff in I as (u & <- & _). apply index_get_Ok. intros i I. rewrite LR. auto. }
  cbn [bind]. rewrite !map_length, Ls, Nat.eqb_refl. rewrite (proj2 (forallb_forall _ _)).
  2: { intros r I. apply in_map_iff in I as (x & <- & _). rewrite map_length, Ls. apply Nat.eqb_refl. }
  cbn [andb assert_ bind]. eexists. split; [reflexivity|]. split; [exact P|]. rewrite !map_map. apply map_ext. intros u. rewrite map_map. apply map_ext_in. intros v I.
  unfold row. rewrite nth_table by auto. now rewrite overlap_both.
Qed.

Lemma C70_cluster : forall mst leaves junk iter V rows,
  (forall m, length m = V -> exists slots, leaves m = Ok slots /\ Permutation slots (seq 0 V)) ->
  exists slots image, plot_feature_overlap mst leaves junk iter V rows "cluster" = Ok image /\ overlap_shown V rows slots image.
Proof.
  intros mst leaves junk iter V rows LV.
  destruct (LV (map (fun u => map (fun v => INR (overlap_count rows u v)) (seq 0 V)) (seq 0 V))) as (slots & E & P); [now rewrite map_length, seq_length|].
  destruct (shown mst leaves junk iter V rows "cluster" slots E P) as (image & E' & S). exists slots, image. auto.
Qed.

Lemma C70_tree : forall mst leaves junk iter V rows, mst_contract mst -> (1 <= V)%nat -> (forall v s, NoDup s -> Permutation (iter v s) s) ->
  exists slots image tree c, plot_feature_overlap mst leaves junk iter V rows "tree" = Ok image /\ overlap_shown V rows slots image /\
    canonical_tree V tree /\
    (forall T', spanning_tree V T' -> (list_sum (map (fun '(a, b) => length (filter (both a b) rows)) T') <= list_sum (map (fun '(a, b) => length (filter (both a b) rows)) tree))%nat) /\
    center V tree c /\
    forall e rest, Permutation tree (e :: rest) -> exists o1 o2 o3, slots = o1 ++ o2 ++ o3 /\ forall u, (u < V)%nat -> (In u o2 <-> ~ reach rest c u).
Proof.
  intros mst leaves junk iter V rows MST HV IT.
  set (over := map (fun u => map (fun v => INR (overlap_count rows u v)) (seq 0 V)) (seq 0 V)).
  assert (OV : forall u v, (u < V)%nat -> (v < V)%nat -> (row <- get IndexError over u ;; get IndexError row v) = Ok (INR (overlap_count rows u v))).
  { intros u v Hu Hv. unfold over. rewrite (get_Ok _ _ _ _ []) by now rewrite map_length, seq_length. cbn [bind]. rewrite nth_table by auto. rewrite (get_Ok _ _ _ _ 0) by now rewrite map_length, seq_length. now rewrite nth_table by auto. }
  destruct (fill_weights _ over V OV (complete_grid V) (map junk (seq 0 (length (complete_grid V))))) as (w & EW & LW & _ & NW).
  { intros k a b I. rewrite map_length, seq_length. apply In_nth_error in I as (j & Ij).
    assert (Lj : (j < length (complete_grid V))%nat) by (apply nth_error_Some; congruence).
    destruct (complete_grid_nth V j k a b Ij) as (-> & Hab & Hb & _). lia. }
  rewrite map_length, seq_length in LW.
  assert (ND : NoDup (map (fun t : triple => fst (fst t)) (complete_grid V))).
  { assert (E : map (fun t : triple => fst (fst t)) (complete_grid V) = seq 0 (length (complete_grid V))).
    { apply nth_error_ext. intros i. destruct (lt_dec i (length (complete_grid V))) as [L|L].
      - rewrite nth_error_map. destruct (nth_error (complete_grid V) i) as [[[k a] b]|] eqn:Q; [|apply nth_error_None in Q; lia]. cbn [option_map fst].
        destruct (complete_grid_nth V i k a b Q) as (-> & _). rewrite (nth_error_nth' _ 0%nat) by now rewrite seq_length. now rewrite seq_nth by auto.
      - rewrite !(proj2 (nth_error_None _ _)); [reflexivity|rewrite seq_length; lia|rewrite map_length; lia]. }
    rewrite E. apply seq_NoDup. }
  destruct (estimate_tree_Ok mst V (complete_grid V) w MST HV (make_complete_graph_Ok V) LW) as (tree & ET & CT & MX).
  destruct (C11_proof V tree iter (proj1 CT) IT) as (order & slots & c & EO & _ & PS & _ & CC & BR).
  destruct (shown mst leaves junk iter V rows "tree" slots) as (image & E' & S).
  { cbv zeta. fold over. cbn [String.eqb Ascii.eqb]. change ("tree" =? "tree")%string with true. cbv iota. rewrite make_complete_graph_Ok. cbn [bind]. rewrite EW. cbn [bind]. rewrite ET. cbn [bind]. rewrite EO. reflexivity. }
  { exact PS. }
  exists slots, image, tree, c. split; [exact E'|]. split; [exact S|]. split; [exact CT|]. split; [|split; [exact CC|exact BR]].
  assert (WT : forall x y, (x < V)%nat -> (y < V)%nat -> x <> y -> nth (find_complete_edge x y) w 0 = INR (length (filter (both x y) rows))).
  { assert (W1 : forall x y, (x < y)%nat -> (y < V)%nat -> nth (find_complete_edge x y) w 0 = INR (length (filter (both x y) rows))).
    { intros x y H1 H2. rewrite <- overlap_both. apply (NW ND). eapply nth_error_In. apply complete_grid_fce; auto. }
    intros x y Hx Hy N. destruct (Nat.lt_total x y) as [L|[L|L]]; [auto|tauto|]. rewrite fce_sym, W1 by auto. f_equal. f_equal. apply filter_ext. intros r. apply andb_comm. }
  assert (SUM : forall T', spanning_tree V T' -> sumf T' (fun '(x, y) => nth (find_complete_edge x y) w 0) = INR (list_sum (map (fun '(a, b) => length (filter (both a b) rows)) T'))).
  { intros T' ST. pose proof (edge_ends V T' ST) as EE. clear ST. induction T' as [|[x y] T' IH]; [reflexivity|].
    rewrite sumf_cons, IH by (intros; apply EE; now right). destruct (EE x y (or_introl eq_refl)) as (Hx & Hy & N). rewrite WT by auto. cbn [map list_sum fold_right]. now rewrite plus_INR. }
  intros T' ST. apply INR_le. rewrite <- !SUM by (auto; apply CT). now apply MX.
Qed.

Lemma C70_other : forall mst leaves junk iter V rows method, method <> "tree"%string -> method <> "cluster"%string ->
  plot_feature_overlap mst leaves junk iter V rows method = Raise ValueError.
Proof.
  intros mst leaves junk iter V rows method N1 N2. unfold plot_feature_overlap.
  rewrite (proj2 (String.eqb_neq _ _) N1), (proj2 (String.eqb_neq _ _) N2). reflexivity.
Qed.

(** ** nx_plot_tree *)
Lemma add_node_new l n : ~ In n l -> add_node l n = l ++ [n].
Proof.
  induction l as [|x l IH]; intros N; [reflexivity|]. cbn [add_node]. destruct (String.eqb_spec x n) as [->|]; [exfalso; apply N; now left|]. rewrite IH by (intros I; apply N; now right). reflexivity.
Qed.
Lemma add_nodes l : forall acc, NoDup (acc ++ l) -> fold_left add_node l acc = acc ++ l.
Proof.
  induction l as [|x l IH]; intros acc N; cbn [fold_left]; [now rewrite app_nil_r|].
  rewrite add_node_new by (apply NoDup_remove_2 in N; intros I; apply N; apply in_or_app; now left).
  replace (acc ++ x :: l) with ((acc ++ [x]) ++ l) in * by now rewrite <- app_assoc. now apply IH.
Qed.
Lemma fold_max : forall l x, (In (fold_left Rmax l x) (x :: l)) /\ forall y, In y (x :: l) -> y <= fold_left Rmax l x.
Proof.
  induction l as [|z l IH]; intros x; cbn [fold_left].
  - split; [now left|]. intros y [<-|[]]. lra.
  - destruct (IH (Rmax x z)) as (I & M). split.
    + destruct I as [I|I]; [|right; now right]. destruct (Rmax_case_strong x z (fun m => m = x \/ m = z)) as [E|E]; auto; rewrite <- I; cbn; rewrite E; auto.
    + intros y [<-|[<-|J]].
      * eapply Rle_trans; [apply Rmax_l|apply M; now left].
      * eapply Rle_trans; [apply Rmax_r|apply M; now left].
      * apply M. now right.
Qed.

Lemma C70_nx : forall sc data ms d node_size, served sc data ms d -> NoDup (sc_names sc) -> 0 < node_size ->
  exists lat sizes, data_latent_perplexity d = Ok lat /\
    nx_plot_tree d node_size = Ok (combine (sc_names sc) sizes, map (fun '(a, b) => (nth a (sc_names sc) EmptyString, nth b (sc_names sc) EmptyString)) (data_estimate_tree d)) /\
    length sizes = length (sc_names sc) /\ In node_size sizes /\ (forall s, In s sizes -> 0 < s <= node_size) /\
    forall u v, (u < length sizes)%nat -> (v < length sizes)%nat -> nth u sizes 0 * nth v lat 0 = nth v sizes 0 * nth u lat 0.
Proof.
  intros sc data ms d node_size SD ND NS.
  assert (MN : ms <> []) by apply (sd_models _ _ _ _ SD).
  pose proof (served_full _ _ _ _ SD) as [SO NE DN DG WP (M & N & mst & counts & srv & MC & MST & DD & CG & SG)].
  set (V := length (sc_names sc)) in *.
  assert (FACTS : exists lat, data_latent_perplexity d = Ok lat /\ length lat = V /\ (forall v, (v < V)%nat -> 1 <= nth v lat 0) /\ canonical_tree V (data_estimate_tree d)).
  { subst d. unfold data_latent_perplexity, data_estimate_tree. cbn [dv_server].
    destruct SG as [(m & s & E1 & -> & TS)|(es & E1 & -> & ES)].
    - assert (Cm : consistent (widths sc) V M N m) by (apply MC; rewrite E1; now left).
      destruct (C33_proof (widths sc) V M N m mst s Cm MST TS) as (LL & HL).
      destruct (canonical_server (widths sc) V M N m mst s 0 Cm MST TS) as (A & B).
      exists (latent_perplexity s). split; [reflexivity|]. split; [exact LL|]. split; [|exact A]. intros v Hv. now apply (HL v).
    - destruct (C33_ens (widths sc) V M N mst ms es MN MC MST ES) as (lat & EL & LL & HL).
      destruct (canonical_ensemble (widths sc) V M N mst ms es 0 MN MC MST ES) as (A & B).
      exists lat. split; [exact EL|]. split; [exact LL|]. split; [|exact A]. intros v Hv. now apply (HL v). }
  destruct FACTS as (lat & EL & LL & HL & CT). pose proof (proj1 CT) as (LT & _).
  destruct lat as [|x t] eqn:EQ. { cbn in LL. destruct (sc_names sc); [congruence|discriminate]. } rewrite <- EQ in *.
  set (top := fold_left Rmax t x). destruct (fold_max t x) as (IT & MT). fold top in IT, MT. rewrite <- EQ in IT, MT.
  assert (P1 : forall p, In p lat -> 1 <= p) by (intros p I; apply (In_nth _ _ 0) in I as (i & Hi & <-); apply HL; lia).
  pose proof (P1 top IT) as TP.
  exists lat, (map (fun p => (node_size * p / top)%R) lat). split; [exact EL|]. split.
  { unfold nx_plot_tree. rewrite EL. cbn [bind]. rewrite EQ. cbn [bind]. fold top. rewrite <- EQ. replace (data_feature_names d) with (sc_names sc) by now subst d.
    replace (1 + length (data_estimate_tree d))%nat with V by (cbn; lia).
    assert (NM : map (fun v => nth v (sc_names sc) EmptyString) (seq 0 V) = sc_names sc) by (unfold V; rewrite <- (map_nth_seq' (fun x => x) (sc_names sc)); apply map_id).
    rewrite NM, (add_nodes (sc_names sc) []) by exact ND. cbn [app]. rewrite map_length, LL. fold V. rewrite Nat.eqb_refl. reflexivity. }
  split; [rewrite map_length; exact LL|]. split; [apply in_map_iff; exists top; split; [field; lra|exact IT]|]. split.
  - intros s I. apply in_map_iff in I as (p & <- & I). pose proof (P1 p I). pose proof (MT p I). assert (0 < / top) by (apply Rinv_0_lt_compat; lra). split.
    + unfold Rdiv. apply Rmult_lt_0_compat; [apply Rmult_lt_0_compat; lra|auto].
    + apply Rmult_le_reg_r with top; [lra|]. unfold Rdiv. rewrite Rmult_assoc, Rinv_l by lra. nra.
  - intros u v Hu Hv. rewrite map_length in Hu, Hv. rewrite (nth_map_lt _ lat u 0 0) by auto. rewrite (nth_map_lt _ lat v 0 0) by auto. field. lra.
Qed.
