(** Plots of a served dataset. *)
From Coq Require Import String.
From Coq Require Import List Arith ZArith Reals Permutation.
From Verif Require Import Base Spec_Graph Spec_MST Spec_Trees M_Rand M_Util M_Format M_Training M_Serving M_EnsembleServer M_DataServer Spec_Schema Spec_Serving Spec_DataServer M_Plot M_Plot2 M_Repaired5 M_Repaired6 Spec_Plot Spec_Svg M_Layout Spec_Layout.
From Verif Require L_Estimate L_Serve1 L_EnsServe2 L_DataServer3 L_DataServer4 L_Plot2 L_Plot4 L_Plot5 L_Plot6 L_Plot7 L_Svg L_Layout L_Repaired5.
Import ListNotations.
Open Scope list_scope.
Open Scope R_scope.

(** C69.  Whatever the iteration order of sets, plot_circular draws a figure from
    [n] sampled trees that shows the features evenly spaced around the circle with
    every branch of the estimated tree together, each one pulled a little towards
    at most two of its neighbours; for steps below a quarter no two of them
    coincide.  Beside each feature is its own name, as opaque as it is often
    observed, and its own perplexities; the curves are the edges of the estimated
    tree, and the edges of the sampled trees, as opaque as they are frequent. *)
Theorem C69_plot_circular_shows_the_features_and_the_trees : forall sc data ms d iter n contract,
  served sc data ms d -> (forall v s, NoDup s -> Permutation (iter v s) s) ->
  (contract = 0 \/ (2 <= length (sc_names sc))%nat) ->
  exists dens obs lat slots at_ place draw,
    feature_density d = Ok (map Some dens) /\ data_observed_perplexity d = Ok obs /\ data_latent_perplexity d = Ok lat /\
    arranged slots at_ /\
    (exists c, center (length (sc_names sc)) (data_estimate_tree d) c /\ forall e rest, Permutation (data_estimate_tree d) (e :: rest) ->
      exists o1 o2 o3, slots = o1 ++ o2 ++ o3 /\ forall u, (u < length (sc_names sc))%nat -> (In u o2 <-> ~ reach rest c u)) /\
    (forall v, (v < length (sc_names sc))%nat -> place v = pulled (contract * (2 * sin (PI / INR (length (sc_names sc))))) at_ (data_estimate_tree d) v) /\
    (Rabs contract < 1 / 4 -> forall u v, (u < length (sc_names sc))%nat -> (v < length (sc_names sc))%nat -> u <> v -> place u <> place v) /\
    plot_circular iter d n contract = rbind (data_sample_tree d n) (fun samples => lift (draw samples)) /\
    (forall samples, length samples = n -> (forall T, In T samples -> canonical_tree (length (sc_names sc)) T) ->
       exists fig, draw samples = Ok fig /\ shows (sc_names sc) dens obs lat (data_estimate_tree d) samples slots place fig) /\
    always (fun samples => length samples = n /\ forall T, In T samples -> canonical_tree (length (sc_names sc)) T) (data_sample_tree d n).
Proof. exact L_Plot4.C69_proof. Qed.
Print Assumptions C69_plot_circular_shows_the_features_and_the_trees.

(** The curves of such a figure stay inside the circle. *)
Theorem C69_curves_stay_inside_the_circle : forall names density observed latent tree samples slots at_ place fig contract,
  arranged slots at_ -> canonical_tree (length names) tree -> (forall T, In T samples -> canonical_tree (length names) T) ->
  0 <= contract <= 1 / 2 ->
  (forall v, (v < length names)%nat -> place v = pulled (contract * (2 * sin (PI / INR (length names)))) at_ tree v) ->
  shows names density observed latent tree samples slots place fig ->
  forall c t, In c (fg_tree fig ++ fg_sampled fig) -> 0 <= t <= 1 -> in_circle (bezier c t).
Proof. exact L_Plot7.drawn_inside. Qed.
Print Assumptions C69_curves_stay_inside_the_circle.

(** Two features on opposite sides: the curve passes through the centre. *)
Example C69_opposite_features : bezier (plot_chord (1, 0) (-1, 0) (1 / 2) None) (1 / 2) = (0, 0).
Proof. exact L_Plot7.antipodes. Qed.

(** It raises nothing, whatever is drawn. *)
Theorem C69_plot_circular_never_raises : forall sc data ms d iter n contract,
  served sc data ms d -> (forall v s, NoDup s -> Permutation (iter v s) s) ->
  (contract = 0 \/ (2 <= length (sc_names sc))%nat) -> always (fun _ => True) (plot_circular iter d n contract).
Proof. exact L_Plot4.C69_always. Qed.
Print Assumptions C69_plot_circular_never_raises.

(** A dataset with a single feature cannot be plotted, unless [contract] is 0. *)
Theorem C69_plot_circular_of_one_feature_refuted : forall sc data ms d iter n contract,
  served sc data ms d -> (forall v s, NoDup s -> Permutation (iter v s) s) ->
  length (sc_names sc) = 1%nat -> contract <> 0 -> plot_circular iter d n contract = Fail AssertionError.
Proof. exact L_Plot4.C69_one. Qed.
Print Assumptions C69_plot_circular_of_one_feature_refuted.

(** contract_positions moves each vertex along the last edge that has it as second
    end and the last one that has it as first end, by the step times the length of
    the shortest edge. *)
Theorem C69_contract_positions_pulls_along_two_edges : forall (XY : list point) edges step,
  edges <> [] -> length XY = (length edges + 1)%nat ->
  (forall a b, In (a, b) edges -> (a < length XY)%nat /\ (b < length XY)%nat /\ 0 < apart (nth a XY (0, 0)) (nth b XY (0, 0))) ->
  exists XY' len, contract_positions XY edges step = Ok XY' /\ length XY' = length XY /\ shortest XY edges len /\
    forall v, (v < length XY)%nat -> nth v XY' (0, 0) = pulled (step * len) (fun v => nth v XY (0, 0)) edges v.
Proof. exact L_Plot2.contract_Ok. Qed.
Print Assumptions C69_contract_positions_pulls_along_two_edges.

(** The force its documentation speaks of would pull a vertex along all of its
    edges: here the first vertex would move towards both others. *)
Theorem C69_contract_positions_pulls_along_every_edge_refuted : exists XY',
  contract_positions [(0, 0); (1, 0); (0, 1)] [(0, 1); (0, 2)]%nat (1 / 4) = Ok XY' /\ nth 0 XY' (0, 0) = (0, 1 / 4).
Proof. exact L_Plot4.contract_forces. Qed.
Print Assumptions C69_contract_positions_pulls_along_every_edge_refuted.

(** Repaired, it pulls every vertex along each of its edges, also if there is no
    edge; and the pulls cancel out, so that the centre of the picture stays. *)
Theorem C69_repaired_contract_positions_pulls_along_every_edge : forall (XY : list point) edges step, length XY = (length edges + 1)%nat ->
  (forall a b, In (a, b) edges -> (a < length XY)%nat /\ (b < length XY)%nat /\ 0 < apart (nth a XY (0, 0)) (nth b XY (0, 0))) ->
  exists XY' len, repaired_contract_positions XY edges step = Ok XY' /\ length XY' = length XY /\ (edges <> [] -> shortest XY edges len) /\
    (forall v, (v < length XY)%nat -> nth v XY' (0, 0) = pulled_by_all (step * len) (fun v => nth v XY (0, 0)) edges v) /\
    fold_right Rplus 0 (map fst XY') = fold_right Rplus 0 (map fst XY) /\ fold_right Rplus 0 (map snd XY') = fold_right Rplus 0 (map snd XY).
Proof. exact L_Plot6.C69_repaired_proof. Qed.
Print Assumptions C69_repaired_contract_positions_pulls_along_every_edge.
(** The case of the refutation. *)
Example C69_repaired_case : exists XY',
  repaired_contract_positions [(0, 0); (1, 0); (0, 1)] [(0, 1); (0, 2)]%nat (1 / 4) = Ok XY' /\ nth 0 XY' (0, 0) = (1 / 4, 1 / 4).
Proof. exact L_Plot6.repaired_contract_case. Qed.

(** A dataset of three features. *)
Example C69_case : forall mst, mst_contract mst -> exists d,
  served (fst L_DataServer3.ds_imported) (snd L_DataServer3.ds_imported) [L_Serve1.ex_model] d /\
  (2 <= length (sc_names (fst L_DataServer3.ds_imported)))%nat /\ Rabs (8 / 100) < 1 / 4.
Proof.
  intros mst MST. destruct (L_DataServer3.ds_served mst MST) as (d & E & S). exists d. split; [exact S|].
  split; [repeat constructor|]. rewrite Rabs_pos_eq; Lra.lra.
Qed.

(** One feature: what the refutation is about. *)
Example C69_one_feature_case : forall mst, mst_contract mst -> exists d,
  served (fst L_DataServer4.g_imported) (snd L_DataServer4.g_imported) [L_EnsServe2.lumped; L_EnsServe2.split_] d /\
  length (sc_names (fst L_DataServer4.g_imported)) = 1%nat.
Proof. intros mst MST. destruct (L_DataServer4.g_served mst MST) as (d & S & _). exists d. split; [exact S|reflexivity]. Qed.

(** C70.  plot_feature_overlap shows, for each pair of columns, in how many rows
    both are present, the columns in some order.  With the method "cluster" the
    order is the one scipy's leaves_list gives, provided that it is one. *)
Theorem C70_overlaps_are_shown_by_cluster : forall mst leaves junk iter V rows,
  (forall m, length m = V -> exists slots, leaves m = Ok slots /\ Permutation slots (seq 0 V)) ->
  exists slots image, plot_feature_overlap mst leaves junk iter V rows "cluster" = Ok image /\ overlap_shown V rows slots image.
Proof. exact L_Plot5.C70_cluster. Qed.
Print Assumptions C70_overlaps_are_shown_by_cluster.

(** With the method "tree" it keeps the branches of a spanning tree of greatest
    overlap together. *)
Theorem C70_overlaps_are_shown_by_tree : forall mst leaves junk iter V rows,
  mst_contract mst -> (1 <= V)%nat -> (forall v s, NoDup s -> Permutation (iter v s) s) ->
  exists slots image tree c, plot_feature_overlap mst leaves junk iter V rows "tree" = Ok image /\ overlap_shown V rows slots image /\
    canonical_tree V tree /\
    (forall T', spanning_tree V T' -> (list_sum (map (fun '(a, b) => length (filter (both a b) rows)) T') <= list_sum (map (fun '(a, b) => length (filter (both a b) rows)) tree))%nat) /\
    center V tree c /\
    forall e rest, Permutation tree (e :: rest) -> exists o1 o2 o3, slots = o1 ++ o2 ++ o3 /\ forall u, (u < V)%nat -> (In u o2 <-> ~ reach rest c u).
Proof. exact L_Plot5.C70_tree. Qed.
Print Assumptions C70_overlaps_are_shown_by_tree.

Theorem C70_other_methods_are_refused : forall mst leaves junk iter V rows method,
  method <> "tree"%string -> method <> "cluster"%string -> plot_feature_overlap mst leaves junk iter V rows method = Raise ValueError.
Proof. exact L_Plot5.C70_other. Qed.
Print Assumptions C70_other_methods_are_refused.

Example C70_case : (exists mst, mst_contract mst) /\
  (forall m : list (list R), length m = 3%nat -> exists slots, Ok (seq 0 (length m)) = Ok slots /\ Permutation slots (seq 0 3)).
Proof. split; [exists L_Estimate.naive_mst; exact L_Estimate.naive_mst_contract|]. intros m ->. eexists. split; reflexivity. Qed.

(** C70.  nx_plot_tree draws one node for each feature, its size proportional to
    the latent perplexity of that feature and at most [node_size], and the edges
    of the estimated tree between the names. *)
Theorem C70_nx_plot_tree_scales_by_perplexity : forall sc data ms d node_size,
  served sc data ms d -> NoDup (sc_names sc) -> 0 < node_size ->
  exists lat sizes, data_latent_perplexity d = Ok lat /\
    nx_plot_tree d node_size = Ok (combine (sc_names sc) sizes, map (fun '(a, b) => (nth a (sc_names sc) EmptyString, nth b (sc_names sc) EmptyString)) (data_estimate_tree d)) /\
    length sizes = length (sc_names sc) /\ In node_size sizes /\ (forall s, In s sizes -> 0 < s <= node_size) /\
    forall u v, (u < length sizes)%nat -> (v < length sizes)%nat -> nth u sizes 0 * nth v lat 0 = nth v sizes 0 * nth u lat 0.
Proof. exact L_Plot5.C70_nx. Qed.
Print Assumptions C70_nx_plot_tree_scales_by_perplexity.

Example C70_nx_case : NoDup (sc_names (fst L_DataServer3.ds_imported)) /\ 0 < 200.
Proof. split; [repeat constructor; cbn; intuition discriminate|Lra.lra]. Qed.

(** C71.  add_panning_to_svg puts the script before the drawing and a group around
    it, and keeps everything else. *)
Theorem C71_add_panning_wraps_the_drawing : forall svgpan fs source destin pre open body close post,
  fs source = Some (pre ++ open ++ body ++ close ++ post)%string -> occurs "SVGPan library" (pre ++ open ++ body ++ close ++ post) = false ->
  whole pre -> no_tags pre -> one_line open -> prefix "<svg " open = true -> whole body -> no_tags body ->
  one_line close -> prefix "</svg>" close = true -> no_tags post ->
  exists states, add_panning_to_svg svgpan fs source destin = (Ok tt, states) /\
    finally states (match destin with None => source | Some d => d end) =
    Some (pre ++ svg_header ++ script_open ++ svgpan ++ script_close ++ group_open ++ body ++ group_close ++ close ++ post)%string.
Proof. exact L_Svg.C71_wraps. Qed.
Print Assumptions C71_add_panning_wraps_the_drawing.

(** In any file the lines other than those that open an svg element are kept, in
    their order. *)
Theorem C71_add_panning_keeps_the_other_lines : forall svgpan fs source destin content,
  fs source = Some content -> occurs "SVGPan library" content = false ->
  exists states new, add_panning_to_svg svgpan fs source destin = (Ok tt, states) /\
    finally states (match destin with None => source | Some d => d end) = Some new /\
    within (filter (fun l => negb (prefix "<svg " l)) (file_lines content)) (file_lines new).
Proof. exact L_Svg.C71_kept. Qed.
Print Assumptions C71_add_panning_keeps_the_other_lines.

(** No other file is ever touched; if it raises, none at all. *)
Theorem C71_add_panning_touches_only_its_target : forall svgpan fs source destin outcome states,
  add_panning_to_svg svgpan fs source destin = (outcome, states) ->
  hd_error states = Some fs /\ (outcome <> Ok tt -> states = [fs]) /\
  forall st p, In st states -> p <> match destin with None => source | Some d => d end -> st p = fs p.
Proof. exact L_Svg.C71_others. Qed.
Print Assumptions C71_add_panning_touches_only_its_target.

(** A file is not given the script twice (the text of svgpan.js names the library
    in its second line). *)
Theorem C71_add_panning_twice_is_refused : forall svgpan fs source content,
  fs source = Some content -> occurs "SVGPan library" content = false ->
  (exists l, In l (file_lines content) /\ prefix "<svg " l = true) -> occurs "SVGPan library" svgpan = true ->
  exists states, add_panning_to_svg svgpan fs source None = (Ok tt, states) /\
    forall destin, add_panning_to_svg svgpan (finally states) source destin = (Raise ValueError, [finally states]).
Proof. exact L_Svg.C71_second. Qed.
Print Assumptions C71_add_panning_twice_is_refused.

(** A crash can lose the drawing: rewriting a file in place, it is emptied first. *)
Theorem C71_crashes_keep_the_drawing_refuted : forall svgpan fs source content,
  fs source = Some content -> occurs "SVGPan library" content = false ->
  exists states st, add_panning_to_svg svgpan fs source None = (Ok tt, states) /\ In st states /\ st source = Some ""%string.
Proof. exact L_Svg.C71_crash. Qed.
Print Assumptions C71_crashes_keep_the_drawing_refuted.

(** With the new text written to another file that then replaces the target: at
    every moment the target has its old or its new content, and a file beside it
    is all that a crash can leave. *)
Theorem C71_repaired_crashes_keep_the_drawing : forall svgpan fs source destin outcome states outcome' states',
  add_panning_to_svg svgpan fs source destin = (outcome, states) -> repaired_add_panning svgpan fs source destin = (outcome', states') ->
  let target := match destin with None => source | Some d => d end in
  outcome' = outcome /\ hd_error states' = Some fs /\ finally states' target = finally states target /\
  (forall st, In st states' -> (st target = fs target \/ st target = finally states target) /\
     forall p, p <> target -> p <> (target ++ ".tmp")%string -> st p = fs p) /\
  (outcome' = Ok tt -> finally states' (target ++ ".tmp")%string = None) /\ (outcome' <> Ok tt -> states' = [fs]).
Proof. exact L_Repaired5.C71_repaired. Qed.
Print Assumptions C71_repaired_crashes_keep_the_drawing.

Example C71_case : let pre := ("<?xml?>" ++ newline)%string in let open := ("<svg width=""9"">" ++ newline)%string in
  let body := ("<path/>" ++ newline)%string in let close := ("</svg>" ++ newline)%string in
  occurs "SVGPan library" (pre ++ open ++ body ++ close ++ "") = false /\ whole pre /\ no_tags pre /\ one_line open /\ prefix "<svg " open = true /\
  whole body /\ no_tags body /\ one_line close /\ prefix "</svg>" close = true /\ no_tags ""%string /\
  (exists l, In l (file_lines (pre ++ open ++ body ++ close ++ "")) /\ prefix "<svg " l = true) /\
  occurs "SVGPan library" (" *  SVGPan library 1.2.2" ++ newline) = true.
Proof.
  cbv zeta. assert (OL : forall w, no_newline w -> one_line (w ++ newline)) by (intros w N; exists w; auto).
  assert (WL : forall w, no_newline w -> whole (w ++ newline)) by (intros w N; rewrite <- (L_Svg.sapp_nil (w ++ newline)); constructor; [auto|constructor]).
  split; [reflexivity|]. split; [apply WL; cbn; repeat split; discriminate|]. split; [intros l [<-|[]]; split; reflexivity|].
  split; [apply OL; cbn; repeat split; discriminate|]. split; [reflexivity|]. split; [apply WL; cbn; repeat split; discriminate|].
  split; [intros l [<-|[]]; split; reflexivity|]. split; [apply OL; cbn; repeat split; discriminate|]. split; [reflexivity|].
  split; [intros l []|]. split; [eexists; split; [right; left; reflexivity|reflexivity]|reflexivity].
Qed.

(** C73.  layout_tree asks scipy for the eigenvalues [1, 2, 3] where scipy takes the
    first and the last, so it raises on every matrix. *)
Theorem C73_layout_tree_returns_a_layout_refuted : forall eigh n cm, correlations n cm -> layout_tree eigh cm = Raise ValueError.
Proof. exact L_Layout.C73_always. Qed.
Print Assumptions C73_layout_tree_returns_a_layout_refuted.

(** With [1, 3] in place of [1, 2, 3]: the layout of four or more features, any two of which are tied by a chain
    of positive correlations: centered, orthogonal coordinates of unit length, each
    of which puts correlated features as near to each other as possible. *)
Theorem C73_layout_tree_is_a_spectral_layout_partial : forall eigh n cm, correlations n cm -> (4 <= n)%nat -> eigh_contract eigh n (entry cm) ->
  (forall u v, (u < n)%nat -> (v < n)%nat -> tied (entry cm) n u v) ->
  exists positions, repaired_layout_tree eigh cm = Ok positions /\ spectral n (entry cm) positions.
Proof. exact L_Layout.C73_layout. Qed.
Print Assumptions C73_layout_tree_is_a_spectral_layout_partial.

(** Features that are not tied make that raise, and so do less than four. *)
Theorem C73_repaired_layout_of_untied_features_raises : forall eigh n cm, correlations n cm -> (4 <= n)%nat -> eigh_contract eigh n (entry cm) ->
  ~ (forall u v, (u < n)%nat -> (v < n)%nat -> tied (entry cm) n u v) -> repaired_layout_tree eigh cm = Raise AssertionError.
Proof. exact L_Layout.C73_fails. Qed.
Print Assumptions C73_repaired_layout_of_untied_features_raises.

Theorem C73_repaired_layout_of_few_features_raises : forall eigh n cm, correlations n cm -> (n < 4)%nat -> repaired_layout_tree eigh cm = Raise ValueError.
Proof. exact L_Layout.C73_small. Qed.
Print Assumptions C73_repaired_layout_of_few_features_raises.

(** What latent_correlation returns can be laid out, if the features are tied.  In
    models with one cluster they never are. *)
Theorem C73_latent_correlations_are_correlations : forall ws V M N m mst s junk rows,
  consistent ws V M N m -> mst_contract mst -> tree_server mst m = Ok s ->
  latent_correlation s junk = Ok rows -> correlations V rows.
Proof. exact L_Layout.C73_server_correlations. Qed.
Print Assumptions C73_latent_correlations_are_correlations.

Theorem C73_repaired_layout_of_one_cluster_raises : forall ws V N m mst s junk rows eigh,
  consistent ws V 1 N m -> mst_contract mst -> tree_server mst m = Ok s -> (4 <= V)%nat ->
  latent_correlation s junk = Ok rows -> eigh_contract eigh V (entry rows) -> repaired_layout_tree eigh rows = Raise AssertionError.
Proof. exact L_Layout.C73_one_cluster. Qed.
Print Assumptions C73_repaired_layout_of_one_cluster_raises.

Example C73_case : correlations 4 L_Layout.even_cm /\ eigh_contract (fun _ => L_Layout.even_es) 4 (entry L_Layout.even_cm) /\
  forall u v, (u < 4)%nat -> (v < 4)%nat -> tied (entry L_Layout.even_cm) 4 u v.
Proof. exact (conj L_Layout.even_correlations (conj L_Layout.even_contract L_Layout.even_tied)). Qed.

Example C73_refuting_model : consistent [2; 2; 2; 2]%nat 4 1 1 L_Layout.lone_model /\ mst_contract L_Estimate.naive_mst /\
  exists s rows, tree_server L_Estimate.naive_mst L_Layout.lone_model = Ok s /\ latent_correlation s (fun _ _ _ _ => 0) = Ok rows.
Proof. exact (conj L_Layout.lone_consistent (conj L_Estimate.naive_mst_contract L_Layout.lone_served)). Qed.
