(** Final forms of C01 - C04. *)
From Coq Require Import List Arith Lia Permutation Sorted Bool.
From Verif Require Import Base L_Base Spec_Graph Spec_Program M_Structure L_Graph.
From Verif Require Import L_Pairing L_MakeTree L_Program L_ProgramValid L_Center.
Import ListNotations.

Lemma C01_proof : forall V,
  (exists grid, make_complete_graph V = Ok grid /\ length grid = V * (V - 1) / 2 /\
     forall k x a b, nth_error grid k = Some (x, a, b) ->
       x = k /\ a < b /\ b < V /\ find_complete_edge a b = k /\ find_complete_edge b a = k) /\
  (forall a b, a < V -> b < V -> a <> b ->
     find_complete_edge a b = find_complete_edge b a /\ find_complete_edge a b < V * (V - 1) / 2) /\
  (forall a b c d, a <> b -> c <> d -> find_complete_edge a b = find_complete_edge c d ->
     same_edge (a, b) (c, d)) /\
  (forall k, k < V * (V - 1) / 2 -> exists a b, a < b /\ b < V /\ find_complete_edge a b = k).
Proof.
  intros. split; [|split; [|split]].
  - exists (complete_grid V). split; [apply make_complete_graph_Ok|]. split; [apply complete_grid_length|].
    intros. apply complete_grid_nth in H. destruct H as (-> & H1 & H2 & H3). repeat split; auto.
    now rewrite fce_sym.
  - intros. split; [apply fce_sym|]. now apply fce_range.
  - intros a b c d N N' E. unfold same_edge; simpl.
    destruct (lt_dec a b), (lt_dec c d).
    + apply fce_inj_lt in E; auto. destruct E; subst; auto.
    + rewrite (fce_sym c d) in E. apply fce_inj_lt in E; auto; lia.
    + rewrite (fce_sym a b) in E. apply fce_inj_lt in E; auto; lia.
    + rewrite (fce_sym a b), (fce_sym c d) in E. apply fce_inj_lt in E; try lia. destruct E; subst; auto.
  - intros k Hk. change (k < tri V) in Hk. rewrite <- pair_loop_length in Hk.
    destruct (nth_error (pair_loop V) k) as [[a b]|] eqn:E.
    + apply nth_error_pair_loop in E. exists a, b. auto.
    + apply nth_error_None in E. lia.
Qed.

Lemma C02_eq_proof : forall V t u es fs t' u',
  ts_V t = V -> ts_V u = V ->
  ts_set_edges t es = Ok t' -> ts_set_edges u fs = Ok u' ->
  (ts_eq t' u' = true <-> exists gs, Permutation es gs /\ Forall2 same_edge gs fs).
Proof.
  intros V t u es fs t' u' Et Eu H1 H2. rewrite ts_eq_iff.
  unfold ts_set_edges, assert_ in *.
  destruct (_ =? ts_V t); inversion H1. destruct (_ =? ts_V u); inversion H2.
  rewrite <- make_tree_eq_iff. split; intros E.
  - now inversion E.
  - congruence.
Qed.

Lemma C02_set_proof : forall t es,
  (length es + 1 <> ts_V t -> ts_set_edges t es = Raise AssertionError) /\
  (length es + 1 = ts_V t -> exists t', ts_set_edges t es = Ok t' /\ ts_V t' = ts_V t /\
     StronglySorted pair_le (ts_get_edges t') /\
     (forall a b, In (a, b) (ts_get_edges t') -> a <= b) /\
     (exists gs, Permutation es gs /\ Forall2 same_edge gs (ts_get_edges t')) /\
     ts_set_edges t' (ts_get_edges t') = Ok t').
Proof.
  intros. destruct (ts_set_edges_spec t es) as [S1 S2]. split; auto.
  intros E. exists (TS (ts_V t) (make_tree es)).
  destruct (make_tree_canonical es) as (L & N & SS & gs & P & F).
  repeat split; auto.
  - intros a b H. unfold ts_get_edges in H; simpl in H. apply in_map_iff in H.
    destruct H as ([[x a'] b'] & E' & H). inversion E'; subst. apply In_nth_error in H. destruct H as [i H].
    now apply N in H.
  - exists gs; auto.
  - destruct (ts_set_edges_spec (TS (ts_V t) (make_tree es)) (ts_get_edges (TS (ts_V t) (make_tree es)))) as [S3 _].
    rewrite S3.
    + simpl. do 2 f_equal. apply make_tree_eq_iff. apply perm_norm_iff.
      symmetry. apply perm_norm_iff. exists gs; auto.
    + unfold ts_get_edges; simpl. rewrite map_length, L. auto.
Qed.

Lemma C02_init_proof : forall V,
  (V = 0 -> ts_init V = Raise AssertionError) /\
  (1 <= V -> exists t, ts_init V = Ok t /\ ts_V t = V /\
     ts_get_edges t = map (fun v => (v, S v)) (seq 0 (V - 1)) /\ spanning_tree V (ts_get_edges t)).
Proof.
  intros. split. { intros ->; reflexivity. }
  intros HV. unfold ts_init.
  destruct (ts_set_edges_spec (TS V []) (map (fun v => (v, v + 1)) (seq 0 (V - 1)))) as [S1 _].
  rewrite S1 by (simpl; rewrite map_length, seq_length; lia).
  eexists. split; [reflexivity|]. split; [reflexivity|].
  assert (E : ts_get_edges (TS V (make_tree (map (fun v => (v, v + 1)) (seq 0 (V - 1))))) = map (fun v => (v, S v)) (seq 0 (V - 1))).
  { unfold ts_get_edges; simpl ts_grid.
    change (grid_edges (make_tree (map (fun v => (v, v + 1)) (seq 0 (V - 1)))) = map (fun v => (v, S v)) (seq 0 (V - 1))).
    rewrite make_tree_edges.
    assert (E1 : map norm (map (fun v => (v, v + 1)) (seq 0 (V - 1))) = map (fun v => (v, S v)) (seq 0 (V - 1))).
    { rewrite map_map. apply map_ext. intros. unfold norm; simpl. f_equal; lia. }
    rewrite E1. apply sorted_perm_unique; [apply pair_sort_sorted| |apply pair_sort_perm].
    clear. generalize (V - 1) as m. intros m. generalize 0 as s. induction m; intros; simpl; constructor; auto.
    apply Forall_forall. intros x Hx. apply in_map_iff in Hx. destruct Hx as (y & <- & Hy).
    apply in_seq in Hy. unfold pair_le; simpl. lia. }
  split; auto. simpl ts_V in *. rewrite E.
  replace (map (fun v => (v, S v)) (seq 0 (V - 1))) with (map (fun v => (v, v + 1)) (seq 0 (V - 1))).
  - now apply path_spanning.
  - apply map_ext. intros. f_equal. lia.
Qed.

Lemma C04_default_proof : forall V edges, spanning_tree V edges ->
  exists prog c, make_propagation_program (make_tree edges) None = Ok prog /\
    center V edges c /\
    valid_program V (map (fun '(_, a, b) => (a, b)) (make_tree edges)) c prog.
Proof.
  intros. destruct (find_center_Ok V edges H) as (c & E & C).
  destruct (make_program_valid V edges c H) as (prog & EP & VP). { apply C. }
  exists prog, c. split; auto. unfold make_propagation_program in *. rewrite E. auto.
Qed.

Lemma C04_int16_proof : forall V edges root prog, spanning_tree V edges ->
  (forall r, root = Some r -> r < V) -> V <= 2 ^ 15 ->
  make_propagation_program (make_tree edges) root = Ok prog ->
  forall i, In i prog -> op_number (i_op i) < 2 ^ 15 /\ i_v i < 2 ^ 15 /\ i_rel i < 2 ^ 15 /\ i_edge i < 2 ^ 15.
Proof.
  intros V edges root prog T HR HV E i Hi.
  assert (exists c, c < V /\ valid_program V (map (fun '(_, a, b) => (a, b)) (make_tree edges)) c prog) as (c & Hc & VP).
  { destruct root as [r|].
    - destruct (make_program_valid V edges r T (HR _ eq_refl)) as (p' & E' & VP). exists r. split; auto.
      rewrite E in E'. inversion E'; subst; auto.
    - destruct (C04_default_proof V edges T) as (p' & c & E' & C & VP). exists c. split; [apply C|].
      rewrite E in E'. inversion E'; subst; auto. }
  set (M := 2 ^ 15) in *. assert (M0 : 4 < M) by (unfold M; apply Nat.ltb_lt; reflexivity). clearbody M.
  assert (PE : forall p c' e, parent_edge (grid_edges (make_tree edges)) c p c' e -> p < V /\ c' < V /\ e < V).
  { intros p c' e ((f & Ef & S) & _).
    destruct (make_tree_spanning V edges T) as (LL & R & _).
    assert (e < length (grid_edges (make_tree edges))) by (apply nth_error_Some; congruence).
    apply nth_error_In in Ef. destruct f as [a b]. apply R in Ef. destruct S as [S|[S1 S2]].
    - inversion S; subst. lia.
    - simpl in *. subst. lia. }
  destruct i as [op v a e]. simpl. split. { destruct op; simpl; lia. }
  destruct op.
  - apply (vp_up _ _ _ _ VP) in Hi. lia.
  - apply (vp_in _ _ _ _ VP) in Hi. apply PE in Hi. lia.
  - apply (vp_root _ _ _ _ VP) in Hi. lia.
  - apply (vp_out _ _ _ _ VP) in Hi. apply PE in Hi. lia.
  - apply (vp_down _ _ _ _ VP) in Hi. lia.
Qed.

Lemma C04_example :
  spanning_tree 6 [(0, 3); (3, 1); (4, 2); (3, 4); (5, 4)] /\
  find_center_of_tree (make_tree [(0, 3); (3, 1); (4, 2); (3, 4); (5, 4)]) = Ok 3 /\
  exists prog, make_propagation_program (make_tree [(0, 3); (3, 1); (4, 2); (3, 4); (5, 4)]) None = Ok prog
    /\ length prog = 23.
Proof.
  split; [|split; [reflexivity|eexists; split; reflexivity]].
  split; [reflexivity|]. split.
  - intros u v H. simpl in H. repeat (destruct H as [H|H]; [inversion H; subst; lia|]). destruct H.
  - set (es := [(0, 3); (3, 1); (4, 2); (3, 4); (5, 4)]).
    assert (forall v, v < 6 -> reach es 3 v).
    { assert (A4 : reach es 3 4) by (apply reach_adj; left; simpl; auto).
      intros v Hv. destruct v as [|[|[|[|[|[|v]]]]]]; [| | | | | |lia].
      - apply reach_adj; right; simpl; auto.
      - apply reach_adj; left; simpl; auto.
      - eapply reach_trans; [exact A4|]. apply reach_adj; left; simpl; auto.
      - apply reach_refl.
      - exact A4.
      - eapply reach_trans; [exact A4|]. apply reach_adj; right; simpl; auto 10. }
    intros u v Hu Hv. eapply reach_trans; [apply reach_sym|]; apply H; auto.
Qed.
