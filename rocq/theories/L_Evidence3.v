(** The evidence of every tree, and where the epochs end. *)
From Coq Require Import List Arith Bool ZArith Reals Lia Lra Permutation Sorted.
From Verif Require Import Base L_Base Spec_Graph L_Graph Spec_Sum L_Sum Spec_Trees Spec_Ragged L_Ragged M_Structure L_Pairing L_Prop1 L_MakeTree M_Util
  M_Rand L_Rand M_SampleTree L_SampleTree L_TreeMCMC L_AllTrees M_Array M_Training Spec_Joint Spec_Stats L_Asg L_Stats L_Trainer
  Spec_Conditional L_AddRow L_Conditional Spec_EdgeLogits L_EdgeLogits Spec_Gibbs L_Gibbs Spec_Model L_Train Spec_Epoch L_Epoch Spec_Evidence L_Evidence L_Evidence2.
Import ListNotations.
Open Scope R_scope.

Lemma C63_proof : forall lg, (forall x, 0 < x -> lg (x + 1) = lg x + ln x) ->
  forall ws M prior N, (1 <= M <= 128)%nat -> (1 <= length ws <= 2 ^ 15)%nat -> (forall w, In w ws -> (1 <= w)%nat) ->
  length prior = (length ws * (length ws - 1) / 2)%nat ->
  exists c, 0 < c /\
  forall T pats (St : list (list Z) -> list (list nat) -> tstate), canonical_tree (length ws) T ->
  length pats = N -> Forall (fun p => length p = length ws) pats ->
  (forall D A, In D (pattern_data ws pats) -> In A (matrices N (length ws) M) ->
     full_state (table_of ws D) prior M (with_tree (table_of ws D) T) A (St D A)) ->
  exists lp, (forall D A, In D (pattern_data ws pats) -> In A (matrices N (length ws) M) -> logprob lg (table_of ws D) M (St D A) = Ok (lp D A)) /\
    sumf (pattern_data ws pats) (fun D => sumf (matrices N (length ws) M) (fun A => exp (lp D A))) = c.
Proof.
  intros lg REC ws M prior N HM HV WP LP.
  exists (exp (INR (length ws) * (INR M * lg (0 + 1 / 2)) +
  INR (length ws - 1) * (INR M * (INR M * lg (0 + 1 / 2 / INR M)) - INR M * lg (0 + 1 / 2) - INR M * lg (0 + 1 / 2)) +
  sumf (seq 0 (length ws)) (fun v => sumf (block ws v) (fun _ => INR M * lg (0 + 1 / 2 / INR M)) - INR M * lg (0 + meas_prior (make_ragged_index ws) M v))) * growth M N).
  split. { apply Rmult_lt_0_compat; [apply exp_pos|eapply growth_pos; eauto]. }
  intros T pats St CT LN FP FS. exists (fun D A => Lform lg (table_of ws D) M (St D A)). split.
  - intros D A ID IA. apply logprob_Ok. apply (FS D A ID IA).
  - rewrite <- (PL_nil lg ws M prior HM HV LP T CT). rewrite <- LN. rewrite <- (evidence lg REC ws M prior HM HV LP WP T CT pats FP).
    apply sumf_ext. intros D ID. apply sumf_ext. intros A IA. rewrite LN in IA. f_equal.
    destruct (data_facts ws M prior HM HV LP pats FP D ID) as (LD & LD1 & LD2).
    pose proof (FS D A ID IA) as F. apply (full_gfull ws) in F; [|now apply tof_ok|lia].
    unfold with_tree in F. rewrite cols in F. apply (full_holds' ws M prior HM HV LP T) in F; auto.
    rewrite (Lform_PL lg ws M prior HM HV LP T CT D A (seq 0 (length D)) _ LD1 F). f_equal. apply items_full.
    assert (IA' : In A (matrices N (num_cols (table_of ws D)) M)) by now rewrite cols.
    apply in_matrices in IA'; [|lia]. destruct IA' as (-> & _). lia.
Qed.

(** ** Where epochs end *)
Lemma no_self_loop V es x : spanning_tree V es -> ~ In (x, x) es.
Proof.
  intros (LE & RG & CO) I. apply in_split in I. destruct I as (l1 & l2 & ->).
  assert (AD : forall u v, reach (l1 ++ (x, x) :: l2) u v -> reach (l1 ++ l2) u v).
  { intros u v (n & W). induction W as [v|u v w n A W IH]; [apply reach_refl|].
    destruct (Nat.eq_dec u v) as [->|NE]; [exact IH|]. eapply reach_trans; [apply reach_adj|exact IH].
    destruct A as [A|A]; [left|right]; apply in_app_or in A; apply in_or_app;
      destruct A as [A|[A|A]]; auto; inversion A; subst; contradiction. }
  assert (V <= S (length (l1 ++ l2)))%nat.
  { apply connected_edges.
    - intros u v Hu Hv. apply AD. now apply CO.
    - intros u v J. apply RG. apply in_app_or in J. apply in_or_app. destruct J; [now left|right; now right]. }
  rewrite app_length in *. cbn [length] in LE. lia.
Qed.

Lemma canonical_grid V es : spanning_tree V es -> canonical_tree V (ts_get_edges (TS V (make_tree es))).
Proof.
  intros H. change (ts_get_edges (TS V (make_tree es))) with (grid_edges (make_tree es)).
  pose proof (make_tree_spanning V es H) as SP. split; [exact SP|]. split.
  - intros x y I. pose proof I as I'. rewrite make_tree_edges in I. apply (Permutation_in _ (pair_sort_perm _)) in I.
    apply in_map_iff in I. destruct I as (e & E & _). pose proof (norm_sorted e) as Q. rewrite E in Q. cbn [fst snd] in Q.
    destruct (Nat.eq_dec x y) as [->|NE]; [|lia]. now apply (no_self_loop V _ y SP) in I'.
  - rewrite make_tree_edges. apply pair_sort_sorted.
Qed.

Lemma matrix_eqb_refl A : matrix_eqb A A = true.
Proof. unfold matrix_eqb. destruct (list_eq_dec _ A A); [reflexivity|contradiction]. Qed.

Lemma C62_always : forall lg ws tb prior M TT T A s k, table_ok ws tb -> nonneg_data tb -> (1 <= M)%nat ->
  length prior = (num_cols tb * (num_cols tb - 1) / 2)%nat -> enumerates_trees (num_cols tb) TT ->
  full_state tb prior M (with_tree tb T) A s ->
  always (fun s' => exists T' A', In T' TT /\ In A' (matrices (num_rows tb) (num_cols tb) M) /\ is_at tb T' A' s' = true) (epochs lg tb prior M k s).
Proof.
  intros lg ws tb prior M TT T A s k TK ND HM LP ET FS. pose proof (full_gfull ws tb prior M _ _ _ TK HM FS) as (TI & _ & L & _).
  unfold epochs. eapply always_mono; [|apply (epochs_always ws tb prior M lg); auto; apply (all_added ws tb M HM s TI L)].
  intros s' (TI' & PA'). destruct (ti_grid _ _ _ _ TI') as (es & SP & E).
  exists (ts_get_edges (s_tree s')), (class_matrix tb s'). split; [|split].
  - apply (proj2 ET). rewrite E. now apply canonical_grid.
  - apply (gfull_in ws tb M HM (s_tree s') _ s'). split; [exact TI'|]. split; [reflexivity|]. split; [|reflexivity].
    rewrite PA'. apply seq_length.
  - unfold is_at. destruct (edge_list_eq_dec _ _); [|contradiction]. apply matrix_eqb_refl.
Qed.

(** ** The states exist *)
Lemma fin_family {X Y} (dec : forall x y : X, {x = y} + {x <> y}) (P : X -> Y -> Prop) (y0 : Y) (l : list X) :
  (forall x, In x l -> exists y, P x y) -> exists f, forall x, In x l -> P x (f x).
Proof.
  induction l as [|a l IH]; intros H; [exists (fun _ => y0); intros x []|].
  destruct IH as (f & F); [intros; apply H; now right|]. destruct (H a) as (y & Hy); [now left|].
  exists (fun x => if dec x a then y else f x). intros x [<-|I].
  - destruct (dec a a); [exact Hy|contradiction].
  - destruct (dec x a) as [->|]; [exact Hy|now apply F].
Qed.

Lemma C62_states : forall ws tb prior M s0 TT, table_ok ws tb -> nonneg_data tb -> (1 <= M)%nat ->
  init_trainer tb prior M = Ok s0 -> enumerates_trees (num_cols tb) TT ->
  exists St, forall T A, In T TT -> In A (matrices (num_rows tb) (num_cols tb) M) -> full_state tb prior M (with_tree tb T) A (St T A).
Proof.
  intros ws tb prior M s0 TT TK ND HM E0 ET.
  assert (dec : forall x y : list edge * list (list nat), {x = y} + {x <> y}) by (repeat decide equality).
  destruct (fin_family dec (fun p s => full_state tb prior M (with_tree tb (fst p)) (snd p) s) s0
    (list_prod TT (matrices (num_rows tb) (num_cols tb) M))) as (f & F).
  - intros [T A] I. apply in_prod_iff in I. destruct I as (IT & IA). apply (proj2 ET) in IT. cbn [fst snd].
    apply (C23_states ws tb prior M s0 T A TK ND HM E0); auto. apply IT.
  - exists (fun T A => f (T, A)). intros T A IT IA. apply (F (T, A)). apply in_prod_iff. auto.
Qed.

Lemma C63_states : forall ws M prior T pats, (1 <= M <= 128)%nat -> (1 <= length ws <= 2 ^ 15)%nat ->
  length prior = (length ws * (length ws - 1) / 2)%nat -> canonical_tree (length ws) T -> Forall (fun p => length p = length ws) pats ->
  exists St, forall D A, In D (pattern_data ws pats) -> In A (matrices (length pats) (length ws) M) ->
    full_state (table_of ws D) prior M (with_tree (table_of ws D) T) A (St D A).
Proof.
  intros ws M prior T pats HM HV LP CT FP.
  assert (dec : forall x y : list (list Z) * list (list nat), {x = y} + {x <> y}).
  { intros [x a] [y b]. destruct (list_eq_dec (list_eq_dec Z.eq_dec) x y) as [->|]; [|right; congruence].
    destruct (list_eq_dec (list_eq_dec Nat.eq_dec) a b) as [->|]; [left; reflexivity|right; congruence]. }
  assert (I0 : forall D, exists s0, init_trainer (table_of ws D) prior M = Ok s0).
  { intros D. apply init_exists; [lia| |]; rewrite cols; [lia|exact LP]. }
  destruct (I0 []) as (y0 & _).
  destruct (fin_family dec (fun p s => full_state (table_of ws (fst p)) prior M (with_tree (table_of ws (fst p)) T) (snd p) s) y0
    (list_prod (pattern_data ws pats) (matrices (length pats) (length ws) M))) as (f & F).
  - intros [D A] I. apply in_prod_iff in I. destruct I as (ID & IA). cbn [fst snd].
    destruct (data_facts ws M prior HM HV LP pats FP D ID) as (LD & LD1 & LD2). destruct (I0 D) as (s0 & E0).
    apply (C23_states ws (table_of ws D) prior M s0 T A); auto; [now apply tof_ok|eapply tof_nonneg; eauto|lia| |].
    + rewrite cols. apply CT.
    + rewrite cols. unfold num_rows. cbn [table_of tb_rows]. now rewrite LD.
  - exists (fun D A => f (D, A)). intros D A ID IA. apply (F (D, A)). apply in_prod_iff. auto.
Qed.

(** With nothing observed there is only one dataset. *)
Lemma pattern_none ws : pattern_rows ws (repeat false (length ws)) = [repeat 0%Z (list_sum ws)].
Proof.
  induction ws as [|w ws IH]; [reflexivity|]. cbn [length repeat pattern_rows list_sum fold_right]. rewrite IH. cbn [map].
  rewrite repeat_app. reflexivity.
Qed.

Lemma data_none ws N : pattern_data ws (repeat (repeat false (length ws)) N) = [repeat (repeat 0%Z (list_sum ws)) N].
Proof.
  induction N as [|N IH]; [reflexivity|]. cbn [repeat pattern_data]. rewrite IH, pattern_none. reflexivity.
Qed.

Lemma C63_prior_proof : forall lg, (forall x, 0 < x -> lg (x + 1) = lg x + ln x) ->
  forall ws M prior N TT (St : list edge -> list (list nat) -> tstate), (1 <= M <= 128)%nat -> (1 <= length ws <= 2 ^ 15)%nat -> (forall w, In w ws -> (1 <= w)%nat) ->
  length prior = (length ws * (length ws - 1) / 2)%nat -> enumerates_trees (length ws) TT ->
  let tb := table_of ws (repeat (repeat 0%Z (list_sum ws)) N) in
  (forall T A, In T TT -> In A (matrices N (length ws) M) -> full_state tb prior M (with_tree tb T) A (St T A)) ->
  exists lp c, 0 < c /\
    (forall T A, In T TT -> In A (matrices N (length ws) M) -> logprob lg tb M (St T A) = Ok (lp T A)) /\
    forall T, In T TT -> sumf (matrices N (length ws) M) (fun A => exp (lp T A + tree_prior_mass prior T)) = c * exp (tree_prior_mass prior T).
Proof.
  intros lg REC ws M prior N TT St HM HV WP LP ET tb FS.
  destruct (C63_proof lg REC ws M prior N HM HV WP LP) as (c & Pc & H).
  exists (fun T A => Lform lg tb M (St T A)), c. split; [exact Pc|].
  assert (LO : forall T A, In T TT -> In A (matrices N (length ws) M) -> logprob lg tb M (St T A) = Ok (Lform lg tb M (St T A))).
  { intros T A IT IA. apply logprob_Ok. apply (FS T A IT IA). }
  split; [exact LO|]. intros T IT.
  destruct (H T (repeat (repeat false (length ws)) N) (fun _ => St T)) as (lp & L1 & L2).
  - now apply (proj2 ET).
  - apply repeat_length.
  - apply Forall_forall. intros p I. apply repeat_spec in I. subst. apply repeat_length.
  - intros D A ID IA. rewrite data_none in ID. destruct ID as [<-|[]]. now apply FS.
  - rewrite data_none in L1, L2. rewrite sumf_cons, sumf_nil, Rplus_0_r in L2. rewrite <- L2, <- sumf_scal_r. apply sumf_ext. intros A IA.
    rewrite exp_plus. f_equal. f_equal. pose proof (L1 _ A (or_introl eq_refl) IA) as Q. fold tb in Q. rewrite LO in Q by auto. now injection Q.
Qed.

Lemma pair_tree : canonical_tree 2 [(0, 1)]%nat.
Proof.
  split; [|split].
  - split; [reflexivity|]. split.
    + intros u v [E|[]]. inversion E; subst; lia.
    + intros u v Hu Hv. assert (A : forall a b, adj [(0, 1)]%nat a b -> reach [(0, 1)]%nat a b) by (intros; now apply reach_adj).
      destruct u as [|[|u]], v as [|[|v]]; try lia; try apply reach_refl; apply A; [left|right]; now left.
  - intros x y [E|[]]. inversion E; subst; lia.
  - repeat constructor.
Qed.
