(** triangular_to_square and estimate_tree. *)
From Coq Require Import List Arith Lia Bool Permutation Sorted Reals Lra.
From Verif Require Import Base L_Base Spec_Graph Spec_Sum Spec_Trees Spec_MST L_Graph L_Sum M_Structure L_Pairing L_MakeTree
  M_EstimateTree L_SampleTree L_AllTrees.
Import ListNotations.
Open Scope nat_scope.

Lemma tri2 : forall V, 2 * tri V = V * (V - 1).
Proof.
  intros. unfold tri. assert (E : exists k, V * (V - 1) = 2 * k).
  { destruct (Nat.Even_or_Odd V) as [[k E]|[k E]]; [exists (k * (V - 1))|exists (V * k)]; subst; nia. }
  destruct E as [k ->]. replace (2 * k) with (k * 2) by lia. rewrite Nat.div_mul by lia. lia.
Qed.

Lemma triangle_dim_tri : forall V, 1 <= V -> triangle_dim (tri V) = V.
Proof.
  intros. unfold triangle_dim. assert (S : Nat.sqrt (1 + 8 * tri V) = 2 * V - 1).
  { apply Nat.sqrt_unique. pose proof (tri2 V). nia. }
  rewrite S. replace (2 + (2 * V - 1)) with (1 + V * 2) by lia. rewrite Nat.div_add by lia. reflexivity.
Qed.

Section Square.
Context {A : Type} (zero : A).
Definition at2 (m : list (list A)) (i j : nat) : A := nth j (nth i m []) zero.
Definition sq (V : nat) (m : list (list A)) : Prop := length m = V /\ forall row, In row m -> length row = V.

Lemma sq_row : forall V m i, sq V m -> i < V -> length (nth i m []) = V.
Proof. intros V m i [L H] Hi. apply H. apply nth_In. lia. Qed.

Lemma put2_Ok : forall V m i j x, sq V m -> i < V -> j < V ->
  exists m', put2 m i j x = Ok m' /\ sq V m' /\ at2 m' i j = x /\
    forall a b, (a, b) <> (i, j) -> at2 m' a b = at2 m a b.
Proof.
  intros V m i j x SQ Hi Hj. pose proof SQ as [L H]. pose proof (sq_row V m i SQ Hi) as LR.
  unfold put2. rewrite (get_Ok _ _ _ _ []) by lia. cbn [bind]. rewrite put_Ok by lia. cbn [bind].
  rewrite put_Ok by lia. eexists. split; [reflexivity|]. split; [|split].
  - split. now rewrite upd_length. intros row I. apply In_nth_error in I. destruct I as [k E].
    assert (k < length (upd m i (upd (nth i m []) j x))) by (apply nth_error_Some; congruence). rewrite upd_length in H0.
    rewrite (nth_error_nth' _ []) in E by (rewrite upd_length; auto). inversion E; subst row. clear E.
    destruct (Nat.eq_dec i k) as [<-|N].
    + rewrite nth_upd_same by auto. now rewrite upd_length.
    + rewrite nth_upd_other by auto. apply H. apply nth_In. lia.
  - unfold at2. rewrite nth_upd_same by lia. now rewrite nth_upd_same by lia.
  - intros a b N. unfold at2. destruct (Nat.eq_dec i a) as [<-|Na].
    + rewrite nth_upd_same by lia. rewrite nth_upd_other; auto.
    + now rewrite nth_upd_other by auto.
Qed.

(** a batch of assignments at distinct places *)
Lemma put2_fold : forall V (l : list (nat * nat * A)) m, sq V m ->
  (forall i j x, In (i, j, x) l -> i < V /\ j < V) -> NoDup (map fst l) ->
  exists m', foldM (fun m '(i, j, x) => put2 m i j x) l m = Ok m' /\ sq V m' /\
    (forall i j x, In (i, j, x) l -> at2 m' i j = x) /\
    (forall a b, ~ In (a, b) (map fst l) -> at2 m' a b = at2 m a b).
Proof.
  induction l as [|[[i j] x] l IH]; intros m SQ R ND.
  - exists m. simpl. repeat split; auto; try apply SQ. intros ? ? ? [].
  - simpl in ND. inversion ND; subst. destruct (R i j x) as [Hi Hj]; [now left|].
    destruct (put2_Ok V m i j x SQ Hi Hj) as (m1 & E1 & SQ1 & A1 & B1). cbn [foldM]. rewrite E1. cbn [bind].
    destruct (IH m1 SQ1) as (m2 & E2 & SQ2 & A2 & B2); auto. { intros; eapply R; right; eauto. }
    exists m2. split; auto. split; auto. split.
    + intros a b y [X|I]; [inversion X; subst; now rewrite B2|auto].
    + intros a b N. simpl in N. rewrite B2 by tauto. apply B1. intuition congruence.
Qed.

Lemma foldM_map : forall X Y S (f : S -> Y -> result S) (g : X -> Y) l s,
  foldM f (map g l) s = foldM (fun s x => f s (g x)) l s.
Proof. induction l; simpl; intros; auto. destruct (f s (g a)); simpl; auto. Qed.

Lemma foldM_ext : forall X S (f g : S -> X -> result S) l s, (forall s x, f s x = g s x) -> foldM f l s = foldM g l s.
Proof. induction l; simpl; intros; auto. rewrite H. destruct (g s a); simpl; auto. Qed.

Lemma In_combine_nth : forall X Y (l : list X) (m : list Y) x y, In (x, y) (combine l m) ->
  exists k, nth_error l k = Some x /\ nth_error m k = Some y.
Proof.
  induction l; destruct m; intros x0 y0 I; simpl in I; try tauto. destruct I as [E|I].
  - inversion E; subst. exists 0. auto.
  - destruct (IHl _ _ _ I) as [k K]. exists (S k). auto.
Qed.

Lemma nth_In_combine : forall X Y (l : list X) (m : list Y) x y k,
  nth_error l k = Some x -> nth_error m k = Some y -> In (x, y) (combine l m).
Proof.
  induction l; destruct m; intros x0 y0 [|k]; simpl; intros; try discriminate.
  - inversion H; inversion H0; subst; auto.
  - right. eauto.
Qed.

Lemma combine_fst : forall X Y (l : list X) (m : list Y), length l = length m -> map fst (combine l m) = l.
Proof. induction l; destruct m; simpl; intros; auto; try discriminate. f_equal. auto. Qed.

Lemma triangular_to_square_Ok : forall V grid triangle, 1 <= V -> make_complete_graph V = Ok grid ->
  length triangle = tri V ->
  exists m, triangular_to_square zero grid triangle = Ok m /\ sq V m /\
    (forall v, v < V -> at2 m v v = zero) /\
    (forall u v, u < V -> v < V -> u <> v -> at2 m u v = nth (find_complete_edge u v) triangle zero).
Proof.
  intros V grid triangle HV EG LT. rewrite make_complete_graph_Ok in EG. inversion EG; subst grid. clear EG.
  unfold triangular_to_square. rewrite complete_grid_length, LT, Nat.eqb_refl. cbn [assert_ bind].
  rewrite triangle_dim_tri by auto. fold (tri V). rewrite Nat.eqb_refl. cbn [assert_ bind].
  set (l := combine (complete_grid V) triangle).
  assert (LL : forall k a b x, In (k, a, b, x) l -> a < b /\ b < V /\ x = nth (find_complete_edge a b) triangle zero).
  { intros k a b x I. apply In_combine_nth in I. destruct I as (i & E1 & E2). apply complete_grid_nth in E1.
    destruct E1 as (-> & H1 & H2 & H3). split; auto. split; auto. rewrite H3. erewrite nth_error_nth; eauto. }
  assert (LC : forall a b, a < b -> b < V -> exists k x, In (k, a, b, x) l).
  { intros a b H1 H2. pose proof (fce_range V a b ltac:(lia) ltac:(lia) ltac:(lia)) as FR.
    exists (find_complete_edge a b), (nth (find_complete_edge a b) triangle zero).
    eapply nth_In_combine; [now apply complete_grid_fce|]. apply nth_error_nth'. lia. }
  assert (LF : map (fun t => (snd (fst (fst t)), snd (fst t))) l = pair_loop V).
  { transitivity (map (fun t => (snd (fst t), snd t)) (map fst l)); [now rewrite map_map|].
    unfold l. rewrite combine_fst by (rewrite complete_grid_length; auto).
    unfold complete_grid. rewrite map_map. rewrite <- (map_id (pair_loop V)) at 2. apply map_ext. intros [a b]. reflexivity. }
  assert (ND : NoDup (map (fun t => (snd (fst (fst t)), snd (fst t))) l)) by (rewrite LF; apply pair_loop_NoDup).
  set (l1 := map (fun t => (snd (fst (fst t)), snd (fst t), snd t)) l : list (nat * nat * A)).
  set (l2 := map (fun t => (snd (fst t), snd (fst (fst t)), snd t)) l : list (nat * nat * A)).
  assert (F1 : map fst l1 = pair_loop V). { unfold l1. rewrite map_map. rewrite <- LF. apply map_ext. intros [[[k a] b] x]. reflexivity. }
  assert (F2 : map fst l2 = map (fun p => (snd p, fst p)) (pair_loop V)).
  { unfold l2. rewrite map_map, <- LF, map_map. apply map_ext. intros [[[k a] b] x]. reflexivity. }
  assert (I1 : forall i j x, In (i, j, x) l1 -> exists k, In (k, i, j, x) l).
  { intros i j x I. apply in_map_iff in I. destruct I as ([[[k a] b] y] & E & I). simpl in E. inversion E; subst. eauto. }
  assert (I2 : forall i j x, In (i, j, x) l2 -> exists k, In (k, j, i, x) l).
  { intros i j x I. apply in_map_iff in I. destruct I as ([[[k a] b] y] & E & I). simpl in E. inversion E; subst. eauto. }
  destruct (put2_fold V l1 (repeat (repeat zero V) V)) as (m1 & E1 & SQ1 & A1 & B1).
  { split. apply repeat_length. intros row I. apply repeat_spec in I. subst. apply repeat_length. }
  { intros i j x I. apply I1 in I. destruct I as (k & I). apply LL in I. lia. }
  { rewrite F1. apply pair_loop_NoDup. }
  destruct (put2_fold V l2 m1 SQ1) as (m2 & E2 & SQ2 & A2 & B2).
  { intros i j x I. apply I2 in I. destruct I as (k & I). apply LL in I. lia. }
  { rewrite F2. apply FinFun.Injective_map_NoDup; [|apply pair_loop_NoDup]. intros [a b] [c d] X. inversion X; auto. }
  unfold l1 in E1. rewrite foldM_map in E1. unfold l2 in E2. rewrite foldM_map in E2.
  exists m2. split; [|split; [|split]]; auto.
  - erewrite foldM_ext. rewrite E1. cbn [bind]. erewrite foldM_ext. exact E2.
    intros s [[[k a] b] x]; reflexivity. intros s [[[k a] b] x]; reflexivity.
  - intros v Hv. rewrite B2, B1.
    + unfold at2. rewrite (nth_indep _ _ (repeat zero V)) by (rewrite repeat_length; auto).
      rewrite nth_repeat. apply nth_repeat.
    + rewrite F1, pair_loop_In. lia.
    + rewrite F2. intros X. apply in_map_iff in X. destruct X as ([a b] & E & X). apply pair_loop_In in X. simpl in E. inversion E; lia.
  - intros u v Hu Hv N. destruct (lt_dec u v) as [L|L].
    + rewrite B2.
      * destruct (LC u v L Hv) as (k & x & I). rewrite (A1 u v x). now apply LL in I.
        apply in_map_iff. exists (k, u, v, x). auto.
      * rewrite F2. intros X. apply in_map_iff in X. destruct X as ([a b] & E & X). apply pair_loop_In in X. simpl in E. inversion E; lia.
    + assert (L' : v < u) by lia. destruct (LC v u L' Hu) as (k & x & I). rewrite (A2 u v x).
      * apply LL in I. rewrite fce_sym. apply I.
      * apply in_map_iff. exists (k, v, u, x). auto.
Qed.
End Square.

Lemma C09_proof : forall A (zero : A) V grid triangle, 1 <= V -> make_complete_graph V = Ok grid ->
  length triangle = V * (V - 1) / 2 ->
  exists m, triangular_to_square zero grid triangle = Ok m /\
    length m = V /\ (forall row, In row m -> length row = V) /\
    forall u v, u < V -> v < V ->
      nth_error (nth u m []) v = Some (if u =? v then zero else nth (find_complete_edge u v) triangle zero).
Proof.
  intros A zero V grid triangle HV EG LT.
  destruct (triangular_to_square_Ok zero V grid triangle HV EG LT) as (m & E & SQ & D & O).
  exists m. split; auto. split; [apply SQ|]. split; [apply SQ|]. intros u v Hu Hv.
  rewrite (nth_error_nth' _ zero) by (rewrite (sq_row V m u SQ Hu); auto). f_equal. fold (at2 zero m u v).
  destruct (Nat.eqb_spec u v) as [->|N]; auto.
Qed.

(** ** estimate_tree *)
Open Scope R_scope.


Lemma list_min_le1 : forall l x, list_min x l <= x.
Proof. induction l; simpl; intros. lra. eapply Rle_trans; [apply IHl|apply Rmin_l]. Qed.

Lemma list_min_le : forall l x y, In y (x :: l) -> list_min x l <= y.
Proof.
  induction l; intros x y [<-|I]; try tauto; try apply list_min_le1; try contradiction.
  simpl. destruct I as [->|I].
  - eapply Rle_trans; [apply list_min_le1|apply Rmin_r].
  - apply IHl. now right.
Qed.

Lemma mat_min_Ok : forall m, concat m <> [] -> exists x, mat_min m = Ok x /\ forall row y, In row m -> In y row -> x <= y.
Proof.
  intros m NE. unfold mat_min. destruct (concat m) as [|x l] eqn:E; [congruence|]. exists (list_min x l). split; auto.
  intros row y I J. apply list_min_le. rewrite <- E. apply in_concat. eauto.
Qed.

Lemma entry_map : forall V w (f : R -> R) x y, sq V w -> (x < V)%nat -> (y < V)%nat ->
  entry (map (map f) w) x y = f (entry w x y).
Proof.
  intros V w f x y SQ Hx Hy. unfold entry. 
  rewrite (nth_indep _ [] (map f [])) by (rewrite map_length; destruct SQ; lia). rewrite map_nth.
  rewrite (nth_indep _ 0 (f 0)) by (rewrite map_length, (sq_row V w x SQ Hx); lia). now rewrite map_nth.
Qed.

Lemma sq_map : forall V w (f : R -> R), sq V w -> sq V (map (map f) w).
Proof.
  intros V w f [L H]. split. now rewrite map_length. intros row I. apply in_map_iff in I. destruct I as (r & <- & I).
  rewrite map_length. auto.
Qed.

Lemma entry_at2 : forall w x y, entry w x y = at2 0 w x y.
Proof. reflexivity. Qed.

(** total logit of a tree *)
Definition tree_logit (logits : list R) (T : list edge) : R := sumf T (fun '(x, y) => nth (find_complete_edge x y) logits 0).

Lemma sumf_Forall2 : forall A B (f : A -> R) (g : B -> R) l m, Forall2 (fun a b => f a = g b) l m -> sumf l f = sumf m g.
Proof. induction 1; unfold sumf; simpl; auto. unfold sumf in IHForall2. rewrite H, IHForall2. auto. Qed.

Lemma sort_pair_logit : forall logits T, tree_logit logits (pair_sort (map sort_pair T)) = tree_logit logits T.
Proof.
  intros. unfold tree_logit. rewrite (sumf_perm _ _ _ (pair_sort_perm _)). rewrite sumf_map. apply sumf_ext.
  intros [a b] _. unfold sort_pair. simpl. destruct (b <? a)%nat; auto. now rewrite fce_sym.
Qed.

Lemma tree_neq : forall V T, spanning_tree V T -> forall x y, In (x, y) T -> x <> y /\ (x < V)%nat /\ (y < V)%nat.
Proof.
  intros V T ST x y I. destruct ST as (L & R & C). destruct (R x y I). split; auto. intros ->.
  assert (HV : (0 < V)%nat) by lia.
  destruct (tree_rooted V T 0 (conj L (conj R C)) HV) as (par & dep & RT).
  destruct (rt_edge _ _ _ _ _ RT y y I) as [[N P]|[N P]]; pose proof (L_Program.par_neq _ _ _ _ _ RT y ltac:(auto) N); congruence.
Qed.

Lemma estimate_tree_Ok : forall mst V grid logits, mst_contract mst -> (1 <= V)%nat ->
  make_complete_graph V = Ok grid -> length logits = length grid ->
  exists T, estimate_tree mst grid logits = Ok T /\ canonical_tree V T /\
    forall T', spanning_tree V T' -> tree_logit logits T' <= tree_logit logits T.
Proof.
  intros mst V grid logits MC HV EG LL. pose proof EG as EG'. rewrite make_complete_graph_Ok in EG'. inversion EG'; subst grid. clear EG'.
  unfold estimate_tree. rewrite LL, Nat.eqb_refl. cbn [assert_ bind].
  rewrite complete_grid_length in LL.
  destruct (triangular_to_square_Ok 0 V _ logits HV EG LL) as (m & E & SQ & D & O). rewrite E. cbn [bind].
  set (w1 := map (map (fun x => x * -1)) m). assert (SQ1 : sq V w1) by now apply sq_map.
  destruct (mat_min_Ok w1) as (mn & EM & MM).
  { intros X. destruct m as [|row m'] eqn:EQ; [destruct SQ; simpl in *; lia|].
    assert (LR : length row = V) by (apply SQ; now left). destruct row; simpl in *; [lia|discriminate]. }
  rewrite EM. cbn [bind].
  set (w2 := map (map (fun x => x - mn)) w1). assert (SQ2 : sq V w2) by now apply sq_map.
  set (w := map (map (fun x => x + 1)) w2). assert (SQw : sq V w) by now apply sq_map.
  assert (EW : forall x y, (x < V)%nat -> (y < V)%nat -> entry w x y = - entry m x y - mn + 1).
  { intros x y Hx Hy. unfold w. rewrite (entry_map V) by auto. unfold w2. rewrite (entry_map V) by auto. unfold w1.
    rewrite (entry_map V) by auto. lra. }
  assert (GE : forall x y, (x < V)%nat -> (y < V)%nat -> mn <= - entry m x y).
  { intros x y Hx Hy. replace (- entry m x y) with (entry w1 x y) by (unfold w1; rewrite (entry_map V) by auto; lra).
    apply (MM (nth x w1 [])). apply nth_In. destruct SQ1; lia. apply nth_In. rewrite (sq_row V w1 x SQ1); auto. }
  assert (POS : forall x y, (x < V)%nat -> (y < V)%nat -> entry w x y <> 0).
  { intros x y Hx Hy. rewrite EW by auto. pose proof (GE x y Hx Hy). lra. }
  assert (EM2 : forall x y, (x < V)%nat -> (y < V)%nat -> x <> y -> entry m x y = nth (find_complete_edge x y) logits 0).
  { intros. rewrite entry_at2. now apply O. }
  assert (US : forall T, spanning_tree V T -> uses_present_edges w T).
  { intros T ST x y I. destruct (tree_neq V T ST x y I) as (_ & Hx & Hy). auto. }
  assert (SYM : sym_matrix V w).
  { split; [apply SQw|]. split; [apply SQw|]. intros x y Hx Hy. rewrite !EW by auto.
    destruct (Nat.eq_dec x y) as [->|N]; auto. rewrite !EM2 by auto. now rewrite fce_sym. }
  assert (TOT : forall T, spanning_tree V T -> total w T = INR (length T) * (1 - mn) - tree_logit logits T).
  { intros T ST. unfold total, tree_logit.
    rewrite (sumf_ext _ _ (fun e : edge => (1 - mn) - (let '(x, y) := e in nth (find_complete_edge x y) logits 0))).
    - rewrite sumf_minus, sumf_const. reflexivity.
    - intros [x y] I. destruct (tree_neq V T ST x y I) as (N & Hx & Hy). rewrite EW, EM2 by auto. lra. }
  assert (EX : exists T, spanning_tree V T).
  { eexists. apply L_MakeTree.path_spanning. exact HV. }
  destruct EX as [T0 ST0].
  destruct (MC V w SYM) as (ST & _ & MIN). { eauto. }
  set (T := pair_sort (map sort_pair (mst w))).
  assert (CT : canonical_tree V T).
  { assert (P : Permutation T (map norm (mst w))).
    { unfold T. rewrite pair_sort_perm. rewrite (map_ext _ _ sort_pair_norm). reflexivity. }
    assert (SN : spanning_tree V (map norm (mst w))) by now apply spanning_tree_norm.
    assert (ST' : spanning_tree V T) by (eapply spanning_tree_perm; [symmetry; exact P|auto]).
    split; auto. split; [|apply pair_sort_sorted].
    intros x y I. destruct (tree_neq V T ST' x y I) as (N & _). apply (Permutation_in _ P) in I.
    apply in_map_iff in I. destruct I as ([a b] & X & _). unfold norm in X. inversion X; subst. lia. }
  assert (LT : (length T + 1 = V)%nat). { destruct CT as ((L & _) & _). lia. }
  fold T. replace (length T + 1 =? length w)%nat with true.
  2:{ symmetry. apply Nat.eqb_eq. rewrite LT. symmetry. apply SQw. }
  cbn [assert_ bind]. exists T. split; auto. split; auto.
  intros T' ST'. unfold T. rewrite sort_pair_logit.
  pose proof (MIN T' ST' (US T' ST')) as M. rewrite !TOT in M by auto.
  assert (LE : length (mst w) = length T') by (destruct ST, ST'; lia). rewrite LE in M. lra.
Qed.

(** the contract can be met *)
Definition best (w : list (list R)) (l : list (list edge)) : option (list edge) :=
  fold_right (fun T b => match b with None => Some T | Some B => if Rle_dec (total w T) (total w B) then Some T else b end) None l.

Lemma best_spec : forall w l, match best w l with
  | None => l = []
  | Some B => In B l /\ forall T, In T l -> total w B <= total w T end.
Proof.
  induction l; simpl; auto. destruct (best w l) as [B|].
  - destruct IHl as [I M]. destruct (Rle_dec (total w a) (total w B)).
    + split; auto. intros T [->|J]; [lra|]. specialize (M T J). lra.
    + split; auto. intros T [->|J]; auto. lra.
  - subst. split; auto. intros T [->|[]]. lra.
Qed.

Definition present_dec (w : list (list R)) (T : list edge) : bool :=
  forallb (fun '(x, y) => if Req_EM_T (entry w x y) 0 then false else true) T.

Definition naive_mst (w : list (list R)) : list edge :=
  match best w (filter (present_dec w) (all_trees (length w))) with Some T => T | None => [] end.

Lemma present_dec_iff : forall w T, present_dec w T = true <-> uses_present_edges w T.
Proof.
  intros. unfold present_dec, uses_present_edges. rewrite forallb_forall. split.
  - intros H x y I. specialize (H _ I). simpl in H. destruct (Req_EM_T (entry w x y) 0); congruence.
  - intros H [x y] I. apply H in I. destruct (Req_EM_T (entry w x y) 0); congruence.
Qed.

Lemma naive_mst_contract : mst_contract naive_mst.
Proof.
  intros V w (LW & LR & SYM) (T0 & ST0 & U0).
  assert (CAN : forall T, spanning_tree V T -> uses_present_edges w T ->
    exists C, In C (filter (present_dec w) (all_trees V)) /\ total w C = total w T).
  { intros T ST U. exists (pair_sort (map norm T)).
    assert (P : Permutation (pair_sort (map norm T)) (map norm T)) by apply pair_sort_perm.
    assert (ST' : spanning_tree V (pair_sort (map norm T))).
    { eapply spanning_tree_perm; [symmetry; exact P|]. now apply spanning_tree_norm. }
    assert (NE : forall a b, In (a, b) T -> entry w (fst (norm (a, b))) (snd (norm (a, b))) = entry w a b).
    { intros a b I. destruct (tree_neq V T ST a b I) as (_ & Ha & Hb). unfold norm. simpl.
      destruct (Nat.le_gt_cases a b).
      - rewrite Nat.min_l, Nat.max_r by lia. auto.
      - rewrite Nat.min_r, Nat.max_l by lia. apply SYM; auto. }
    split.
    - apply filter_In. split.
      + apply all_trees_enumerate. split; auto. split; [|apply pair_sort_sorted].
        intros x y I. destruct (tree_neq V _ ST' x y I) as (N & _). apply (Permutation_in _ P) in I.
        apply in_map_iff in I. destruct I as ([a b] & X & _). unfold norm in X. inversion X; subst. lia.
      + apply present_dec_iff. intros x y I. apply (Permutation_in _ P) in I. apply in_map_iff in I.
        destruct I as ([a b] & X & I). pose proof (NE a b I) as Y. rewrite X in Y. simpl in Y. rewrite Y. now apply U.
    - unfold total. rewrite (sumf_perm _ _ _ P), sumf_map. apply sumf_ext. intros [a b] I.
      pose proof (NE a b I) as Y. destruct (norm (a, b)). exact Y. }
  unfold naive_mst. rewrite LW. pose proof (best_spec w (filter (present_dec w) (all_trees V))) as B.
  destruct (best w _) as [T|].
  - destruct B as [I M]. apply filter_In in I. destruct I as [I PD]. apply all_trees_enumerate in I. apply present_dec_iff in PD.
    split; [apply I|]. split; auto. intros T' ST' U'. destruct (CAN T' ST' U') as (C & IC & <-). auto.
  - exfalso. destruct (CAN T0 ST0 U0) as (C & IC & _). rewrite B in IC. auto.
Qed.
