(** The float32 outward pass of [TreeCatServer.sample], in expectation. *)
From Coq Require Import List Arith Bool ZArith Reals Lra Lia Permutation FunctionalExtensionality.
From Flocq Require Import Core IEEE754.BinarySingleNaN.
From Verif Require Import Base L_Base Spec_Graph L_Graph Spec_Sum L_Sum M_Structure L_Pairing L_MakeTree L_Program L_ProgramValid Spec_Program L_Center L_Prop1 M_Rand L_Rand M_Util L_Quantize Spec_Ragged L_Ragged M_Array Spec_Trees Spec_MST M_Training Spec_Stats L_Stats L_Trainer Spec_Joint Spec_Conditional L_Asg L_BP L_BPVec L_AddRow M_Serving Spec_Serving L_Server L_Inward L_Logprob L_Draws L_Sample
  M_Float32 M_Train32 M_Serving32 M_Sample32 Spec_Law L_Law1.
Import ListNotations.
Open Scope R_scope.
Notation val := (@B2R 24 128).

Lemma ideal_bind {A B} (p : fprog A) (f : A -> fprog B) : ideal (fbind p f) = rbind (ideal p) (fun a => ideal (f a)).
Proof. induction p as [a|e|w k IH]; cbn [fbind ideal rbind]; auto. f_equal. apply functional_extensionality. intros i. apply IH. Qed.
Lemma ideal_fold {A T} (f : T -> A -> fprog T) l : forall s, ideal (ffold f l s) = rfold (fun s a => ideal (f s a)) l s.
Proof. induction l as [|a l IH]; intros s; cbn [ffold rfold]; auto. rewrite ideal_bind. f_equal. apply functional_extensionality. intros s'. apply IH. Qed.
Lemma ideal_lift {A} (x : result A) : ideal (flift x) = lift x.
Proof. destruct x; reflexivity. Qed.
Lemma map_val_vec M (f : nat -> f32) : map val (vec M f) = vec M (fun k => val (f k)).
Proof. unfold vec. now rewrite map_map. Qed.

Lemma ideal_classes M N mo v vs : ideal (draw_classes32 M N mo v vs) = draw_classes M N (fun n k => val (mo n k)) v vs.
Proof.
  unfold draw_classes32, draw_classes. rewrite ideal_fold. f_equal. apply functional_extensionality. intros a. apply functional_extensionality. intros n.
  cbn [ideal]. now rewrite map_val_vec.
Qed.

Section Out32.
Variables (ws : list nat) (V M : nat) (edges : list (nat * nat)) (sx : server) (s : server32).
Hypothesis SF : sfacts ws V M edges sx.
Notation es := (grid_edges (make_tree edges)).
Variables (r : nat) (par dep : nat -> nat).
Hypothesis RT : rooted V es r par dep.
Variable np : list (nat * option nat * list nat).
Hypothesis BL : bfs_list V r par np.
Variables (lib : numlib) (N : nat) (counts data : list Z).
Hypothesis CL : length counts = V.
Hypothesis DL : length data = list_sum ws.
Notation cnt v := (Z.to_nat (nth v counts 0%Z)).
Hypothesis CW : forall v, (v < V)%nat -> (0 < nth v counts 0%Z)%Z -> block ws v <> [].
Notation SAMP := (fun st i => ideal (sample_instr32_with lib (observe_nonzero32 lib) s N counts data st i)).
Notation off v := (list_sum (firstn v ws)).
Hypothesis EV : s3_V s = V.
Hypothesis EM : s3_M s = M.
Hypothesis ERI : s3_ri s = make_ragged_index ws.
Hypothesis FP : forall v q k, (v < V)%nat -> In q (block ws v) -> (k < M)%nat -> 0 < val (s3_feat s q k).
Variable mn : nat -> nat -> f32.

(** The weights that class [k] of feature [v] is drawn by, given the other classes. *)
Definition w32 (z : nat -> nat) (v k : nat) : R :=
  val (if (v =? r)%nat then mn r k else rescaled M (fun k => fmul (mn v k) (t32 s edges par v (z (par v)) k)) k).
Hypothesis WP : forall z v k, (forall u, (z u < M)%nat) -> (v < V)%nat -> (k < M)%nat -> 0 < w32 z v k.

Fixpoint rv32 (fin : (nat -> Z) -> R) (l : list nat) (z : nat -> nat) (x : nat -> Z) : R :=
  match l with
  | [] => fin x
  | v :: t => sumf (seq 0 M) (fun k => w32 z v k / sumf (seq 0 M) (w32 z v) *
                cellstep (off v) (nth v ws 0%nat) (fun q => val (s3_feat s q k)) (cnt v) (rv32 fin t (set1 z v k)) x)
  end.

Lemma cells_expect32 v (cls : nat -> nat) (Hv : (v < V)%nat) : (forall n, (cls n < M)%nat) ->
  forall k, ((0 < k)%nat -> block ws v <> []) -> forall fs (h : nat -> (nat -> Z) -> R) G b,
  (forall fs', G (Ok fs') = prodf (seq 0 N) (fun n => h n (fs' n))) ->
  expect (rfold (fun fs (_ : nat) => ideal (draw_cells32 s N (off v) (off (v + 1)) cls fs)) (seq b k) fs) G =
  prodf (seq 0 N) (fun n => cellstep (off v) (nth v ws 0%nat) (fun q => val (s3_feat s q (cls n))) k (h n) (fs n)).
Proof.
  intros HC. induction k; intros NE fs h G b HG.
  - cbn [seq rfold expect cellstep]. apply HG.
  - cbn [seq rfold]. rewrite expect_bind. unfold draw_cells32 at 1. rewrite ideal_fold. cbn [ideal].
    assert (BW : seq (off v) (off (v + 1) - off v) = block ws v) by (eapply block_width; eauto).
    assert (BN : block ws v <> []) by (apply NE; lia).
    rewrite (prod_cat (fun n => map val (map (fun r => s3_feat s r (cls n)) (seq (off v) (off (v + 1) - off v))))
       (fun fs n i => set2 fs n (off v + i) (int8 (fs n (off v + i) + 1)))%nat (fun fs n => fs n)
       (fun n i x => set1 x (off v + i) (int8 (x (off v + i) + 1)))%nat (fun _ => True))
      with (g := fun n => cellstep (off v) (nth v ws 0%nat) (fun q => val (s3_feat s q (cls n))) k (h n)) (done := []); auto.
    + unfold prodf at 1. cbn [fold_right map]. rewrite Rmult_1_l. apply prodf_ext. intros n I. cbn [cellstep].
      rewrite BW, !map_length, map_map. unfold rsum. rewrite sumf_map. unfold block at 1. rewrite seq_length.
      assert (SH : forall b n0 (f : nat -> R), sumf (seq b n0) f = sumf (seq 0 n0) (fun i => f (b + i)%nat)).
      { clear. intros b n0 f. revert b. induction n0; intros b; [reflexivity|]. cbn [seq]. rewrite !sumf_cons, Nat.add_0_r. f_equal.
        rewrite IHn0, <- (seq_shift n0 0), sumf_map. apply sumf_ext. intros. f_equal. lia. }
      rewrite (SH (off v)). apply sumf_ext. intros i Hi. apply in_seq in Hi. f_equal. f_equal.
      rewrite nth_indep with (d' := (fun r => val (s3_feat s r (cls n))) 0%nat) by (rewrite map_length; unfold block; rewrite seq_length; lia).
      rewrite (map_nth (fun r => val (s3_feat s r (cls n)))). unfold block. rewrite seq_nth by lia. reflexivity.
    + intros st n i. apply functional_extensionality. intros q. unfold set2, set1. rewrite Nat.eqb_refl. reflexivity.
    + intros st n i n' Hn. apply functional_extensionality. intros q. unfold set2. apply Nat.eqb_neq in Hn. rewrite Hn. reflexivity.
    + apply seq_NoDup.
    + intros n I. rewrite BW, map_map. split; [destruct (block ws v); [congruence|discriminate]|].
      unfold rsum. rewrite sumf_map. apply Rgt_not_eq. apply sumf_pos'; auto. intros q Hq. eapply FP; eauto.
    + intros fs' _. unfold prodf at 1. cbn [fold_right map]. rewrite Rmult_1_l. apply IHk; auto.
Qed.

Lemma down_expect32 v (Hv : (v < V)%nat) mo vs fs (K : sstate32 -> rprog sstate32) G (h : nat -> (nat -> nat) -> (nat -> Z) -> R) :
  classes_ok M vs ->
  (forall n k, (n < N)%nat -> (k < M)%nat -> val (mo v n k) = w32 (fun u => vs u n) v k) ->
  (forall vs' fs', classes_ok M vs' -> expect (K (mn, mo, vs', fs')) G = prodf (seq 0 N) (fun n => h n (fun u => vs' u n) (fs' n))) ->
  expect (rbind (SAMP (mn, mo, vs, fs) (I OP_DOWN v 0 0)) K) G =
  prodf (seq 0 N) (fun n => sumf (seq 0 M) (fun k => w32 (fun u => vs u n) v k / sumf (seq 0 M) (w32 (fun u => vs u n) v) *
    cellstep (off v) (nth v ws 0%nat) (fun q => val (s3_feat s q k)) (cnt v) (h n (set1 (fun u => vs u n) v k)) (fs n))).
Proof.
  intros CO HW HK. cbn [sample_instr32_with]. rewrite EV, EM.
  unfold index at 1. rewrite (proj2 (Nat.ltb_lt v V)) by auto. cbn [flift fbind]. rewrite ideal_bind, ideal_classes, rbind_assoc, expect_bind.
  rewrite (classes_expect ws V M edges sx SF N counts data CL DL (fun _ _ => 1) ltac:(intros ? ? ? ?; lra) (fun n k => w32 (fun u => vs u n) v k) v _ vs
    (fun n z => cellstep (off v) (nth v ws 0%nat) (fun q => val (s3_feat s q (z v))) (cnt v) (h n z) (fs n))); auto.
  - apply prodf_ext. intros n _. apply sumf_ext. intros m _. now rewrite set1_same.
  - intros n Hn. exists 1. split; [lra|]. intros k Hk. rewrite Rmult_1_l. now apply HW.
  - intros vs' C'. rewrite ERI. pose proof (sf_ri _ _ _ _ _ SF) as SR. rewrite <- SR. rewrite !(sri_get ws V M edges sx SF) by lia. cbn [flift fbind].
    rewrite (get_Ok _ IndexError counts v 0%Z) by lia. cbn [flift fbind]. unfold index.
    assert (FB : forallb (fun n => vs' v n <? M)%nat (seq 0 N) = true).
    { apply forallb_forall. intros n _. apply Nat.ltb_lt. apply C'. }
    rewrite FB. cbn [flift fbind]. rewrite ideal_bind, ideal_fold, rbind_assoc, expect_bind.
    rewrite (cells_expect32 v (vs' v) Hv) with (h := fun n => h n (fun u => vs' u n)); auto.
    + intros HC. apply CW; auto. lia.
    + intros fs'. cbn [ideal rbind]. now apply HK.
Qed.

Lemma out_expect32 (fin : nat -> (nat -> Z) -> R) G : (forall mi mo vs fs, G (Ok (mi, mo, vs, fs)) = prodf (seq 0 N) (fun n => fin n (fs n))) ->
  forall l, (forall x, In x l -> good V r par x /\ ev x <> r) ->
  forall mo vs fs, classes_ok M vs ->
  expect (rfold SAMP (concat (map (outs_of edges r par) l)) (mn, mo, vs, fs)) G =
  prodf (seq 0 N) (fun n => rv32 (fin n) (map ev l) (fun u => vs u n) (fs n)).
Proof.
  intros HG. pose proof (HM ws V M edges sx SF) as HM. induction l as [|[[v p] cs] l IH]; intros GD mo vs fs CO.
  - cbn [map concat rfold expect rv32]. apply HG.
  - destruct (GD _ (or_introl eq_refl)) as ((Hv & _) & NR). unfold ev in NR. cbn [fst] in NR.
    cbn [map concat]. unfold ev at 1. cbn [fst]. unfold outs_of at 1. rewrite (proj2 (Nat.eqb_neq v r)) by auto.
    pose proof (par_lt _ _ _ _ _ RT v Hv) as Hp.
    cbn [app rfold]. unfold sample_instr32_with at 1. rewrite EV, EM.
    unfold index. rewrite (proj2 (Nat.ltb_lt v V)), (proj2 (Nat.ltb_lt (par v) V)) by auto.
    rewrite (proj2 (Nat.ltb_lt _ (V - 1))) by (eapply eidx_lt; eauto).
    assert (FB : forallb (fun n => vs (par v) n <? M)%nat (seq 0 N) = true).
    { apply forallb_forall. intros n _. apply Nat.ltb_lt. apply CO. }
    rewrite FB. cbn [flift fbind andb ideal rbind].
    rewrite (down_expect32 v Hv _ vs fs (fun st => rfold SAMP (concat (map (outs_of edges r par) l)) st) G (fun n z x => rv32 (fin n) (map ev l) z x)); auto.
    + intros n k Hn Hk. rewrite set1_same. unfold w32. rewrite (proj2 (Nat.eqb_neq v r)) by auto. reflexivity.
    + intros vs' fs' C'. apply IH; auto. intros x Hx. apply GD. now right.
Qed.

Lemma root_out_expect32 (fin : nat -> (nat -> Z) -> R) G mo vs fs :
  (forall mi mo vs fs, G (Ok (mi, mo, vs, fs)) = prodf (seq 0 N) (fun n => fin n (fs n))) -> classes_ok M vs ->
  expect (rfold SAMP ([I OP_ROOT r 0 0] ++ concat (map (outs_of edges r par) np)) (mn, mo, vs, fs)) G =
  prodf (seq 0 N) (fun n => rv32 (fin n) (order np) (fun u => vs u n) (fs n)).
Proof.
  intros HG CO. pose proof (rt_root _ _ _ _ _ RT) as Hr. pose proof (HM ws V M edges sx SF) as HM.
  destruct (order_cons V edges r par dep RT np BL M HM) as ([[v p] cs] & np' & E & Er & NI). cbn [fst] in Er. subst v.
  pose proof (bl_good _ _ _ _ BL) as GD. rewrite Forall_forall in GD.
  unfold order in *. rewrite E in *. cbn [map fst concat] in *. unfold outs_of at 1. rewrite Nat.eqb_refl.
  cbn [app rfold]. unfold sample_instr32_with at 1. rewrite EV. unfold index. rewrite (proj2 (Nat.ltb_lt r V)) by auto. cbn [flift fbind ideal rbind].
  rewrite (down_expect32 r Hr _ vs fs (fun st => rfold SAMP (concat (map (outs_of edges r par) np')) st) G (fun n z x => rv32 (fin n) (map ev np') z x)); auto.
  - intros n k Hn Hk. rewrite set1_same. unfold w32. rewrite Nat.eqb_refl. reflexivity.
  - intros vs' fs' C'. apply out_expect32; auto. intros x Hx. split; [apply GD; now right|]. intros Ex. apply NI. rewrite <- Ex. apply in_map_iff. exists x. auto.
Qed.
End Out32.
