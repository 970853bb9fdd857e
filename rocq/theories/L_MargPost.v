(** What the marginals are. *)
From Coq Require Import List Arith Lia Bool ZArith Reals Lra Permutation.
From Verif Require Import Base L_Base Spec_Graph L_Graph Spec_Sum L_Sum M_Structure L_Pairing L_MakeTree L_Program L_ProgramValid Spec_Program L_Center L_Prop1 M_Rand L_Rand M_Util Spec_Ragged L_Ragged M_Array M_Training Spec_Stats L_Stats L_Trainer Spec_Joint Spec_Conditional L_Asg L_BP L_BPVec L_AddRow M_Serving Spec_Serving L_Server L_Inward L_Logprob L_Path L_Marginals.
Import ListNotations.
Open Scope R_scope.

(** ** Ancestors and distances *)
Section Anc.
Variables (V : nat) (es : list (nat * nat)) (r : nat) (par dep : nat -> nat).
Hypothesis RT : rooted V es r par dep.
Notation anc := (anc r par).

Lemma anc_lt u v : anc u v -> (v < V)%nat -> (u < V)%nat.
Proof. induction 1; auto. intros. apply IHanc. now apply (par_lt _ _ _ _ _ RT). Qed.

Lemma anc_le u v : anc u v -> (v < V)%nat -> (dep u <= dep v)%nat.
Proof.
  induction 1; auto. intros Hv. specialize (IHanc (par_lt _ _ _ _ _ RT v Hv)). rewrite (par_dep _ _ _ _ _ RT v Hv H). lia.
Qed.

Lemma anc_same u w v : anc u v -> anc w v -> (v < V)%nat -> dep u = dep w -> u = w.
Proof.
  induction 1 as [v|u v N A IH]; intros A' Hv E.
  - inversion A' as [|? ? N' A2]; subst; auto. apply anc_le in A2; [|now apply (par_lt _ _ _ _ _ RT)]. rewrite (par_dep _ _ _ _ _ RT v Hv N') in E. lia.
  - pose proof (par_lt _ _ _ _ _ RT v Hv). inversion A' as [|? ? N' A2]; subst; auto.
    apply anc_le in A; auto. rewrite (par_dep _ _ _ _ _ RT v Hv N) in E. lia.
Qed.

Lemma adj_dep u v : adj es u v -> (dep v <= S (dep u))%nat /\ (dep v = S (dep u) -> v <> r /\ par v = u).
Proof.
  intros A. assert (R : (u < V)%nat /\ (v < V)%nat) by (destruct A as [A|A]; apply (rt_range _ _ _ _ _ RT) in A; tauto).
  assert ((u <> r /\ par u = v) \/ (v <> r /\ par v = u)) as [(N & E)|(N & E)].
  { destruct A as [A|A]; apply (rt_edge _ _ _ _ _ RT) in A; tauto. }
  - pose proof (par_dep _ _ _ _ _ RT u (proj1 R) N). rewrite E in H. split; [lia|]. intros. lia.
  - pose proof (par_dep _ _ _ _ _ RT v (proj2 R) N). rewrite E in H. split; [lia|]. auto.
Qed.

Lemma walk_dep u v n : walk es u v n -> (dep v <= dep u + n)%nat.
Proof. induction 1; [lia|]. destruct (adj_dep _ _ H). lia. Qed.

Lemma walk_anc u v n : walk es u v n -> dep v = (dep u + n)%nat -> anc u v.
Proof.
  induction 1 as [v|u w v n A W IH]; intros E; [constructor|]. pose proof (walk_dep _ _ _ W). destruct (adj_dep _ _ A) as (A1 & A2).
  destruct (A2 ltac:(lia)) as (N & P). apply anc_trans with w.
  - apply anc_step; auto. rewrite P. constructor.
  - apply IH. lia.
Qed.

Lemma anc_walk u v : anc u v -> (v < V)%nat -> walk es u v (dep v - dep u).
Proof.
  induction 1 as [v|u v N A IH]; intros Hv.
  - rewrite Nat.sub_diag. constructor.
  - pose proof (par_lt _ _ _ _ _ RT v Hv) as Hp. specialize (IH Hp). pose proof (anc_le _ _ A Hp). pose proof (par_dep _ _ _ _ _ RT v Hv N).
    replace (dep v - dep u)%nat with (dep (par v) - dep u + 1)%nat by lia. eapply walk_app; [exact IH|]. apply walk_one.
    apply adj_sym. now apply (rt_par _ _ _ _ _ RT).
Qed.

Lemma dist_fun u v a b : dist es u v a -> dist es u v b -> a = b.
Proof. intros (A1 & A2) (B1 & B2). specialize (A2 _ B1). specialize (B2 _ A1). lia. Qed.

Lemma above_anc u v : (u < V)%nat -> (v < V)%nat -> (above es r u v <-> anc u v).
Proof.
  intros Hu Hv. split.
  - intros (i & j & D1 & D2 & D3). apply walk_anc with j; [apply D2|].
    rewrite (dist_fun _ _ _ _ D1 (rt_dist _ _ _ _ _ RT u Hu)) in D3. rewrite (dist_fun _ _ _ _ (rt_dist _ _ _ _ _ RT v Hv) D3). reflexivity.
  - intros A. pose proof (anc_le _ _ A Hv). exists (dep u), (dep v - dep u)%nat. split; [now apply (rt_dist _ _ _ _ _ RT)|]. split.
    + split; [now apply anc_walk|]. intros n W. apply walk_dep in W. lia.
    + replace (dep u + (dep v - dep u))%nat with (dep v) by lia. now apply (rt_dist _ _ _ _ _ RT).
Qed.
End Anc.

Lemma prodf_factor' {A} (l : list A) f g x k : NoDup l -> In x l -> f x = g x * k -> (forall y, In y l -> y <> x -> f y = g y) ->
  prodf l f = prodf l g * k.
Proof.
  induction l as [|y l IH]; intros ND I Ex En; [destruct I|]. inversion ND; subst. rewrite !prodf_cons. destruct I as [->|I].
  - rewrite Ex. rewrite (prodf_ext l f g); [ring|]. intros y Hy. apply En; [now right|]. intro; subst; auto.
  - rewrite (IH H2 I Ex) by (intros; apply En; auto; now right). rewrite (En y); [ring|now left|]. intro; subst; auto.
Qed.

Section Post.
Variables (ws : list nat) (V M : nat) (edges : list (nat * nat)) (s : server).
Hypothesis SF : sfacts ws V M edges s.
Notation es := (grid_edges (make_tree edges)).
Variables (r : nat) (par dep : nat -> nat).
Hypothesis RT : rooted V es r par dep.
Variable np : list (nat * option nat * list nat).
Hypothesis BL : bfs_list V r par np.
Notation PSI := (opair edges par (sv_trans s)).
Notation anc := (anc r par).
Variable md : smodel.
Hypothesis SM : d_M md = M.
Notation Tot := (Tot V r par M PSI).
Notation tab := (tab V r par M PSI).

Lemma Tot_total row : Tot (node ws s row) = total_weight ws V M edges s row.
Proof.
  pose proof (HM ws V M edges s SF) as HM.
  pose proof (jointw_total V es r par dep M RT HM (node ws s row) PSI (tab (node ws s row))
    (node_pos ws V M edges s SF row) (psi_pos ws V M edges s SF r par dep RT) (tab_upward V es r par dep M RT PSI _) (order np) (order_perm V r par np BL) (order_first V r par np BL) (fun _ => 0%nat)) as T.
  unfold Ztot in T. unfold L_Path.Tot. rewrite <- T. unfold total_weight.
  rewrite <- (sumall_vectors V r par np BL M _ (fun _ => 0%nat)). apply sumall_ext; [apply (order_nodup V r par np BL)|]. intros z' _.
  apply (jointw_tree V edges r par dep RT M HM).
Qed.

Lemma likeli_bump row v q m : length row = list_sum ws -> (v < V)%nat -> In q (block ws v) -> (m < M)%nat ->
  likeli ws s (bump row q) v m = likeli ws s row v m * sv_feat s q m.
Proof.
  intros RL Hv Hq Hm. assert (LT : forall p, In p (block ws v) -> (p < length row)%nat).
  { intros. rewrite RL. eapply in_block_lt; eauto. }
  unfold likeli. apply prodf_factor' with (x := q); auto.
  - apply seq_NoDup.
  - rewrite bump_nth by auto. rewrite Nat.eqb_refl. rewrite powerRZ_add.
    + simpl. ring.
    + apply Rgt_not_eq. now apply (sf_feat _ _ _ _ _ SF v).
  - intros p Hp N. rewrite bump_nth by auto. apply Nat.eqb_neq in N. rewrite N. now rewrite Z.add_0_r.
Qed.

Lemma likeli_bump_other row u v q m : length row = list_sum ws -> (v < V)%nat -> In q (block ws v) -> (u < V)%nat -> u <> v ->
  likeli ws s (bump row q) u m = likeli ws s row u m.
Proof.
  intros RL Hv Hq Hu NE. unfold likeli. apply prodf_ext. intros p Hp. rewrite bump_nth by (rewrite RL; eapply in_block_lt; eauto).
  destruct (Nat.eqb_spec p q) as [->|]; [|now rewrite Z.add_0_r]. exfalso. apply NE. eapply (block_once ws V M edges s SF); eauto.
Qed.

(** The server's value is the tree sum for the restricted row with one more
    observation. *)
Section Value.
Variables (row row' : list Z) (v : nat).
Hypothesis RL : length row = list_sum ws.
Hypothesis Hv : (v < V)%nat.
Hypothesis RS : restricted ws (fun u => anc u v \/ anc v u) row row'.
Notation nod := (node ws s row).
Notation nod' := (node ws s row').

Lemma node_kept u m : (u < V)%nat -> anc u v \/ anc v u -> nod' u m = nod u m.
Proof.
  intros Hu K. unfold node, likeli. f_equal. apply prodf_ext. intros q Hq. destruct RS as (_ & R).
  destruct (R u q) as (R1 & _); auto; [now rewrite (sf_ws _ _ _ _ _ SF)|]. now rewrite R1.
Qed.

Lemma node_dropped u m : (u < V)%nat -> ~ (anc u v \/ anc v u) -> nod' u m = sv_vert s u m.
Proof.
  intros Hu K. unfold node, likeli. rewrite prodf_one; [ring|]. intros q Hq. destruct RS as (_ & R).
  destruct (R u q) as (_ & R2); auto; [now rewrite (sf_ws _ _ _ _ _ SF)|]. now rewrite R2.
Qed.

Lemma vert_upward : upward V r par M (sv_vert s) PSI (sv_vert s).
Proof.
  intros u c Hu Hc. rewrite prodf_one; [lra|]. intros d Hd. apply in_kids in Hd. destruct Hd as (Hd & N & _).
  eapply (up_unit ws V M md edges s SF SM); eauto.
Qed.

Lemma off_path c k mp : (c < V)%nat -> c <> r -> anc c v -> In k (kids V r par (par c)) -> k <> c -> (mp < M)%nat ->
  up M PSI (tab nod') k mp = 1.
Proof.
  intros Hc N A Ik NE Hm. pose proof (kid_dep V es r par dep RT _ _ Ik) as DK. apply in_kids in Ik. destruct Ik as (Hk & NK & EK).
  pose proof (par_dep _ _ _ _ _ RT c Hc N) as DC.
  rewrite <- (up_unit ws V M md edges s SF SM r par dep k mp RT Hk NK Hm). apply up_ext. intros m' Hm'.
  apply (upward_local V es r par dep M RT PSI (fun u => anc k u) nod' (sv_vert s) (tab nod') (sv_vert s)); auto.
  - apply tab_upward with (1 := RT).
  - apply vert_upward.
  - intros u d Au Id. apply in_kids in Id. destruct Id as (_ & Nd & Ed). apply anc_step; auto. now rewrite Ed.
  - intros u m0 Hu Hm0 Au. apply node_dropped; auto. intros [X|X]; apply NE.
    + apply (anc_same V es r par dep RT k c v); auto; [eapply anc_trans; eauto|lia].
    + apply (anc_same V es r par dep RT k c u); auto; [eapply anc_trans; eauto|lia].
  - constructor.
Qed.

Lemma tab_nz row0 c mp : (c < V)%nat -> c <> r -> (mp < M)%nat -> up M PSI (tab (node ws s row0)) c mp <> 0.
Proof.
  intros Hc N Hm. apply Rgt_not_eq.
  apply (up_pos V es r par dep M RT (HM ws V M edges s SF) (node ws s row0) PSI (tab (node ws s row0))); auto.
  - apply (node_pos ws V M edges s SF).
  - apply (psi_pos ws V M edges s SF r par dep RT).
  - apply tab_upward with (1 := RT).
Qed.

Lemma mval_total q : In q (block ws v) ->
  mval ws M edges s par dep row (tab nod) v q = total_weight ws V M edges s (bump row' q).
Proof.
  intros Hq. pose proof (proj1 RS) as RL'. rewrite <- Tot_total.
  transitivity (Tot (at1 nod' v (fun m => sv_feat s q m))).
  - rewrite (path V es r par dep M RT PSI nod' (tab nod') _ v (tab_upward V es r par dep M RT PSI nod')); auto.
    + unfold mval. apply sumf_ext. intros m0 I. apply in_seq in I.
      rewrite (Qn_Pn V es r par dep M RT PSI nod' (tab nod') v (tab_upward V es r par dep M RT PSI nod') Hv (fun c mp H1 H2 H3 => tab_nz row' c mp H1 H2 H3) off_path) by lia.
      rewrite (Pn_ext V es r par dep M RT PSI nod' nod v Hv).
      * f_equal. f_equal.
        apply (upward_local V es r par dep M RT PSI (fun u => anc v u) nod nod' (tab nod) (tab nod'));
          [apply tab_upward with (1 := RT)|apply tab_upward with (1 := RT)| | |exact Hv|lia|constructor].
        -- intros u d Au Id. apply in_kids in Id. destruct Id as (_ & Nd & Ed). apply anc_step; auto. now rewrite Ed.
        -- intros u m1 Hu _ Au. symmetry. apply node_kept; auto.
      * intros c m1 Hc N A Hm1. apply node_kept; [now apply (par_lt _ _ _ _ _ RT)|]. left. eapply anc_trans; [|exact A]. apply anc_step; auto. constructor.
    + intros. now apply tab_nz.
  - apply (Tot_ext V es r par dep M RT). intros u m0 Hu Hm0. unfold node at 2. destruct (Nat.eq_dec u v) as [->|NE].
    + rewrite at1_same, (likeli_bump row') by auto. unfold node. ring.
    + rewrite at1_other by auto. rewrite (likeli_bump_other row' u v) by auto. reflexivity.
Qed.
End Value.

Lemma last_split (l : list nat) : NoDup l -> parents_first r par l ->
  forall pre v post, l = pre ++ v :: post -> v <> r -> ~ In (par v) (v :: post).
Proof.
  intros ND PF pre v post E N I. pose proof (PF pre v post E N) as H. rewrite E in ND.
  clear - ND H I. induction pre as [|x pre IH]; [destruct H|]. cbn [app] in ND. apply NoDup_cons_iff in ND. destruct ND as (NI & ND).
  destruct H as [->|H]; [|auto]. apply NI. apply in_or_app. now right.
Qed.

Lemma marginals_value row junk : length row = list_sum ws -> sv_prog s = prog_of edges r par np ->
  exists marg, marginals_row s junk row = Ok marg /\ length marg = list_sum ws /\
    forall v q, (v < V)%nat -> In q (block ws v) ->
      nth q marg 0 = mval ws M edges s par dep row (tab (node ws s row)) v q /
                     sumf (block ws v) (mval ws M edges s par dep row (tab (node ws s row)) v).
Proof.
  intros RL EP. pose proof (HM ws V M edges s SF) as HM. unfold marginals_row. rewrite (sf_R _ _ _ _ _ SF), RL, Nat.eqb_refl. cbn [assert_ bind].
  rewrite EP. unfold prog_of. rewrite foldM_app'.
  destruct (marg_in ws V M edges s SF r par dep RT np BL row RL junk (fun _ => 0)) as (msg & acc & mo & E1 & RUN & MP).
  rewrite E1. cbn [bind app foldM]. unfold marginals_instr at 1. unfold index. rewrite (sv_V_eq ws V M edges s SF).
  rewrite (proj2 (Nat.ltb_lt r V)) by apply RT. cbn [bind].
  pose proof (bl_good _ _ _ _ BL) as GD. rewrite Forall_forall in GD.
  assert (LT : forall x, In x np -> (ev x < V)%nat) by (intros [[v p] cs] Hx; destruct (GD _ Hx) as (X & _); exact X).
  pose proof (order_perm V r par np BL) as OP. pose proof (order_nodup V r par np BL) as ON. unfold order in OP, ON.
  assert (ALL : forall v, (v < V)%nat -> In v (map ev np)).
  { intros v Hv. eapply Permutation_in; [apply Permutation_sym, OP|]. apply in_seq. lia. }
  assert (MO : forall v m, (v < V)%nat -> mo v m = node ws s row v m).
  { assert (L1 : forall x, In x (rev np) -> (ev x < V)%nat) by (intros x Hx; apply LT; now apply in_rev).
    assert (L2 : NoDup (map ev (rev np))) by (rewrite map_rev; apply NoDup_rev; exact ON).
    destruct (in_mout ws V M edges s SF par row RL (rev np) L1 L2 _ _ _ _ _ _ (fun v _ => eq_refl) E1) as (A & _).
    intros v m Hv. apply A. rewrite map_rev. apply -> in_rev. auto. }
  set (B := tab (node ws s row)).
  assert (UB : upward V r par M (node ws s row) PSI B) by (apply tab_upward with (1 := RT)).
  assert (BP : forall v m, (v < V)%nat -> (m < M)%nat -> 0 < B v m).
  { apply (B_pos V es r par dep M RT HM (node ws s row) PSI B); auto; [apply (node_pos ws V M edges s SF)|apply (psi_pos ws V M edges s SF r par dep RT)]. }
  assert (SC : forall v, (v < V)%nat -> exists b, 0 < b /\ forall m, (m < M)%nat -> msg v m = b * B v m).
  { destruct (run_upward V edges r par dep RT np BL M (node ws s row) (sv_trans s) (likeli ws s row) (sv_vert s) (sv_vert s) msg acc) as (k & K1 & _ & K3); auto.
    apply (upward_scale V es r par dep M RT PSI k (node ws s row) B msg); auto. intros c Hc N. apply K1. apply in_nonroot. auto. }
  set (a := fun v => msg v 0%nat / B v 0%nat).
  assert (AE : forall v, (v < V)%nat -> 0 < a v /\ forall m, (m < M)%nat -> msg v m = a v * B v m).
  { intros v Hv. destruct (SC v Hv) as (b & Hb & E). pose proof (BP v 0%nat Hv HM).
    assert (EA : a v = b) by (unfold a; rewrite E by auto; field; lra). rewrite EA. auto. }
  destruct (out_steps ws V M edges s SF r par dep RT row RL B a (fun v Hv => proj1 (AE v Hv)) np LT ON
    (last_split _ ON (order_first V r par np BL)) (msg, mo, fun _ => 0)) as ([[mi' mo'] res'] & E2 & O2).
  - intros v Hv. split.
    + intros _ m Hm. split; [now apply AE|now apply MO].
    + intros NI. exfalso. apply NI. auto.
  - rewrite E2. cbn [bind]. eexists. split; [reflexivity|]. split; [now rewrite map_length, seq_length|].
    intros v q Hv Hq. assert (LQ : (q < list_sum ws)%nat) by (eapply in_block_lt; eauto).
    rewrite nth_indep with (d' := res' 0%nat) by (now rewrite map_length, seq_length). rewrite map_nth, seq_nth by auto. cbn [Nat.add].
    destruct (O2 v Hv) as (_ & D). destruct (D (fun x => x)) as (_ & D2). apply D2. exact Hq.
Qed.
End Post.
