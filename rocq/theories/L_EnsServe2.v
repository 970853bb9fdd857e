(** Final forms of the theorems about EnsembleServer. *)
From Coq Require Import List Arith Lia Bool ZArith Reals Lra Permutation.
From Verif Require Import Base L_Base Spec_Graph L_Graph Spec_Sum L_Sum M_Structure M_Rand L_Rand M_Util Spec_Ragged L_Ragged M_Array M_SampleTree M_EstimateTree Spec_Trees Spec_MST L_Pairing L_Estimate L_AllTrees M_Training Spec_Stats L_Stats Spec_Joint Spec_Conditional L_Asg M_Serving Spec_Serving Spec_Summary L_Server L_Serve1 L_Serve2 L_Serve3 L_Summary L_Observed M_EnsembleServer L_Shuffle L_EnsServe.
Import ListNotations.
Open Scope R_scope.

Lemma mean_exp ws ms row : ms <> [] -> (forall m, In m ms -> 0 < row_prob ws m row) -> 0 < sumf ms (fun m => row_prob ws m row) / INR (length ms).
Proof.
  intros NE P. apply Rdiv_lt_0_compat; [|now apply size_pos]. apply sumf_pos; [intros; left; auto|]. destruct ms as [|m ms]; [congruence|]. exists m. split; [now left|apply P; now left].
Qed.

Lemma C35_proof : forall ws V M N mst ms es data, ms <> [] -> (forall m, In m ms -> consistent ws V M N m) ->
  mst_contract mst -> ensemble_server mst ms = Ok es -> (forall row, In row data -> length row = list_sum ws) ->
  exists servers table lps, mapM (tree_server mst) ms = Ok servers /\ mapM (fun s => logprob s data) servers = Ok table /\
    ens_logprob es data = Ok lps /\ length lps = length data /\
    forall n, (n < length data)%nat ->
      exp (nth n lps 0) = sumf table (fun lp => exp (nth n lp 0)) / INR (length ms) /\
      exp (nth n lps 0) = sumf ms (fun m => row_prob ws m (nth n data [])) / INR (length ms).
Proof.
  intros ws V M N mst ms es data NE C MC E LD. assert (O : ens_ok ws V M N ms) by (split; auto).
  destruct (C35_value ws V M N mst ms es data O MC E LD) as (E1 & E2 & P).
  pose proof (members_of ws V M N mst ms es O MC E) as F. apply mapM_Forall2 in F.
  exists (es_members es). do 2 eexists. split; [exact F|]. split; [exact E1|]. split; [exact E2|]. split; [now rewrite map_length|].
  intros n Hn. rewrite (nth_map_lt _ _ _ _ []) by auto. rewrite exp_ln by (apply mean_exp; auto; intros; apply P; auto; now apply nth_In).
  split; [|reflexivity]. f_equal. rewrite sumf_map. apply sumf_ext. intros m Hm. rewrite (nth_map_lt _ _ _ _ []) by auto. symmetry. apply exp_ln, P; auto. now apply nth_In.
Qed.

Lemma complete_rows_length ws : forall row, In row (complete_rows ws) -> length row = list_sum ws.
Proof.
  induction ws as [|w ws IH]; cbn [complete_rows]; intros row H.
  - destruct H as [<-|[]]. reflexivity.
  - apply in_flat_map in H. destruct H as (c & _ & H). apply in_map_iff in H. destruct H as (r & <- & Hr). unfold one_hot.
    rewrite app_length, map_length, seq_length. cbn. now rewrite (IH r Hr).
Qed.

Lemma total_one ws V M N m mst : consistent ws V M N m -> mst_contract mst -> (forall w, In w ws -> (1 <= w)%nat) -> sumf (complete_rows ws) (row_prob ws m) = 1.
Proof.
  intros C MC W. destruct (build_server ws V M N m C mst MC) as (s & edges & Es & _).
  destruct (C27_total ws V M N m mst s C MC Es W) as (lps & E & ONE).
  destruct (C26_data ws V M N m mst s (complete_rows ws) C MC Es (complete_rows_length ws)) as (E' & P). rewrite E in E'. injection E' as ->.
  rewrite sumf_map in ONE. rewrite <- ONE. apply sumf_ext. intros row H. symmetry. now apply exp_ln, P.
Qed.

Lemma C35_total : forall ws V M N mst ms es, ms <> [] -> (forall m, In m ms -> consistent ws V M N m) ->
  mst_contract mst -> ensemble_server mst ms = Ok es -> (forall w, In w ws -> (1 <= w)%nat) ->
  exists lps, ens_logprob es (complete_rows ws) = Ok lps /\ sumf lps exp = 1.
Proof.
  intros ws V M N mst ms es NE C MC E W. assert (O : ens_ok ws V M N ms) by (split; auto).
  destruct (C35_value ws V M N mst ms es _ O MC E (complete_rows_length ws)) as (_ & E2 & P).
  eexists. split; [exact E2|]. rewrite sumf_map. rewrite (sumf_ext _ _ (fun row => sumf ms (fun m => row_prob ws m row) / INR (length ms))).
  - rewrite sumf_div, sumf_swap. rewrite (sumf_ext _ _ (fun _ => 1)) by (intros m Hm; apply (total_one ws V M N m mst); auto).
    rewrite sumf_const. field. apply Rgt_not_eq. now apply size_pos.
  - intros row H. apply exp_ln. apply mean_exp; auto.
Qed.

(** ** C36 *)
Lemma empty_one ws V M N m mst : consistent ws V M N m -> mst_contract mst -> row_prob ws m (repeat 0%Z (list_sum ws)) = 1.
Proof.
  intros C MC. destruct (build_server ws V M N m C mst MC) as (s & edges & Es & _).
  pose proof (C27_empty ws V M N m mst s C MC Es) as E. destruct (C26_row ws V M N m mst s _ C MC Es (repeat_length 0%Z _)) as (E' & P).
  rewrite E in E'. injection E' as E'. rewrite <- (exp_ln _ P), <- E'. apply exp_0.
Qed.

Lemma C36_free : forall ws V M N mst ms es counts X, ms <> [] -> (forall m, In m ms -> consistent ws V M N m) ->
  mst_contract mst -> ensemble_server mst ms = Ok es ->
  length counts = V -> (forall v, (v < V)%nat -> (0 <= nth v counts 0 <= 127)%Z) ->
  (forall v, (v < V)%nat -> (0 < nth v counts 0)%Z -> (1 <= nth v ws 0)%nat) ->
  (forall x, In x X -> legal_row ws counts x) ->
  exists lps, ens_logprob es X = Ok lps /\
    prob_of (ens_sample es (length X) counts None) X = prodf (combine X lps) (fun '(x, l) => arrangements ws counts x * exp l).
Proof.
  intros ws V M N mst ms es counts X NE C MC E CL CB CW LR. assert (O : ens_ok ws V M N ms) by (split; auto).
  destruct (C35_value ws V M N mst ms es X O MC E ltac:(intros; now apply LR)) as (_ & E2 & P).
  eexists. split; [exact E2|].
  rewrite (prodf_combine (fun x => ln (sumf ms (fun m => row_prob ws m x) / INR (length ms))) (fun x l => arrangements ws counts x * exp l)).
  rewrite (ens_law ws V M N mst ms es counts None X O MC E CL CB CW ltac:(discriminate) LR). cbn [evidence].
  apply prodf_ext. intros x Hx. f_equal. rewrite exp_ln by (apply mean_exp; auto). f_equal. apply sumf_ext. intros m Hm.
  rewrite (empty_one ws V M N m mst) by auto. rewrite merge_empty by (now apply LR). field.
Qed.

Lemma C36_given : forall ws V M N mst ms es counts data X, ms <> [] -> (forall m, In m ms -> consistent ws V M N m) ->
  mst_contract mst -> ensemble_server mst ms = Ok es ->
  length counts = V -> (forall v, (v < V)%nat -> (0 <= nth v counts 0 <= 127)%Z) ->
  (forall v, (v < V)%nat -> (0 < nth v counts 0)%Z -> (1 <= nth v ws 0)%nat) ->
  length data = list_sum ws -> (forall x, In x X -> legal_row ws counts x) ->
  prob_of (ens_sample es (length X) counts (Some data)) X =
  prodf X (fun x => arrangements ws counts x *
    (sumf ms (fun m => row_prob ws m (merge data x) / row_prob ws m data) / INR (length ms))).
Proof.
  intros ws V M N mst ms es counts data X NE C MC E CL CB CW LD LR.
  apply (ens_law ws V M N mst ms es counts (Some data) X); auto; [split; auto|]. intros d H. now injection H as <-.
Qed.

(** Two models of the same two rows [1; 0] and [0; 1]: the rows in one class, and
    in two classes. *)
Definition lumped : smodel :=
  SModel (TS 1 (make_tree [])) [0; 2]%nat (fun v c => nth c [2; 0] 0)%Z (fun _ _ _ => 0)%Z (fun q c => nth c (nth q [[1; 0]; [1; 0]] []) 0)%Z 2 [].
Definition split_ : smodel :=
  SModel (TS 1 (make_tree [])) [0; 2]%nat (fun v c => nth c [1; 1] 0)%Z (fun _ _ _ => 0)%Z (fun q c => nth c (nth q [[1; 0]; [0; 1]] []) 0)%Z 2 [].

Lemma pair_consistent m : In m [lumped; split_] -> consistent [2]%nat 1 2 2 m.
Proof.
  intros I. assert (ST : spanning_tree 1 []).
  { split; [reflexivity|]. split; [intros ? ? []|]. intros u v Hu Hv. exists 0%nat. assert (u = v) as -> by lia. constructor. }
  destruct I as [<-|[<-|[]]].
  - constructor; cbn [lumped d_ri d_M d_tree d_vert d_edge d_feat d_logits]; auto.
    + split; [reflexivity|lia].
    + exists []. auto.
    + intros [|e] v1 v2 c He; discriminate.
    + intros v [|[|c]] _ Hc; cbn; lia.
    + intros; lia.
    + intros [|[|q]] [|[|c]] Hq Hc; cbn in *; lia.
  - constructor; cbn [split_ d_ri d_M d_tree d_vert d_edge d_feat d_logits]; auto.
    + split; [reflexivity|lia].
    + exists []. auto.
    + intros [|e] v1 v2 c He; discriminate.
    + intros v [|[|c]] _ Hc; cbn; lia.
    + intros; lia.
    + intros [|[|q]] [|[|c]] Hq Hc; cbn in *; lia.
Qed.

Lemma lumped_row a b : row_prob [2]%nat lumped [a; b] = 5 / 6 * (powerRZ (1 / 2) a * powerRZ (1 / 2) b) + 1 / 6 * (powerRZ (1 / 2) a * powerRZ (1 / 2) b).
Proof.
  unfold row_prob. cbn [lumped d_tree ts_V d_M vectors flat_map map seq app]. unfold sumf at 1. cbn [fold_right].
  unfold latent_prob, row_given, tree_weight, vert_prob, feat_prob. change (ts_get_edges (d_tree lumped)) with (@nil (nat * nat)).
  unfold prodf, sumf. cbn [lumped d_tree ts_V d_M d_vert d_feat fold_right seq nth block firstn list_sum Nat.add].
  replace ((1 + 1 / 2 / INR 2) / (1 + 1 / 2 / INR 2 + (1 + 1 / 2 / INR 2 + 0))) with (1 / 2) by (change (INR 2) with (1 + 1); field).
  replace ((0 + 1 / 2 / INR 2) / (0 + 1 / 2 / INR 2 + (0 + 1 / 2 / INR 2 + 0))) with (1 / 2) by (change (INR 2) with (1 + 1); field).
  cbn [length seq combine fold_right]. field.
Qed.
Lemma split_row a b : row_prob [2]%nat split_ [a; b] = 1 / 2 * (powerRZ (5 / 6) a * powerRZ (1 / 6) b) + 1 / 2 * (powerRZ (1 / 6) a * powerRZ (5 / 6) b).
Proof.
  unfold row_prob. cbn [split_ d_tree ts_V d_M vectors flat_map map seq app]. unfold sumf at 1. cbn [fold_right].
  unfold latent_prob, row_given, tree_weight, vert_prob, feat_prob. change (ts_get_edges (d_tree split_)) with (@nil (nat * nat)).
  unfold prodf, sumf. cbn [split_ d_tree ts_V d_M d_vert d_feat fold_right seq nth block firstn list_sum Nat.add].
  replace ((1 + 1 / 2 / INR 2) / (1 + 1 / 2 / INR 2 + (0 + 1 / 2 / INR 2 + 0))) with (5 / 6) by (change (INR 2) with (1 + 1); field).
  replace ((0 + 1 / 2 / INR 2) / (1 + 1 / 2 / INR 2 + (0 + 1 / 2 / INR 2 + 0))) with (1 / 6) by (change (INR 2) with (1 + 1); field).
  replace ((1 + 1 / 2 / INR 2) / (0 + 1 / 2 / INR 2 + (1 + 1 / 2 / INR 2 + 0))) with (5 / 6) by (change (INR 2) with (1 + 1); field).
  replace ((0 + 1 / 2 / INR 2) / (0 + 1 / 2 / INR 2 + (1 + 1 / 2 / INR 2 + 0))) with (1 / 6) by (change (INR 2) with (1 + 1); field).
  cbn [length seq combine fold_right]. field.
Qed.

Lemma C36_refutation : exists ws V M N ms data x, ms <> [] /\ (forall m, In m ms -> consistent ws V M N m) /\
  (forall w, In w ws -> (1 <= w)%nat) /\ length data = list_sum ws /\ Forall (fun c => (0 <= c)%Z) data /\ legal_row ws (repeat 1%Z V) x /\
  forall mst, mst_contract mst -> exists es lp le, ensemble_server mst ms = Ok es /\
    ens_logprob es [merge data x; data] = Ok [lp; le] /\
    prob_of (ens_sample es 1 (repeat 1%Z V) (Some data)) [x] <> exp (lp - le).
Proof.
  exists [2]%nat, 1%nat, 2%nat, 2%nat, [lumped; split_], [2; 0]%Z, [1; 0]%Z. split; [discriminate|]. split; [exact pair_consistent|].
  split; [intros w [<-|[]]; lia|]. split; [reflexivity|]. split; [repeat constructor; lia|].
  assert (LR : legal_row [2]%nat (repeat 1%Z 1) [1; 0]%Z).
  { split; [reflexivity|]. split; [cbn; intuition lia|]. intros [|v] Hv; [reflexivity|cbn in Hv; lia]. }
  split; [exact LR|]. intros mst MC.
  assert (O : ens_ok [2]%nat 1 2 2 [lumped; split_]) by (split; [discriminate|exact pair_consistent]).
  destruct (ens_build [2]%nat 1 2 2 mst [lumped; split_] O MC) as (es & E & _).
  destruct (C35_value _ _ _ _ _ _ _ [merge [2; 0]%Z [1; 0]%Z; [2; 0]%Z] O MC E) as (_ & E2 & P).
  { intros row [<-|[<-|[]]]; reflexivity. }
  exists es. do 2 eexists. split; [exact E|]. split; [exact E2|].
  change (prob_of (ens_sample es (length [[1; 0]%Z]) (repeat 1%Z 1) (Some [2; 0]%Z)) [[1; 0]%Z] <>
    exp (ln (sumf [lumped; split_] (fun m => row_prob [2]%nat m (merge [2; 0]%Z [1; 0]%Z)) / INR (length [lumped; split_])) -
         ln (sumf [lumped; split_] (fun m => row_prob [2]%nat m [2; 0]%Z) / INR (length [lumped; split_])))).
  rewrite (C36_given [2]%nat 1 2 2 mst [lumped; split_] es); auto; try reflexivity; try discriminate; try exact pair_consistent.
  - rewrite exp_ratio by (apply mean_exp; [discriminate|]; intros m Hm; apply P; auto; cbn; auto).
    rewrite prodf_cons. change (prodf [] _) with 1. pose proof (arrangements_ones [2]%nat [1; 0]%Z LR) as AR. cbn [length] in AR. rewrite AR.
    unfold sumf. cbn [fold_right length merge combine map Z.add]. change (INR 2) with (1 + 1). change (2 + 1)%Z with 3%Z. change (0 + 0)%Z with 0%Z.
    change (merge [2; 0]%Z [1; 0]%Z) with [3; 0]%Z. rewrite !lumped_row, !split_row. cbn [powerRZ]. change (Pos.to_nat 2) with 2%nat. change (Pos.to_nat (2 + 1)) with 3%nat. cbn [pow].
    match goal with |- ?a <> ?b => replace a with (17 / 26) by field; replace b with (15 / 22) by field end. lra.
  - intros [|v] Hv; [cbn; lia|lia].
  - intros [|v] Hv _; [cbn; lia|lia].
  - intros y [<-|[]]. exact LR.
Qed.

(** ** Summaries *)
Lemma average_between {A} (ms : list A) (g : A -> R) lo hi : ms <> [] -> (forall m, In m ms -> lo <= g m <= hi) -> lo <= sumf ms g / INR (length ms) <= hi.
Proof.
  intros NE H. pose proof (size_pos ms NE) as P.
  assert (INR (length ms) * lo <= sumf ms g) by (rewrite <- sumf_const; apply sumf_le; intros; now apply H).
  assert (sumf ms g <= INR (length ms) * hi) by (rewrite <- sumf_const; apply sumf_le; intros; now apply H).
  split; [apply Rmult_le_reg_r with (INR (length ms))|apply Rmult_le_reg_r with (INR (length ms))]; auto; unfold Rdiv; rewrite Rmult_assoc, Rinv_l; lra.
Qed.
Lemma average_below {A} (ms : list A) (g : A -> R) hi : ms <> [] -> (forall m, In m ms -> g m < hi) -> sumf ms g / INR (length ms) < hi.
Proof.
  intros NE H. pose proof (size_pos ms NE) as P. apply Rmult_lt_reg_r with (INR (length ms)); auto. unfold Rdiv. rewrite Rmult_assoc, Rinv_l by lra.
  assert (Q : 0 < sumf ms (fun m => hi - g m)).
  { apply sumf_pos; [intros x I; specialize (H x I); lra|]. destruct ms as [|m ms]; [congruence|]. exists m. split; [now left|]. specialize (H m (or_introl eq_refl)). lra. }
  rewrite sumf_minus, sumf_const in Q. lra.
Qed.

(** Averages of one array per member. *)
Lemma average_members ws V M N mst ms es K (F : server -> result (list R)) (g : smodel -> nat -> R) : ens_ok ws V M N ms -> mst_contract mst -> ensemble_server mst ms = Ok es ->
  (forall m s, In m ms -> consistent ws V M N m -> tree_server mst m = Ok s -> exists out, F s = Ok out /\ length out = K /\ forall i, (i < K)%nat -> nth i out 0 = g m i) ->
  exists arrays out, mapM F (es_members es) = Ok arrays /\ average arrays = Ok out /\ length out = K /\
    forall i, (i < K)%nat -> nth i out 0 = sumf ms (fun m => g m i) / INR (length ms).
Proof.
  intros O MC E H. pose proof (members_of ws V M N mst ms es O MC E) as FF. destruct O as (NE & C).
  assert (G : exists arrays, mapM F (es_members es) = Ok arrays /\ Forall2 (fun m a => length a = K /\ forall i, (i < K)%nat -> nth i a 0 = g m i) ms arrays).
  { clear NE E. induction FF as [|m s ms members Es FF IH]; [exists []; split; [reflexivity|constructor]|].
    destruct IH as (arrays & E & R); [intros; apply C; now right|intros; apply H; auto; now right|].
    destruct (H m s (or_introl eq_refl) (C m (or_introl eq_refl)) Es) as (out & Eo & Ro). exists (out :: arrays). cbn [mapM]. rewrite Eo, E. split; [reflexivity|]. constructor; auto. }
  destruct G as (arrays & EA & R). destruct (average_Ok K arrays) as (out & EO & LO & HO).
  - intros ->. inversion R. subst. congruence.
  - intros a I. clear - R I. induction R as [|m a' ms arrays (L & _) R IH]; [destruct I|]. destruct I as [<-|I]; auto.
  - exists arrays, out. split; [auto|]. split; [auto|]. split; [auto|]. intros i Hi. rewrite HO by auto. rewrite (Forall2_len _ _ _ R). f_equal.
    clear - R Hi. induction R as [|m a ms arrays (_ & Ha) R IH]; [reflexivity|]. rewrite !sumf_cons, IH, Ha; auto.
Qed.

Lemma mapM_map {A B} (f : A -> B) l : mapM (fun x => Ok (f x)) l = Ok (map f l).
Proof. induction l; [reflexivity|]. cbn [mapM]. rewrite IHl. reflexivity. Qed.

Lemma C33_ens : forall ws V M N mst ms es, ms <> [] -> (forall m, In m ms -> consistent ws V M N m) ->
  mst_contract mst -> ensemble_server mst ms = Ok es ->
  exists out, ens_latent_perplexity es = Ok out /\ length out = V /\
    forall v, (v < V)%nat -> nth v out 0 = sumf ms (fun m => exp (shannon (seq 0 M) (vert_prob m v))) / INR (length ms) /\ 1 <= nth v out 0 <= INR M.
Proof.
  intros ws V M N mst ms es NE C MC E. assert (O : ens_ok ws V M N ms) by (split; auto).
  destruct (average_members ws V M N mst ms es V (fun s => Ok (latent_perplexity s)) (fun m v => exp (shannon (seq 0 M) (vert_prob m v))) O MC E) as (arrays & out & E1 & E2 & L & H).
  { intros m s Hm Cm Es. destruct (C33_proof ws V M N m mst s Cm MC Es) as (L & H). eexists. split; [reflexivity|]. split; [auto|]. intros i Hi. now apply H. }
  rewrite mapM_map in E1. injection E1 as <-. exists out. split; [exact E2|]. split; [auto|]. intros v Hv. rewrite H by auto. split; [reflexivity|].
  apply average_between; auto. intros m Hm. destruct (build_server ws V M N m (C m Hm) mst MC) as (s & edges & Es & _).
  destruct (C33_proof ws V M N m mst s (C m Hm) MC Es) as (_ & K). destruct (K v Hv) as (K1 & K2). now rewrite <- K1.
Qed.

Lemma C32_ens : forall ws V M N mst ms es counts, ms <> [] -> (forall m, In m ms -> consistent ws V M N m) ->
  mst_contract mst -> ensemble_server mst ms = Ok es -> (forall w, In w ws -> (1 <= w)%nat) ->
  exists out, ens_observed_perplexity es (Some counts) = Ok out /\ length out = V /\
    forall v, (v < V)%nat -> nth v out 0 = sumf ms (fun m => exp (draws_entropy (feature_probs ws m v) 1)) / INR (length ms) /\ 1 <= nth v out 0 <= INR (nth v ws 0%nat).
Proof.
  intros ws V M N mst ms es counts NE C MC E W. assert (O : ens_ok ws V M N ms) by (split; auto).
  destruct (average_members ws V M N mst ms es V (fun s => observed_perplexity s (Some counts)) (fun m v => exp (draws_entropy (feature_probs ws m v) 1)) O MC E) as (arrays & out & E1 & E2 & L & H).
  { intros m s Hm Cm Es. destruct (C32_value ws V M N m mst s counts Cm MC Es W) as (o & Eo & L & H). exists o. split; [auto|]. split; [auto|]. intros i Hi. now apply H. }
  exists out. unfold ens_observed_perplexity. rewrite E1. cbn [bind]. split; [exact E2|]. split; [auto|]. intros v Hv. rewrite H by auto. split; [reflexivity|].
  apply average_between; auto. intros m Hm. destruct (build_server ws V M N m (C m Hm) mst MC) as (s & edges & Es & _).
  destruct (C32_value ws V M N m mst s counts (C m Hm) MC Es W) as (o & _ & _ & K). destruct (K v Hv) as (K1 & K2). now rewrite <- K1.
Qed.

Lemma C34_ens : forall ws V M N mst ms es junk, ms <> [] -> (forall m, In m ms -> consistent ws V M N m) ->
  mst_contract mst -> ensemble_server mst ms = Ok es ->
  exists rows, ens_latent_correlation es junk = Ok rows /\ length rows = V /\
    forall u v, (u < V)%nat -> (v < V)%nat ->
      let entry u v := nth v (nth u rows []) 0 in
      length (nth u rows []) = V /\
      entry u v = sumf ms (fun m => sqrt (1 - exp (-2 * mutual_information M (pair_prob m u v)))) / INR (length ms) /\
      entry u v = entry v u /\ 0 <= entry u v < 1 /\ entry u v <= entry u u.
Proof.
  intros ws V M N mst ms es junk NE C MC E. assert (O : ens_ok ws V M N ms) by (split; auto).
  pose proof (members_of ws V M N mst ms es O MC E) as FF.
  set (g := fun m u v => sqrt (1 - exp (-2 * mutual_information M (pair_prob m u v)))).
  assert (G : exists arrays, mapM (fun '(k, s) => latent_correlation s (junk k)) (combine (seq 0 (length (es_members es))) (es_members es)) = Ok arrays /\
    Forall2 (fun m a => length a = V /\ forall u, (u < V)%nat -> length (nth u a []) = V /\ forall v, (v < V)%nat -> nth v (nth u a []) 0 = g m u v) ms arrays).
  { clear NE E O. generalize 0%nat. induction FF as [|m s ms members Es FF IH]; intros k; [exists []; split; [reflexivity|constructor]|].
    destruct (IH ltac:(intros; apply C; now right) (S k)) as (arrays & Ea & R).
    destruct (C34_proof ws V M N m mst s (junk k) (C m (or_introl eq_refl)) MC Es) as (rows & Er & L & H).
    exists (rows :: arrays). cbn [length seq combine mapM]. rewrite Er, Ea. split; [reflexivity|]. constructor; auto. split; [auto|].
    intros u Hu. split; [apply (H u u Hu Hu)|]. intros v Hv. apply (H u v Hu Hv). }
  destruct G as (arrays & EA & R). unfold ens_latent_correlation. rewrite EA. cbn [bind].
  destruct (members_nonempty ws V M N mst ms es O MC E) as (NM & LM).
  destruct (es_members es) as [|s0 rest] eqn:EM; [congruence|]. unfold get at 1. cbn [nth_error bind].
  assert (VS : sv_V s0 = V).
  { destruct (members_in ws V M N mst ms es s0 O MC E) as (m & _ & Cm & Es); [rewrite EM; now left|].
    destruct (build_server ws V M N m Cm mst MC) as (s' & edges & E' & SF & _). rewrite Es in E'. injection E' as <-. unfold sv_V. now rewrite (proj1 (sf_tree _ _ _ _ _ SF)). }
  rewrite VS.
  assert (RW : forall u, (u < V)%nat -> exists row, (rows <- mapM (fun a => get IndexError a u) arrays ;; average rows) = Ok row /\ length row = V /\
    forall v, (v < V)%nat -> nth v row 0 = sumf ms (fun m => g m u v) / INR (length ms)).
  { intros u Hu. assert (EQ : mapM (fun a => get IndexError a u) arrays = Ok (map (fun a => nth u a []) arrays)).
    { clear - R Hu. induction R as [|m a ms arrays (L & _) R IH]; [reflexivity|]. cbn [mapM]. unfold get at 1. rewrite (nth_error_nth' a [] (n := u)) by lia. cbn [bind]. rewrite IH. reflexivity. }
    rewrite EQ. cbn [bind]. destruct (average_Ok V (map (fun a => nth u a []) arrays)) as (row & ER & LR & HR).
    - intros Z. apply map_eq_nil in Z. rewrite Z in R. inversion R. subst. congruence.
    - intros a I. apply in_map_iff in I. destruct I as (b & <- & I). clear - R I Hu. induction R as [|m b' ms arrays (L & Hb) R IH]; [destruct I|]. destruct I as [<-|I]; auto. now apply Hb.
    - exists row. split; [auto|]. split; [auto|]. intros v Hv. rewrite HR by auto. rewrite map_length, <- (Forall2_len _ _ _ R), sumf_map. f_equal.
      clear - R Hu Hv. induction R as [|m a ms arrays (L & Ha) R IH]; [reflexivity|]. rewrite !sumf_cons, IH. f_equal. now apply Ha. }
  assert (ALL : exists rows, mapM (fun v => rows <- mapM (fun a => get IndexError a v) arrays ;; average rows) (seq 0 V) = Ok rows /\ length rows = V /\
    forall u, (u < V)%nat -> length (nth u rows []) = V /\ forall v, (v < V)%nat -> nth v (nth u rows []) 0 = sumf ms (fun m => g m u v) / INR (length ms)).
  { clear - RW. assert (W : forall a n, (a + n <= V)%nat -> exists rows, mapM (fun v => rows <- mapM (fun a => get IndexError a v) arrays ;; average rows) (seq a n) = Ok rows /\ length rows = n /\
      forall u, (u < n)%nat -> length (nth u rows []) = V /\ forall v, (v < V)%nat -> nth v (nth u rows []) 0 = sumf ms (fun m => g m (a + u)%nat v) / INR (length ms)).
    { intros a n. revert a. induction n; intros a L; [exists []; split; [reflexivity|]; split; [reflexivity|]; intros; lia|].
      destruct (RW a ltac:(lia)) as (row & ER & LR & HR). destruct (IHn (S a) ltac:(lia)) as (rows & Es & Ls & Hs). exists (row :: rows). cbn [seq mapM]. rewrite ER. cbn [bind]. rewrite Es. cbn [bind].
      split; [reflexivity|]. split; [cbn; lia|]. intros [|u] Hu; cbn [nth].
      - split; [auto|]. intros v Hv. rewrite HR by auto. now rewrite Nat.add_0_r.
      - destruct (Hs u ltac:(lia)) as (A & B). split; [auto|]. intros v Hv. rewrite B by auto. now replace (S a + u)%nat with (a + S u)%nat by lia. }
    exact (W 0%nat V (le_n V)). }
  destruct ALL as (rows & ER & LR & HR). exists rows. split; [exact ER|]. split; [exact LR|]. intros u v Hu Hv.
  assert (K : forall m, In m ms -> g m u v = g m v u /\ 0 <= g m u v < 1 /\ g m u v <= g m u u).
  { intros m Hm. destruct (build_server ws V M N m (C m Hm) mst MC) as (s & edges & Es & _).
    destruct (C34_proof ws V M N m mst s (junk 0%nat) (C m Hm) MC Es) as (t & _ & _ & H).
    destruct (H u v Hu Hv) as (_ & H1 & _ & H2 & H3 & H4). destruct (H v u Hv Hu) as (_ & H5 & _). destruct (H u u Hu Hu) as (_ & H6 & _).
    unfold g. rewrite <- H1, <- H5, <- H6. tauto. }
  destruct (HR u Hu) as (L1 & H1). destruct (HR v Hv) as (L2 & H2). cbv zeta. rewrite !H1, H2 by auto. split; [auto|]. split; [reflexivity|]. split.
  - f_equal. apply sumf_ext. intros m Hm. now apply K.
  - split; [split|].
    + pose proof (average_between ms (fun m => g m u v) 0 1 NE) as B. apply B. intros m Hm. destruct (K m Hm) as (_ & ? & _). lra.
    + apply average_below; auto. intros m Hm. now apply K.
    + unfold Rdiv. apply Rmult_le_compat_r; [left; apply Rinv_0_lt_compat; now apply size_pos|]. apply sumf_le. intros m Hm. now apply K.
Qed.

Lemma C31_ens : forall ws V M N mst ms es counts data, ms <> [] -> (forall m, In m ms -> consistent ws V M N m) ->
  mst_contract mst -> ensemble_server mst ms = Ok es -> (forall row, In row data -> length row = list_sum ws) ->
  ens_median es counts data = Raise NotImplementedError.
Proof.
  intros ws V M N mst ms es counts data NE C MC E LD. destruct ms as [|m0 ms]; [congruence|].
  assert (ER : es_ri es = make_ragged_index ws).
  { rewrite <- (cm_ri _ _ _ _ _ (C m0 (or_introl eq_refl))). unfold ensemble_server in E.
    repeat (match goal with E : bind ?x _ = Ok _ |- _ => destruct x; [|discriminate]; cbn [bind] in E end). now injection E as <-. }
  unfold ens_median. rewrite ER, mri_last. cbn [bind]. rewrite (proj2 (forallb_forall _ _)); [reflexivity|]. intros row I. apply Nat.eqb_eq. auto.
Qed.

(** ** sample_tree *)
Lemma tree_samples_always V grid logits : make_complete_graph V = Ok grid -> length logits = length grid -> forall n edges, spanning_tree V edges ->
  always (fun l => length l = n /\ forall T, In T l -> spanning_tree V T) (tree_samples grid logits edges n).
Proof.
  intros G L. induction n; intros edges T; cbn [tree_samples].
  - cbn. tauto.
  - apply always_bind. eapply always_mono; [|apply (C05_proof V grid (map Some logits) edges G T); now rewrite map_length].
    intros T1 (S1 & _). apply always_bind. eapply always_mono; [|apply IHn; exact S1]. intros l (Ll & Hl). cbn [always]. cbn [length]. split; [lia|]. intros T2 [<-|I]; auto.
Qed.

Lemma server_trees : forall ws V M N m mst s n, consistent ws V M N m -> mst_contract mst -> tree_server mst m = Ok s ->
  always (fun l => length l = n /\ forall T, In T l -> spanning_tree V T) (server_sample_tree s n).
Proof.
  intros ws V M N m mst s n C MC E.
  destruct (build_server ws V M N m C mst MC) as (s' & edges & E' & SF & _ & _ & _ & _ & SL & (T & ET & (CT & _) & _) & _). rewrite E in E'. injection E' as <-.
  unfold server_sample_tree. replace (sv_V s) with V by (unfold sv_V; now rewrite (proj1 (sf_tree _ _ _ _ _ SF))). rewrite make_complete_graph_Ok. cbn [lift rbind]. apply tree_samples_always.
  - apply make_complete_graph_Ok.
  - rewrite SL, (cm_logits _ _ _ _ _ C), complete_grid_length, <- tri2, Nat.mul_comm. apply Nat.div_mul. lia.
  - now rewrite ET.
Qed.

Lemma ens_trees : forall ws V M N mst ms es n, ms <> [] -> (forall m, In m ms -> consistent ws V M N m) ->
  mst_contract mst -> ensemble_server mst ms = Ok es ->
  always (fun l => length l = n /\ forall T, In T l -> spanning_tree V T) (ens_sample_tree es n).
Proof.
  intros ws V M N mst ms es n NE C MC E. assert (O : ens_ok ws V M N ms) by (split; auto). unfold ens_sample_tree, split_samples.
  apply (mixture_always [] server_sample_tree); [apply (members_nonempty ws V M N mst ms es O MC E)|].
  intros s k I. destruct (members_in ws V M N mst ms es s O MC E I) as (m & _ & Cm & Es). apply (server_trees ws V M N m mst s k); auto.
Qed.
