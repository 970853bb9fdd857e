(** Proofs about EnsembleServer (C28, C32 - C36). *)
From Coq Require Import List Arith Lia Bool ZArith Reals Lra Permutation.
From Verif Require Import Base L_Base Spec_Graph L_Graph Spec_Sum L_Sum M_Structure M_Rand L_Rand M_Util Spec_Ragged L_Ragged M_Array M_SampleTree M_EstimateTree Spec_Trees Spec_MST L_Estimate M_Training Spec_Stats L_Stats Spec_Joint Spec_Conditional M_Serving Spec_Serving Spec_Summary L_Server L_Serve1 L_Serve2 L_Serve3 L_Summary L_Observed M_EnsembleServer L_Shuffle.
Import ListNotations.
Open Scope R_scope.

Lemma mapM_Forall2 {A B} (f : A -> result B) l l' : mapM f l = Ok l' <-> Forall2 (fun a b => f a = Ok b) l l'.
Proof.
  revert l'. induction l as [|a l IH]; intros l'; cbn [mapM].
  - split; [intros E; injection E as <-; constructor|]. intros H. now inversion H.
  - split.
    + destruct (f a) as [b|] eqn:E; [|discriminate]. cbn [bind]. destruct (mapM f l) as [bs|]; [|discriminate]. cbn [bind]. intros H. injection H as <-.
      constructor; auto. now apply IH.
    + intros H. inversion H as [|? b ? bs E F]; subst. apply IH in F. now rewrite E, F.
Qed.

Lemma Forall2_len {A B} (P : A -> B -> Prop) l l' : Forall2 P l l' -> length l = length l'.
Proof. induction 1; cbn; congruence. Qed.

Lemma nth_map_lt {A B} (f : A -> B) l i d d' : (i < length l)%nat -> nth i (map f l) d = f (nth i l d').
Proof. revert i. induction l; intros [|i] H; cbn in *; try lia; auto. apply IHl. lia. Qed.

Lemma add_arrays_Ok K a b : length a = K -> length b = K -> exists c, add_arrays a b = Ok c /\ length c = K /\ forall i, (i < K)%nat -> nth i c 0 = nth i a 0 + nth i b 0.
Proof.
  intros LA LB. unfold add_arrays. rewrite LA, LB, Nat.eqb_refl. eexists. split; [reflexivity|]. split; [rewrite map_length, combine_length; lia|].
  intros i Hi. rewrite (nth_map_lt _ _ _ _ (0, 0)) by (rewrite combine_length; lia). now rewrite combine_nth by lia.
Qed.

Lemma average_Ok K arrays : arrays <> [] -> (forall a, In a arrays -> length a = K) ->
  exists c, average arrays = Ok c /\ length c = K /\ forall i, (i < K)%nat -> nth i c 0 = sumf arrays (fun a => nth i a 0) / INR (length arrays).
Proof.
  intros NE L. destruct arrays as [|a rest]; [congruence|]. unfold average.
  assert (G : forall rest a, length a = K -> (forall b, In b rest -> length b = K) ->
    exists c, foldM add_arrays rest a = Ok c /\ length c = K /\ forall i, (i < K)%nat -> nth i c 0 = sumf (a :: rest) (fun a => nth i a 0)).
  { clear. induction rest as [|b rest IH]; intros a LA LR.
    - exists a. split; [reflexivity|]. split; [auto|]. intros. unfold sumf; cbn; ring.
    - destruct (add_arrays_Ok K a b LA ltac:(apply LR; now left)) as (c & E & LC & H). destruct (IH c LC ltac:(intros; apply LR; now right)) as (c' & E' & LC' & H').
      exists c'. cbn [foldM]. rewrite E. cbn [bind]. split; [auto|]. split; [auto|]. intros i Hi. rewrite H' by auto. rewrite !sumf_cons, H by auto. ring. }
  destruct (G rest a ltac:(apply L; now left) ltac:(intros; apply L; now right)) as (c & E & LC & H).
  rewrite E. cbn [bind]. eexists. split; [reflexivity|]. split; [now rewrite map_length|]. intros i Hi.
  rewrite (nth_map_lt _ _ _ _ 0) by lia. now rewrite H.
Qed.

(** ** Construction *)
Definition ens_ok ws V M N (ms : list smodel) : Prop := ms <> [] /\ forall m, In m ms -> consistent ws V M N m.

Lemma members_of ws V M N mst ms es : ens_ok ws V M N ms -> mst_contract mst -> ensemble_server mst ms = Ok es ->
  Forall2 (fun m s => tree_server mst m = Ok s) ms (es_members es).
Proof.
  intros (NE & C) MC E. destruct ms as [|m0 ms]; [congruence|]. unfold ensemble_server in E.
  destruct (mapM (tree_server mst) (m0 :: ms)) as [members|] eqn:EM; [|discriminate]. cbn [bind] in E.
  destruct (average _) as [l|]; [|discriminate]. cbn [bind] in E. destruct (get _ _ _) as [s0|]; [|discriminate]. cbn [bind] in E.
  destruct (make_complete_graph _) as [g|]; [|discriminate]. cbn [bind] in E. destruct (estimate_tree _ _ _) as [t|]; [|discriminate]. cbn [bind] in E.
  injection E as <-. cbn [es_members]. now apply mapM_Forall2.
Qed.

Lemma ens_build ws V M N mst ms : ens_ok ws V M N ms -> mst_contract mst ->
  exists es, ensemble_server mst ms = Ok es /\ length (es_logits es) = (V * (V - 1) / 2)%nat /\
    (forall k, (k < V * (V - 1) / 2)%nat -> nth k (es_logits es) 0 = sumf ms (fun m => nth k (d_logits m) 0) / INR (length ms)) /\
    canonical_tree V (es_est es) /\
    forall T', spanning_tree V T' ->
      sumf T' (fun '(x, y) => nth (find_complete_edge x y) (es_logits es) 0) <= sumf (es_est es) (fun '(x, y) => nth (find_complete_edge x y) (es_logits es) 0).
Proof.
  intros (NE & C) MC.
  assert (H : exists members, Forall2 (fun m s => tree_server mst m = Ok s /\ sv_logits s = d_logits m /\ sv_V s = V) ms members).
  { clear NE. induction ms as [|m ms IH]; [exists []; constructor|]. destruct IH as (l & F); [intros; apply C; now right|].
    destruct (build_server ws V M N m (C m (or_introl eq_refl)) mst MC) as (s & edges & E & SF & _ & _ & _ & _ & SL & _). exists (s :: l). constructor; auto. split; [auto|].
    split; [assumption|]. unfold sv_V. now rewrite (proj1 (sf_tree _ _ _ _ _ SF)). }
  destruct H as (members & F).
  destruct ms as [|m0 ms]; [congruence|]. unfold ensemble_server.
  assert (EM : mapM (tree_server mst) (m0 :: ms) = Ok members).
  { apply mapM_Forall2. clear - F. induction F; constructor; tauto. }
  rewrite EM. cbn [bind]. set (K := (V * (V - 1) / 2)%nat).
  assert (LL : map sv_logits members = map d_logits (m0 :: ms)).
  { clear - F. induction F as [|? ? ? ? (_ & E & _)]; [reflexivity|]. cbn [map]. now f_equal. }
  rewrite LL. destruct (average_Ok K (map d_logits (m0 :: ms))) as (l & EA & LA & HA).
  { discriminate. }
  { intros a Ha. apply in_map_iff in Ha. destruct Ha as (m & <- & Hm). apply (cm_logits _ _ _ _ _ (C m Hm)). }
  rewrite EA. cbn [bind]. destruct members as [|s0 mem]; [inversion F|]. assert (VS : sv_V s0 = V) by (inversion F; tauto).
  unfold get. cbn [nth_error bind].
  rewrite VS. destruct (cm_tree _ _ _ _ _ (C m0 (or_introl eq_refl))) as (es0 & (SZ & _ & _) & _).
  assert (HV : (1 <= V)%nat) by lia.
  rewrite L_Pairing.make_complete_graph_Ok. cbn [bind].
  destruct (estimate_tree_Ok mst V _ l MC HV (L_Pairing.make_complete_graph_Ok V)) as (T & ET & CT & MX).
  { rewrite LA, L_Pairing.complete_grid_length. unfold K. rewrite <- tri2. rewrite Nat.mul_comm. apply Nat.div_mul. lia. }
  rewrite ET. cbn [bind]. eexists. split; [reflexivity|]. cbn [es_logits es_est]. split; [exact LA|]. split; [|split; auto].
  intros k Hk. rewrite HA by auto. rewrite sumf_map, map_length. reflexivity.
Qed.

(** ** logprob *)
Lemma logsumexp_eq a : a <> [] -> logsumexp a = ln (sumf a exp).
Proof.
  intros NE. unfold logsumexp. rewrite (sumf_ext _ _ (fun x => exp x * exp (- rmax a))) by (intros; unfold Rminus; apply exp_plus).
  rewrite sumf_scal_r, ln_mult, ln_exp; [ring| |apply exp_pos].
  apply sumf_pos; [intros; left; apply exp_pos|]. destruct a as [|x a]; [congruence|]. exists x. split; [now left|apply exp_pos].
Qed.

Lemma size_pos {A} (l : list A) : l <> [] -> 0 < INR (length l).
Proof. intros NE. apply lt_0_INR. destruct l; [congruence|cbn; lia]. Qed.

Lemma C35_value ws V M N mst ms es data : ens_ok ws V M N ms -> mst_contract mst -> ensemble_server mst ms = Ok es ->
  (forall row, In row data -> length row = list_sum ws) ->
  mapM (fun s => logprob s data) (es_members es) = Ok (map (fun m => map (fun row => ln (row_prob ws m row)) data) ms) /\
  ens_logprob es data = Ok (map (fun row => ln (sumf ms (fun m => row_prob ws m row) / INR (length ms))) data) /\
  forall m row, In m ms -> In row data -> 0 < row_prob ws m row.
Proof.
  intros (NE & C) MC E LD. pose proof (members_of ws V M N mst ms es (conj NE C) MC E) as F. pose proof (Forall2_len _ _ _ F) as LM.
  assert (P : forall m row, In m ms -> In row data -> 0 < row_prob ws m row).
  { intros m row Hm Hr. destruct (build_server ws V M N m (C m Hm) mst MC) as (s & edges & Es & _). now apply (C26_data ws V M N m mst s data (C m Hm) MC Es LD). }
  assert (EM : mapM (fun s => logprob s data) (es_members es) = Ok (map (fun m => map (fun row => ln (row_prob ws m row)) data) ms)).
  { apply mapM_Forall2. clear NE E LM P. induction F as [|m s ms members Es F IH]; [constructor|]. cbn [map]. constructor.
    - now apply (C26_data ws V M N m mst s data (C m (or_introl eq_refl)) MC Es LD).
    - apply IH. intros; apply C; now right. }
  split; [exact EM|]. split; [|exact P]. unfold ens_logprob. rewrite EM. cbn [bind].
  rewrite (proj2 (forallb_forall _ _)).
  2: { intros x Hx. apply in_map_iff in Hx. destruct Hx as (m & <- & _). rewrite map_length. apply Nat.eqb_refl. }
  cbn [assert_ bind]. f_equal. rewrite <- LM.
  transitivity (map (fun n => ln (sumf ms (fun m => row_prob ws m (nth n data [])) / INR (length ms))) (seq 0 (length data))).
  - apply map_ext_in. intros n Hn. apply in_seq in Hn. rewrite map_map.
    rewrite logsumexp_eq by (destruct ms; [congruence|discriminate]). rewrite sumf_map.
    rewrite (sumf_ext _ _ (fun m => row_prob ws m (nth n data []))).
    + unfold Rdiv. rewrite ln_mult, ln_Rinv; [ring| | |].
      * now apply size_pos.
      * apply sumf_pos; [intros m Hm; left; apply P; auto; apply nth_In; lia|]. destruct ms as [|m ms]; [congruence|]. exists m. split; [now left|]. apply P; [now left|apply nth_In; lia].
      * apply Rinv_0_lt_compat. now apply size_pos.
    + intros m Hm. rewrite (nth_map_lt _ _ _ _ []) by lia. apply exp_ln, P; auto. apply nth_In. lia.
  - symmetry. rewrite <- (at_id [] data) at 1. unfold at_. now rewrite map_map.
Qed.

(** ** Random choices *)
Lemma multinomial_always K n w : length w = K -> w <> [] ->
  always (fun nums => length nums = K /\ list_sum nums = n) (multinomial n w).
Proof.
  intros LW NE. unfold multinomial. rewrite LW.
  enough (G : forall a nums, length nums = K -> always (fun out => length out = K /\ list_sum out = (list_sum nums + n)%nat)
    (rfold (fun nums _ => Cat w (fun i => Ret (upd nums i (S (nth i nums 0%nat))))) (seq a n) nums)).
  { eapply always_mono; [|apply (G 0%nat (repeat 0%nat K)), repeat_length]. intros out (A & B). split; [auto|]. rewrite B.
    assert (Z : list_sum (repeat 0%nat K) = 0%nat) by (clear; induction K; auto). lia. }
  induction n; intros a nums L; cbn [seq rfold].
  - cbn. split; [auto|lia].
  - cbn [rbind always]. split; [auto|]. intros i (Hi & _). rewrite LW in Hi.
    eapply always_mono; [|apply IHn; now rewrite upd_length]. intros out (A & B). split; [auto|]. rewrite B.
    assert (U : forall l i, (i < length l)%nat -> list_sum (upd l i (S (nth i l 0%nat))) = S (list_sum l)).
    { clear. induction l as [|x l IH]; intros [|i] H; cbn in *; try lia. fold (list_sum (upd l i (S (nth i l 0%nat)))) (list_sum l). rewrite IH by lia. lia. }
    rewrite U by lia. lia.
Qed.

Lemma rmap_always {Sr T} (pr : Sr -> nat -> rprog (list T)) (P : T -> Prop) ms : (forall s n, In s ms -> always (fun l => length l = n /\ forall x, In x l -> P x) (pr s n)) ->
  forall nums, length nums = length ms ->
  always (fun parts => length (concat parts) = list_sum nums /\ forall x, In x (concat parts) -> P x) (rmap (fun '(s, n) => pr s n) (combine ms nums)).
Proof.
  induction ms as [|s ms IH]; intros H [|n nums] L; try discriminate; cbn [combine rmap].
  - cbn. tauto.
  - apply always_bind. eapply always_mono; [|apply H; now left]. intros l (Ll & Pl). apply always_bind.
    eapply always_mono; [|apply (IH ltac:(intros; apply H; now right) nums); cbn in L; lia]. intros parts (Lp & Pp). cbn [always concat].
    rewrite app_length, Ll, Lp. split; [reflexivity|]. intros x I. apply in_app_or in I. destruct I; auto.
Qed.

Lemma shuffled_always {T} (d : T) n (P : T -> Prop) l : length l = n -> (forall x, In x l -> P x) ->
  always (fun out => length out = n /\ forall x, In x out -> P x) (shuffled d n l).
Proof.
  intros L H. unfold shuffled. cbn [always]. intros s PS. rewrite L, Nat.eqb_refl. cbn [assert_ lift rbind always]. fold (at_ d l s).
  rewrite at_length, (Permutation_length PS), seq_length. split; [auto|]. intros x I. apply H. now apply (Permutation_in x (at_perm d l s PS)).
Qed.

Lemma mixture_always {Sr T} (d : T) (pr : Sr -> nat -> rprog (list T)) (P : T -> Prop) ms n : ms <> [] ->
  (forall s n, In s ms -> always (fun l => length l = n /\ forall x, In x l -> P x) (pr s n)) ->
  always (fun out => length out = n /\ forall x, In x out -> P x)
    (rbind (multinomial n (map (fun _ => 1 / INR (length ms)) (seq 0 (length ms)))) (fun nums =>
       rbind (rmap (fun '(s, n) => pr s n) (combine ms nums)) (fun parts => shuffled d n (concat parts)))).
Proof.
  intros NE H. apply always_bind. eapply always_mono; [|apply (multinomial_always (length ms))].
  - intros nums (L & SN). apply always_bind. eapply always_mono; [|apply (rmap_always pr P ms H nums L)].
    intros parts (LP & PP). apply shuffled_always; [congruence|auto].
  - now rewrite map_length, seq_length.
  - destruct ms; [congruence|discriminate].
Qed.

Lemma multinomial_surely K n w : length w = K -> w <> [] ->
  surely (fun nums => length nums = K /\ list_sum nums = n) (multinomial n w).
Proof.
  intros LW NE. unfold multinomial. rewrite LW.
  enough (G : forall a nums, length nums = K -> surely (fun out => length out = K /\ list_sum out = (list_sum nums + n)%nat)
    (rfold (fun nums _ => Cat w (fun i => Ret (upd nums i (S (nth i nums 0%nat))))) (seq a n) nums)).
  { eapply surely_mono; [|apply (G 0%nat (repeat 0%nat K)), repeat_length]. intros out (A & B). split; [auto|]. rewrite B.
    assert (Z : list_sum (repeat 0%nat K) = 0%nat) by (clear; induction K; auto). lia. }
  induction n; intros a nums L; cbn [seq rfold].
  - cbn. split; [auto|lia].
  - cbn [rbind surely]. split; [auto|]. intros i Hi. rewrite LW in Hi.
    eapply surely_mono; [|apply IHn; now rewrite upd_length]. intros out (A & B). split; [auto|]. rewrite B.
    assert (U : forall l i, (i < length l)%nat -> list_sum (upd l i (S (nth i l 0%nat))) = S (list_sum l)).
    { clear. induction l as [|x l IH]; intros [|i] H; cbn in *; try lia. fold (list_sum (upd l i (S (nth i l 0%nat)))) (list_sum l). rewrite IH by lia. lia. }
    rewrite U by lia. lia.
Qed.

Lemma rmap_surely {Sr T} (pr : Sr -> nat -> rprog (list T)) (P : T -> Prop) ms : (forall s n, In s ms -> surely (fun l => length l = n /\ forall x, In x l -> P x) (pr s n)) ->
  forall nums, length nums = length ms ->
  surely (fun parts => length (concat parts) = list_sum nums /\ forall x, In x (concat parts) -> P x) (rmap (fun '(s, n) => pr s n) (combine ms nums)).
Proof.
  induction ms as [|s ms IH]; intros H [|n nums] L; try discriminate; cbn [combine rmap].
  - cbn. tauto.
  - apply surely_bind. eapply surely_mono; [|apply H; now left]. intros l (Ll & Pl). apply surely_bind.
    eapply surely_mono; [|apply (IH ltac:(intros; apply H; now right) nums); cbn in L; lia]. intros parts (Lp & Pp). cbn [surely concat].
    rewrite app_length, Ll, Lp. split; [reflexivity|]. intros x I. apply in_app_or in I. destruct I; auto.
Qed.

Lemma shuffled_surely {T} (d : T) n (P : T -> Prop) l : length l = n -> (forall x, In x l -> P x) ->
  surely (fun out => length out = n /\ forall x, In x out -> P x) (shuffled d n l).
Proof.
  intros L H. unfold shuffled. cbn [surely]. intros s PS. rewrite L, Nat.eqb_refl. cbn [assert_ lift rbind surely]. fold (at_ d l s).
  rewrite at_length, (Permutation_length PS), seq_length. split; [auto|]. intros x I. apply H. now apply (Permutation_in x (at_perm d l s PS)).
Qed.

Lemma mixture_surely {Sr T} (d : T) (pr : Sr -> nat -> rprog (list T)) (P : T -> Prop) ms n : ms <> [] ->
  (forall s n, In s ms -> surely (fun l => length l = n /\ forall x, In x l -> P x) (pr s n)) ->
  surely (fun out => length out = n /\ forall x, In x out -> P x)
    (rbind (multinomial n (map (fun _ => 1 / INR (length ms)) (seq 0 (length ms)))) (fun nums =>
       rbind (rmap (fun '(s, n) => pr s n) (combine ms nums)) (fun parts => shuffled d n (concat parts)))).
Proof.
  intros NE H. apply surely_bind. eapply surely_mono; [|apply (multinomial_surely (length ms))].
  - intros nums (L & SN). apply surely_bind. eapply surely_mono; [|apply (rmap_surely pr P ms H nums L)].
    intros parts (LP & PP). apply shuffled_surely; [congruence|auto].
  - now rewrite map_length, seq_length.
  - destruct ms; [congruence|discriminate].
Qed.

Lemma members_in ws V M N mst ms es s : ens_ok ws V M N ms -> mst_contract mst -> ensemble_server mst ms = Ok es -> In s (es_members es) ->
  exists m, In m ms /\ consistent ws V M N m /\ tree_server mst m = Ok s.
Proof.
  intros (NE & C) MC E I. pose proof (members_of ws V M N mst ms es (conj NE C) MC E) as F. clear E NE. induction F as [|m s' ms members Es F IH]; [destruct I|].
  destruct I as [->|I].
  - exists m. split; [now left|]. split; [apply C; now left|auto].
  - destruct IH as (m' & Im & R); [intros; apply C; now right|auto|]. exists m'. split; [now right|auto].
Qed.

Lemma members_nonempty ws V M N mst ms es : ens_ok ws V M N ms -> mst_contract mst -> ensemble_server mst ms = Ok es ->
  es_members es <> [] /\ length (es_members es) = length ms.
Proof.
  intros O MC E. pose proof (Forall2_len _ _ _ (members_of ws V M N mst ms es O MC E)) as L. split; [|auto].
  destruct O as (NE & _). intros Z. rewrite Z in L. destruct ms; [congruence|discriminate].
Qed.

Lemma C28_ens_surely ws V M N mst ms es n counts data : ens_ok ws V M N ms -> mst_contract mst -> ensemble_server mst ms = Ok es ->
  length counts = V -> (forall v, (v < V)%nat -> (0 <= nth v counts 0 <= 127)%Z) ->
  (forall v, (v < V)%nat -> (0 < nth v counts 0)%Z -> (1 <= nth v ws 0)%nat) ->
  (forall d, data = Some d -> length d = list_sum ws) ->
  surely (fun rows => length rows = n /\ forall x, In x rows -> legal_row ws counts x) (ens_sample es n counts data).
Proof.
  intros O MC E CL CB CW DL. unfold ens_sample, split_samples.
  apply (mixture_surely [] (fun s n => sample s n counts data)); [apply (members_nonempty ws V M N mst ms es O MC E)|].
  intros s k I. destruct (members_in ws V M N mst ms es s O MC E I) as (m & _ & C & Es). apply (C28_surely ws V M N m mst s k counts data); auto.
Qed.
Lemma C28_ens ws V M N mst ms es n counts data : ens_ok ws V M N ms -> mst_contract mst -> ensemble_server mst ms = Ok es ->
  length counts = V -> (forall v, (v < V)%nat -> (0 <= nth v counts 0 <= 127)%Z) ->
  (forall v, (v < V)%nat -> (0 < nth v counts 0)%Z -> (1 <= nth v ws 0)%nat) ->
  (forall d, data = Some d -> length d = list_sum ws) ->
  always (fun rows => length rows = n /\ forall x, In x rows -> legal_row ws counts x) (ens_sample es n counts data).
Proof. intros. apply surely_always. eapply C28_ens_surely; eauto. Qed.


(** ** The law of the samples *)
Lemma sample_shape s n counts data (f g : result (list (list Z)) -> R) : (forall e, f (Raise e) = g (Raise e)) ->
  (forall l, length l = n -> f (Ok l) = g (Ok l)) -> expect (sample s n counts data) f = expect (sample s n counts data) g.
Proof.
  intros HE HL. unfold sample. rewrite !expect_bind. apply expect_ext. intros [u|e]; [|auto]. apply expect_ext. intros [u2|e]; [|auto].
  apply expect_ext. intros [(((mi & mo) & vs) & fs)|e]; [|auto]. cbn [expect]. apply HL. now rewrite map_length, seq_length.
Qed.

Lemma ens_law ws V M N mst ms es counts data X : ens_ok ws V M N ms -> mst_contract mst -> ensemble_server mst ms = Ok es ->
  length counts = V -> (forall v, (v < V)%nat -> (0 <= nth v counts 0 <= 127)%Z) ->
  (forall v, (v < V)%nat -> (0 < nth v counts 0)%Z -> (1 <= nth v ws 0)%nat) ->
  (forall d, data = Some d -> length d = list_sum ws) -> (forall x, In x X -> legal_row ws counts x) ->
  prob_of (ens_sample es (length X) counts data) X =
  prodf X (fun x => arrangements ws counts x *
    (sumf ms (fun m => row_prob ws m (merge (evidence ws data) x) / row_prob ws m (evidence ws data)) / INR (length ms))).
Proof.
  intros O MC E CL CB CW DL LR. destruct (members_nonempty ws V M N mst ms es O MC E) as (NE & LM).
  pose proof (members_of ws V M N mst ms es O MC E) as F.
  set (q := fun m x => arrangements ws counts x * (row_prob ws m (merge (evidence ws data) x) / row_prob ws m (evidence ws data))).
  assert (FF : Forall2 (follows (list_eq_dec Z.eq_dec) (fun s n => sample s n counts data) (legal_row ws counts)) (es_members es) (map q ms)).
  { destruct O as (_ & C). clear E NE LM. induction F as [|m s ms members Es F IH]; [constructor|]. cbn [map]. constructor.
    - intros Y LY. transitivity (prob_of (sample s (length Y) counts data) Y);
        [|exact (law ws V M N m mst s (length Y) counts data Y (C m (or_introl eq_refl)) MC Es CL CB CW DL eq_refl LY)].
      unfold prob_of, prob. apply expect_ext. intros [a|e]; [|reflexivity]. unfold hits, is_. destruct (list_eq_dec _ _ _); reflexivity.
    - apply IH. intros; apply C; now right. }
  unfold prob_of, prob, ens_sample, split_samples.
  rewrite (expect_ext _ _ _ (hits (list_eq_dec Z.eq_dec) X)).
  2: { intros [a|e]; [|reflexivity]. unfold hits, is_. destruct (list_eq_dec _ _ _); reflexivity. }
  rewrite (mixture_law [] (list_eq_dec Z.eq_dec) (fun s n => sample s n counts data) (legal_row ws counts)
    (fun s n f g => sample_shape s n counts data f g) (es_members es) (map q ms) X NE FF LR).
  apply prodf_ext. intros x _. rewrite sumf_map, LM. unfold q. rewrite sumf_scal. unfold Rdiv. ring.
Qed.
