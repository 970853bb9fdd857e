(** Proofs about groups files with features on both sides of a group (C47). *)
From Coq Require Import String Ascii.
From Coq Require Import List Arith ZArith Reals Bool Lia Lra.
From Verif Require Import Base L_Base M_Structure L_Pairing M_Util M_Strings M_Format Spec_Schema L_Dict L_Schema L_Import2 M_Groups Spec_Groups L_Groups.
Import ListNotations.
Open Scope list_scope.
Open Scope nat_scope.

Section Prior.
Variables (V : nat) (index : sdict nat).
Hypothesis IDX : forall n v, dget index n = Some v -> v < V.
Notation K := (V * (V - 1) / 2).

Lemma inner_put (logit : R) v1 targets : v1 < V ->
  (forall t, In t targets -> exists v2, dget index t = Some v2) ->
  forall D p, written K D p -> exists p', foldM (fun prior target => v2 <- dget_ index target ;; if v1 =? v2 then Ok prior else put IndexError prior (find_complete_edge v1 v2) logit) targets p = Ok p' /\
    written K (fun k x => D k x \/ exists t v2, In t targets /\ dget index t = Some v2 /\ v1 <> v2 /\ k = find_complete_edge v1 v2 /\ x = logit) p'.
Proof.
  intros Hv HT D p W. apply L_Base.foldM_inv with (P := fun pre p' => written K (fun k x => D k x \/ exists t v2, In t pre /\ dget index t = Some v2 /\ v1 <> v2 /\ k = find_complete_edge v1 v2 /\ x = logit) p').
  - eapply written_ext; [|exact W]. intros k x. split; [auto|]. intros [H|(t & v2 & [] & _)]; auto.
  - intros pre t q Wq I. destruct (HT t I) as (v2 & E). unfold dget_. rewrite E. cbn [bind].
    destruct (Nat.eqb_spec v1 v2) as [EV|N].
    { exists q. split; [reflexivity|]. eapply written_ext; [|exact Wq]. intros k x. cbv beta. split.
      - intros [H|(t' & v' & A & B)]; [auto|]. right. exists t', v'. split; [apply in_or_app; auto|auto].
      - intros [H|(t' & v' & A & B & C & F)]; [auto|]. apply in_app_or in A. destruct A as [A|[<-|[]]].
        + right. exists t', v'. auto.
        + rewrite E in B. injection B as <-. congruence. }
    destruct (written_put K _ q (find_complete_edge v1 v2) logit Wq) as (p' & E' & W').
    { apply fce_range; eauto. }
    exists p'. split; [exact E'|]. eapply written_ext; [|exact W']. intros k x. cbv beta. split.
    + intros [[H|(t' & v' & A & B)]|(-> & ->)]; [auto| |].
      * right. exists t', v'. split; [apply in_or_app; auto|auto].
      * right. exists t, v2. split; [apply in_or_app; right; now left|auto].
    + intros [H|(t' & v' & A & B & C & F)]; [auto|]. apply in_app_or in A. destruct A as [A|[<-|[]]].
      * left. right. exists t', v'. auto.
      * right. rewrite E in B. injection B as <-. tauto.
Qed.

Lemma middle_put (logit : R) sources targets :
  (forall s, In s sources -> exists v1, dget index s = Some v1) -> (forall t, In t targets -> exists v2, dget index t = Some v2) ->
  forall D p, written K D p -> exists p', foldM (fun prior source => v1 <- dget_ index source ;;
      foldM (fun prior target => v2 <- dget_ index target ;; if v1 =? v2 then Ok prior else put IndexError prior (find_complete_edge v1 v2) logit) targets prior) sources p = Ok p' /\
    written K (fun k x => D k x \/ exists s t v1 v2, In s sources /\ In t targets /\ dget index s = Some v1 /\ dget index t = Some v2 /\ v1 <> v2 /\ k = find_complete_edge v1 v2 /\ x = logit) p'.
Proof.
  intros HS HT D p W.
  apply L_Base.foldM_inv with (P := fun pre p' => written K (fun k x => D k x \/ exists s t v1 v2, In s pre /\ In t targets /\ dget index s = Some v1 /\ dget index t = Some v2 /\ v1 <> v2 /\ k = find_complete_edge v1 v2 /\ x = logit) p').
  - eapply written_ext; [|exact W]. intros k x. split; [auto|]. intros [H|(s & t & v1 & v2 & [] & _)]; auto.
  - intros pre s q Wq I. destruct (HS s I) as (v1 & E). unfold dget_ at 1. rewrite E. cbn [bind].
    edestruct (inner_put logit v1 targets (IDX _ _ E)) as (p' & E' & W').
    { exact HT. }
    { exact Wq. }
    exists p'. split; [exact E'|]. eapply written_ext; [|exact W']. intros k x. cbv beta. split.
    + intros [[H|(s' & t & a & b & A & B)]|(t & v2 & A & B & C & F)]; [auto| |].
      * right. exists s', t, a, b. split; [apply in_or_app; auto|auto].
      * right. exists s, t, v1, v2. split; [apply in_or_app; right; now left|auto].
    + intros [H|(s' & t & a & b & A & B & C & F & G)]; [auto|]. apply in_app_or in A. destruct A as [A|[<-|[]]].
      * left. right. exists s', t, a, b. auto.
      * right. rewrite E in C. injection C as <-. exists t, b. auto.
Qed.

Lemma prior_put (logits : sdict R) (sources targets : sdict (list string)) :
  (forall g x s, In (g, x) logits -> In s (dget_default sources g []) -> exists v1, dget index s = Some v1) ->
  (forall g x t, In (g, x) logits -> In t (dget_default targets g []) -> exists v2, dget index t = Some v2) ->
  exists p', repaired_load_prior V index (logits, sources, targets) = Ok p' /\
    written K (fun k x => exists g s t v1 v2, In (g, x) logits /\ In s (dget_default sources g []) /\ In t (dget_default targets g []) /\
      dget index s = Some v1 /\ dget index t = Some v2 /\ v1 <> v2 /\ k = find_complete_edge v1 v2) p'.
Proof.
  intros HS HT. unfold repaired_load_prior.
  apply L_Base.foldM_inv with (P := fun pre p' => written K (fun k x => exists g s t v1 v2, In (g, x) pre /\ In s (dget_default sources g []) /\ In t (dget_default targets g []) /\
      dget index s = Some v1 /\ dget index t = Some v2 /\ v1 <> v2 /\ k = find_complete_edge v1 v2) p').
  - split; [apply repeat_length|]. intros k Hk. right. split; [intros x (g & s & t & v1 & v2 & [] & _)|]. apply nth_repeat.
  - intros pre [g x0] q Wq I.
    edestruct (middle_put x0 (dget_default sources g []) (dget_default targets g [])) as (p' & E' & W'); eauto.
    exists p'. split; [exact E'|]. eapply written_ext; [|exact W']. intros k x. cbv beta. split.
    + intros [(g' & s & t & a & b & A & B)|(s & t & a & b & A & B & C & F & G & H & ->)].
      * exists g', s, t, a, b. split; [apply in_or_app; auto|auto].
      * exists g, s, t, a, b. split; [apply in_or_app; right; now left|]. repeat (split; [auto|]). auto.
    + intros (g' & s & t & a & b & A & B & C & F & G & E). apply in_app_or in A. destruct A as [A|[A|[]]].
      * left. exists g', s, t, a, b. auto 10.
      * injection A as <- <-. right. exists s, t, a, b. tauto.
Qed.
End Prior.

Lemma C47_cliques : forall float_ types_csv values_csv sc header rows,
  load_schema float_ types_csv values_csv None = Ok sc ->
  4 <= length header -> map lower (firstn 4 header) = ["group"; "logit"; "source"; "target"]%string ->
  (forall g s, says rows g 1 s -> float_ s <> None) ->
  (forall g x n, logit_of float_ rows g x -> source_of rows g n \/ target_of rows g n -> In n (sc_names sc)) ->
  exists prior, cliques_load_schema float_ types_csv values_csv (Some (header :: rows)) =
      Ok (Schema (sc_names sc) (sc_index sc) (sc_types sc) (sc_cat_values sc) (sc_cat_index sc) (sc_ranges sc) (sc_ri sc) prior) /\
    (let V := length (sc_names sc) in length prior = V * (V - 1) / 2) /\
    forall a b i j, dget (sc_index sc) a = Some i -> dget (sc_index sc) b = Some j -> a <> b ->
      (exists g x, links rows g a b /\ logit_of float_ rows g x /\ nth (find_complete_edge i j) prior 0%R = x) \/
      ((forall g x, links rows g a b -> ~ logit_of float_ rows g x) /\ nth (find_complete_edge i j) prior 0%R = 0%R).
Proof.
  intros float_ types_csv values_csv sc header rows E HL HH FL KN.
  pose proof (C48_ok _ _ _ _ _ E) as SO.
  unfold load_schema in E. unfold cliques_load_schema. destruct (load_types types_csv) as [(names, types)|]; [|discriminate]. cbn [bind] in *.
  destruct (load_values types values_csv) as [(cats, ords)|]; [|discriminate]. cbn [bind] in *.
  destruct names as [|n0 names0]; [discriminate|]. set (names := n0 :: names0) in *. clearbody names. cbn [load_groups bind] in E.
  destruct (groups_Ok float_ header rows HL HH FL) as ([[logits sources] targets] & EG & ND & G1 & G2 & G3). rewrite EG. cbn [bind].
  destruct (value_indices types cats ords) as [((cv, ci), ranges)|] eqn:VI; [|discriminate]. cbn [bind] in *.
  destruct (ragged_layout names types cv) as [(ri, index)|] eqn:RL; [|discriminate]. cbn [bind] in *.
  destruct (load_prior (length names) index ([], [], [])) as [p0|] eqn:EP; [|discriminate]. cbn [bind] in E. injection E as <-.
  cbn [sc_names sc_index sc_types sc_cat_values sc_cat_index sc_ranges sc_ri] in *.
  pose proof (so_pos _ SO) as POS. pose proof (so_index _ SO) as IDX. cbn [sc_names sc_index] in POS, IDX.
  assert (LT : forall n v, dget index n = Some v -> v < length names) by (intros n v D; apply POS in D; apply nth_error_Some; congruence).
  assert (LG : forall g x, In (g, x) logits <-> logit_of float_ rows g x).
  { intros g x. rewrite <- G1. split; [now apply In_dget|apply dget_In]. }
  destruct (prior_put (length names) index LT logits sources targets) as (p & EQ & LP & WP).
  - intros g x s I S1. apply IDX. apply (KN g x); [now apply LG|left; now apply G2].
  - intros g x t I T1. apply IDX. apply (KN g x); [now apply LG|right; now apply G3].
  - exists p. rewrite EQ. cbn [bind]. split; [reflexivity|]. split; [exact LP|].
    intros a b i j Da Db N.
    assert (IJ : i <> j) by (intros ->; apply N; apply POS in Da, Db; congruence).
    destruct (WP (find_complete_edge i j)) as [(x & (g & s & t & v1 & v2 & A & B & C & F & G & NV & H) & EN)|(A & EN)].
    + apply fce_range; eauto.
    + left. exists g, x. split; [|split; [now apply LG|exact EN]].
      assert (Q : (v1 = i /\ v2 = j) \/ (v1 = j /\ v2 = i)).
      { destruct (Nat.lt_ge_cases i j), (Nat.lt_ge_cases v1 v2).
        - left. apply fce_inj_lt in H; auto. lia.
        - right. rewrite (fce_sym v1 v2) in H. apply fce_inj_lt in H; lia.
        - right. rewrite (fce_sym i j) in H. apply fce_inj_lt in H; lia.
        - left. rewrite (fce_sym i j), (fce_sym v1 v2) in H. apply fce_inj_lt in H; lia. }
      assert (NM : forall m n v, dget index m = Some v -> dget index n = Some v -> m = n) by (intros m n v X Y; apply POS in X, Y; congruence).
      destruct Q as [(-> & ->)|(-> & ->)].
      * left. rewrite <- (NM _ _ _ F Da), <- (NM _ _ _ G Db). split; [now apply G2|now apply G3].
      * right. rewrite <- (NM _ _ _ G Da), <- (NM _ _ _ F Db). split; [now apply G2|now apply G3].
    + right. split; [|exact EN]. intros g x LK LX. apply (A x). apply LG in LX. destruct LK as [(S1 & T1)|(S1 & T1)].
      * exists g, a, b, i, j. apply G2 in S1. apply G3 in T1. auto 12.
      * exists g, b, a, j, i. apply G2 in S1. apply G3 in T1. repeat (split; [auto|]). apply fce_sym.
Qed.


Lemma C47_cliques_case_proof : let f := fun s => if String.eqb s "1.5" then Some (3 / 2)%R else None in
  (forall g s, says clique g 1 s -> f s <> None) /\
  (forall g x n, logit_of f clique g x -> source_of clique g n \/ target_of clique g n -> In n ["a"; "b"; "c"]%string) /\
  exists sc', cliques_load_schema f three_types three_values (Some (["group"; "logit"; "source"; "target"]%string :: clique)) = Ok sc' /\
    sc_prior sc' = [3 / 2; 0; 0]%R.
Proof.
  intros f. split; [|split].
  - intros g s (r & I & L & A & B & N). destruct I as [<-|[<-|[]]]; cbn in *; subst s; try congruence. unfold f. cbn. discriminate.
  - intros g x n _ [(r & I & L & A & B & N)|(r & I & L & A & B & N)]; (destruct I as [<-|[<-|[]]]; cbn in *; subst n; auto).
  - eexists. split; [reflexivity|]. reflexivity.
Qed.
