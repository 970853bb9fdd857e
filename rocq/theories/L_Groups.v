(** Proofs about groups files (C47). *)
From Coq Require Import String Ascii.
From Coq Require Import List Arith ZArith Reals Bool Lia Lra.
From Verif Require Import Base L_Base M_Structure L_Pairing M_Util M_Strings M_Format Spec_Schema L_Dict L_Schema L_Import2 M_Groups Spec_Groups.
Import ListNotations.
Open Scope list_scope.
Open Scope nat_scope.

Lemma says_snoc rows row g i x : says (rows ++ [row]) g i x <-> says rows g i x \/ (4 <= length row /\ cell 0 row = g /\ cell i row = x /\ x <> EmptyString).
Proof.
  split.
  - intros (r & I & L & A & B & C). apply in_app_or in I. destruct I as [I|[<-|[]]]; [left; exists r; auto|right; auto].
  - intros [(r & I & K)|K]; [exists r; split; [apply in_or_app; auto|auto]|exists row; split; [apply in_or_app; right; now left|tauto]].
Qed.

Lemma split_snoc {A} (rows : list A) x b y a : rows ++ [x] = b ++ y :: a ->
  (a = [] /\ y = x /\ b = rows) \/ exists a', a = a' ++ [x] /\ rows = b ++ y :: a'.
Proof.
  destruct a as [|z a0] using rev_ind; intros E.
  - left. apply app_inj_tail in E. destruct E as (-> & ->). auto.
  - right. exists a0. rewrite app_comm_cons, app_assoc in E. apply app_inj_tail in E. destruct E as (-> & ->). auto.
Qed.

Lemma logit_snoc f rows row g x : logit_of f (rows ++ [row]) g x <->
  (4 <= length row /\ cell 0 row = g /\ cell 1 row <> EmptyString /\ f (cell 1 row) = Some x) \/
  (~ (4 <= length row /\ cell 0 row = g /\ cell 1 row <> EmptyString) /\ logit_of f rows g x).
Proof.
  split.
  - intros (b & r & a & E & L & A & B & C & D). apply split_snoc in E. destruct E as [(-> & -> & ->)|(a' & -> & ->)]; [auto|].
    right. split.
    + intros (L' & A' & B'). apply (D (cell 1 row)). apply says_snoc. auto.
    + exists b, r, a'. repeat (split; [auto|]). intros s H. apply (D s). apply says_snoc. now left.
  - intros [(L & A & B & C)|(N & b & r & a & -> & L & A & B & C & D)].
    + exists rows, row, []. repeat (split; [auto|]). intros s (r & [] & _).
    + exists b, r, (a ++ [row]). split; [now rewrite <- app_assoc|]. repeat (split; [auto|]). intros s H. apply says_snoc in H.
      destruct H as [H|(L' & A' & E' & NE)]; [now apply (D s)|]. apply N. subst s. auto.
Qed.

Lemma logit_fun f rows g x y : logit_of f rows g x -> logit_of f rows g y -> x = y.
Proof.
  induction rows as [|r rows IH] using rev_ind; intros H1 H2.
  - destruct H1 as (b & r & a & E & _). destruct b; discriminate.
  - apply logit_snoc in H1, H2. destruct H1 as [(A & B & C & D)|(N & H1)], H2 as [(A' & B' & C' & D')|(N' & H2)]; try tauto. congruence.
Qed.

Definition ginv (f : string -> option R) (pre : list (list string)) (g : groups) : Prop :=
  let '(logits, sources, targets) := g in
  NoDup (map fst logits) /\ (forall k x, dget logits k = Some x <-> logit_of f pre k x) /\
  (forall k n, In n (dget_default sources k []) <-> source_of pre k n) /\
  (forall k n, In n (dget_default targets k []) <-> target_of pre k n).

Lemma in_str_add l k n : In n (str_add l k) <-> In n l \/ n = k.
Proof.
  unfold str_add. destruct (str_in k l) eqn:E.
  - split; [auto|]. intros [H| ->]; auto. unfold str_in in E. apply existsb_exists in E. destruct E as (x & I & E). apply String.eqb_eq in E. now subst.
  - rewrite in_app_iff. cbn. intuition.
Qed.

Lemma members_step (pre : list (list string)) row i (d : sdict (list string)) : 4 <= length row ->
  (forall k n, In n (dget_default d k []) <-> says pre k i n) ->
  forall k n, In n (dget_default (if String.eqb (cell i row) EmptyString then d
     else dset d (cell 0 row) (str_add (dget_default d (cell 0 row) []) (cell i row))) k []) <-> says (pre ++ [row]) k i n.
Proof.
  intros L H k n. rewrite says_snoc, <- H. destruct (String.eqb_spec (cell i row) EmptyString) as [E|N].
  - split; [auto|]. intros [K|(_ & _ & B & C)]; auto. congruence.
  - rewrite dget_default_dset. destruct (String.eqb_spec k (cell 0 row)) as [->|NK].
    + rewrite in_str_add. split; [intros [K| ->]; auto|]. intros [K|(_ & _ & B & _)]; auto.
    + split; [auto|]. intros [K|(_ & A & _)]; auto. congruence.
Qed.

Lemma groups_Ok f header rows : 4 <= length header -> map lower (firstn 4 header) = ["group"; "logit"; "source"; "target"]%string ->
  (forall g s, says rows g 1 s -> f s <> None) ->
  exists g, repaired_load_groups f (Some (header :: rows)) = Ok g /\ ginv f rows g.
Proof.
  intros HL HH FL. destruct header as [|h0 [|h1 [|h2 [|h3 hs]]]]; cbn in HL; try lia. cbn [firstn map] in HH. injection HH as H0 H1 H2 H3.
  unfold repaired_load_groups. cbn [next_row bind]. unfold check_header. cbn [get nth_error bind]. rewrite H0, H1, H2, H3. cbn [String.eqb Ascii.eqb Bool.eqb assert_ bind].
  apply L_Base.foldM_inv with (P := ginv f).
  - split; [constructor|]. split; [|split].
    + intros k x. cbn. split; [discriminate|]. intros (b & r & a & E & _). destruct b; discriminate.
    + intros k n. cbn. split; [tauto|]. intros (r & [] & _).
    + intros k n. cbn. split; [tauto|]. intros (r & [] & _).
  - intros pre row [[logits sources] targets] (ND & G1 & G2 & G3) I. destruct (Nat.ltb_spec (length row) 4) as [L|L].
    + eexists. split; [reflexivity|]. split; [auto|]. split; [|split].
      * intros k x. rewrite logit_snoc, G1. split; [right; split; [lia|auto]|]. intros [(K & _)|(_ & K)]; [lia|auto].
      * intros k n. rewrite G2. unfold source_of. rewrite says_snoc. split; [auto|]. intros [K|(K & _)]; [auto|lia].
      * intros k n. rewrite G3. unfold target_of. rewrite says_snoc. split; [auto|]. intros [K|(K & _)]; [auto|lia].
    + pose proof (members_step pre row 2 sources L G2) as S2. pose proof (members_step pre row 3 targets L G3) as S3.
      destruct row as [|g [|l [|s [|t rest]]]]; cbn in L; try lia. unfold cell in S2, S3. cbn [nth] in S2, S3. cbn [firstn].
      destruct (String.eqb_spec l EmptyString) as [E|N].
      * cbn [bind]. eexists. split; [reflexivity|]. split; [auto|]. split; [|split; auto].
        intros k x. rewrite logit_snoc, G1. unfold cell. cbn [nth length]. split; [intros K; right; split; [tauto|auto]|]. intros [K|(_ & K)]; [tauto|auto].
      * assert (FN : f l <> None) by (apply (FL g); exists (g :: l :: s :: t :: rest); cbn; repeat (split; [auto; lia|]); auto).
        destruct (f l) as [x0|] eqn:EF; [|congruence]. cbn [bind]. eexists. split; [reflexivity|]. split; [now apply dset_NoDup|]. split; [|split; auto].
        intros k x. rewrite logit_snoc, dget_dset. unfold cell. cbn [nth length]. destruct (String.eqb_spec k g) as [->|NK].
        -- split; [intros K; injection K as ->; left; repeat (split; [auto; lia|]); auto|]. intros [(_ & _ & _ & K)|(K & _)]; [congruence|]. exfalso. apply K. split; [lia|auto].
        -- rewrite G1. split; [intros K; right; split; [intros (_ & ? & _); congruence|auto]|]. intros [(_ & K & _)|(_ & K)]; [congruence|auto].
Qed.

(** ** The prior *)
(** The entries of [prior] are what was written there last, or 0. *)
Definition written (K : nat) (D : nat -> R -> Prop) (prior : list R) : Prop :=
  length prior = K /\ forall k, k < K -> (exists x, D k x /\ nth k prior 0%R = x) \/ ((forall x, ~ D k x) /\ nth k prior 0%R = 0%R).

Lemma written_ext K D D' p : (forall k x, D k x <-> D' k x) -> written K D p -> written K D' p.
Proof.
  intros E (L & H). split; auto. intros k Hk. destruct (H k Hk) as [(x & A & B)|(A & B)].
  - left. exists x. split; [now apply E|auto].
  - right. split; [intros x X; apply (A x); now apply E|auto].
Qed.

Lemma written_put K D p k0 x0 : written K D p -> k0 < K ->
  exists p', put IndexError p k0 x0 = Ok p' /\ written K (fun k x => D k x \/ (k = k0 /\ x = x0)) p'.
Proof.
  intros (L & H) Hk. rewrite put_Ok by lia. eexists. split; [reflexivity|]. split; [now rewrite upd_length|].
  intros k K1. rewrite nth_upd by lia. destruct (Nat.eqb_spec k0 k) as [->|N].
  - left. exists x0. auto.
  - destruct (H k K1) as [(x & A & B)|(A & B)]; [left; exists x; auto|]. right. split; [|auto]. intros x [X|(X & _)]; [now apply (A x)|congruence].
Qed.

Section Prior.
Variables (V : nat) (index : sdict nat).
Hypothesis IDX : forall n v, dget index n = Some v -> v < V.
Notation K := (V * (V - 1) / 2).

Lemma inner_put (logit : R) v1 targets : v1 < V ->
  (forall t, In t targets -> exists v2, dget index t = Some v2 /\ v2 <> v1) ->
  forall D p, written K D p -> exists p', foldM (fun prior target => v2 <- dget_ index target ;; put IndexError prior (find_complete_edge v1 v2) logit) targets p = Ok p' /\
    written K (fun k x => D k x \/ exists t v2, In t targets /\ dget index t = Some v2 /\ k = find_complete_edge v1 v2 /\ x = logit) p'.
Proof.
  intros Hv HT D p W. apply L_Base.foldM_inv with (P := fun pre p' => written K (fun k x => D k x \/ exists t v2, In t pre /\ dget index t = Some v2 /\ k = find_complete_edge v1 v2 /\ x = logit) p').
  - eapply written_ext; [|exact W]. intros k x. split; [auto|]. intros [H|(t & v2 & [] & _)]; auto.
  - intros pre t q Wq I. destruct (HT t I) as (v2 & E & N). unfold dget_. rewrite E. cbn [bind].
    destruct (written_put K _ q (find_complete_edge v1 v2) logit Wq) as (p' & E' & W').
    { apply fce_range; eauto. }
    exists p'. split; [exact E'|]. eapply written_ext; [|exact W']. intros k x. cbv beta. split.
    + intros [[H|(t' & v' & A & B)]|(-> & ->)]; [auto| |].
      * right. exists t', v'. split; [apply in_or_app; auto|auto].
      * right. exists t, v2. split; [apply in_or_app; right; now left|auto].
    + intros [H|(t' & v' & A & B & C & F)]; [auto|]. apply in_app_or in A. destruct A as [A|[<-|[]]].
      * left. right. exists t', v'. auto.
      * right. rewrite E in B. injection B as <-. auto.
Qed.

Lemma middle_put (logit : R) sources targets :
  (forall s, In s sources -> exists v1, dget index s = Some v1) -> (forall t, In t targets -> exists v2, dget index t = Some v2) ->
  (forall s t v1 v2, In s sources -> In t targets -> dget index s = Some v1 -> dget index t = Some v2 -> v1 <> v2) ->
  forall D p, written K D p -> exists p', foldM (fun prior source => v1 <- dget_ index source ;;
      foldM (fun prior target => v2 <- dget_ index target ;; put IndexError prior (find_complete_edge v1 v2) logit) targets prior) sources p = Ok p' /\
    written K (fun k x => D k x \/ exists s t v1 v2, In s sources /\ In t targets /\ dget index s = Some v1 /\ dget index t = Some v2 /\ k = find_complete_edge v1 v2 /\ x = logit) p'.
Proof.
  intros HS HT HD D p W.
  apply L_Base.foldM_inv with (P := fun pre p' => written K (fun k x => D k x \/ exists s t v1 v2, In s pre /\ In t targets /\ dget index s = Some v1 /\ dget index t = Some v2 /\ k = find_complete_edge v1 v2 /\ x = logit) p').
  - eapply written_ext; [|exact W]. intros k x. split; [auto|]. intros [H|(s & t & v1 & v2 & [] & _)]; auto.
  - intros pre s q Wq I. destruct (HS s I) as (v1 & E). unfold dget_ at 1. rewrite E. cbn [bind].
    edestruct (inner_put logit v1 targets (IDX _ _ E)) as (p' & E' & W').
    { intros t It. destruct (HT t It) as (v2 & E2). exists v2. split; [auto|]. intros ->. now apply (HD s t v1 v1). }
    { exact Wq. }
    exists p'. split; [exact E'|]. eapply written_ext; [|exact W']. intros k x. cbv beta. split.
    + intros [[H|(s' & t & a & b & A & B)]|(t & v2 & A & B & C & F)]; [auto| |].
      * right. exists s', t, a, b. split; [apply in_or_app; auto|auto].
      * right. exists s, t, v1, v2. split; [apply in_or_app; right; now left|auto].
    + intros [H|(s' & t & a & b & A & B & C & F & G)]; [auto|]. apply in_app_or in A. destruct A as [A|[<-|[]]].
      * left. right. exists s', t, a, b. auto.
      * right. rewrite E in C. injection C as <-. exists t, b. auto.
Qed.

Lemma prior_put (logits : sdict R) (sources targets : sdict (list string)) :
  (forall g x s, In (g, x) logits -> In s (dget_default sources g []) -> exists v1, dget index s = Some v1) ->
  (forall g x t, In (g, x) logits -> In t (dget_default targets g []) -> exists v2, dget index t = Some v2) ->
  (forall g x s t v1 v2, In (g, x) logits -> In s (dget_default sources g []) -> In t (dget_default targets g []) ->
     dget index s = Some v1 -> dget index t = Some v2 -> v1 <> v2) ->
  exists p', load_prior V index (logits, sources, targets) = Ok p' /\
    written K (fun k x => exists g s t v1 v2, In (g, x) logits /\ In s (dget_default sources g []) /\ In t (dget_default targets g []) /\
      dget index s = Some v1 /\ dget index t = Some v2 /\ k = find_complete_edge v1 v2) p'.
Proof.
  intros HS HT HD. unfold load_prior.
  apply L_Base.foldM_inv with (P := fun pre p' => written K (fun k x => exists g s t v1 v2, In (g, x) pre /\ In s (dget_default sources g []) /\ In t (dget_default targets g []) /\
      dget index s = Some v1 /\ dget index t = Some v2 /\ k = find_complete_edge v1 v2) p').
  - split; [apply repeat_length|]. intros k Hk. right. split; [intros x (g & s & t & v1 & v2 & [] & _)|]. apply nth_repeat.
  - intros pre [g x0] q Wq I.
    edestruct (middle_put x0 (dget_default sources g []) (dget_default targets g [])) as (p' & E' & W'); eauto.
    exists p'. split; [exact E'|]. eapply written_ext; [|exact W']. intros k x. cbv beta. split.
    + intros [(g' & s & t & a & b & A & B)|(s & t & a & b & A & B & C & F & G & ->)].
      * exists g', s, t, a, b. split; [apply in_or_app; auto|auto].
      * exists g, s, t, a, b. split; [apply in_or_app; right; now left|]. repeat (split; [auto|]). auto.
    + intros (g' & s & t & a & b & A & B & C & F & G & E). apply in_app_or in A. destruct A as [A|[A|[]]].
      * left. exists g', s, t, a, b. auto 10.
      * injection A as <- <-. right. exists s, t, a, b. auto 10.
Qed.
End Prior.

Lemma C47_repaired : forall float_ types_csv values_csv sc header rows,
  load_schema float_ types_csv values_csv None = Ok sc ->
  4 <= length header -> map lower (firstn 4 header) = ["group"; "logit"; "source"; "target"]%string ->
  (forall g s, says rows g 1 s -> float_ s <> None) ->
  (forall g x n, logit_of float_ rows g x -> source_of rows g n \/ target_of rows g n -> In n (sc_names sc)) ->
  (forall g x n, logit_of float_ rows g x -> ~ (source_of rows g n /\ target_of rows g n)) ->
  exists prior, repaired_load_schema float_ types_csv values_csv (Some (header :: rows)) =
      Ok (Schema (sc_names sc) (sc_index sc) (sc_types sc) (sc_cat_values sc) (sc_cat_index sc) (sc_ranges sc) (sc_ri sc) prior) /\
    (let V := length (sc_names sc) in length prior = V * (V - 1) / 2) /\
    forall a b i j, dget (sc_index sc) a = Some i -> dget (sc_index sc) b = Some j -> a <> b ->
      (exists g x, links rows g a b /\ logit_of float_ rows g x /\ nth (find_complete_edge i j) prior 0%R = x) \/
      ((forall g x, links rows g a b -> ~ logit_of float_ rows g x) /\ nth (find_complete_edge i j) prior 0%R = 0%R).
Proof.
  intros float_ types_csv values_csv sc header rows E HL HH FL KN AP.
  pose proof (C48_ok _ _ _ _ _ E) as SO.
  unfold load_schema in E. unfold repaired_load_schema. destruct (load_types types_csv) as [(names, types)|]; [|discriminate]. cbn [bind] in *.
  destruct (load_values types values_csv) as [(cats, ords)|]; [|discriminate]. cbn [bind] in *.
  destruct names as [|n0 names0]; [discriminate|]. set (names := n0 :: names0) in *. clearbody names. cbn [load_groups bind] in E.
  destruct (groups_Ok float_ header rows HL HH FL) as ([[logits sources] targets] & EG & ND & G1 & G2 & G3). rewrite EG. cbn [bind].
  destruct (value_indices types cats ords) as [((cv, ci), ranges)|] eqn:VI; [|discriminate]. cbn [bind] in *.
  destruct (ragged_layout names types cv) as [(ri, index)|] eqn:RL; [|discriminate]. cbn [bind] in *.
  destruct (load_prior (length names) index ([], [], [])) as [p0|] eqn:EP; [|discriminate]. cbn [bind] in E. injection E as <-.
  cbn [sc_names sc_index sc_types sc_cat_values sc_cat_index sc_ranges sc_ri] in *.
  pose proof (so_pos _ SO) as POS. pose proof (so_index _ SO) as IDX. cbn [sc_names sc_index] in POS, IDX.
  assert (LT : forall n v, dget index n = Some v -> v < length names) by (intros n v D; apply POS in D; apply nth_error_Some; congruence).
  assert (LG : forall g x, In (g, x) logits <-> logit_of float_ rows g x).
  { intros g x. rewrite <- G1. split; [now apply In_dget|apply dget_In]. }
  destruct (prior_put (length names) index LT logits sources targets) as (p & EQ & LP & WP).
  - intros g x s I S1. apply IDX. apply (KN g x); [now apply LG|left; now apply G2].
  - intros g x t I T1. apply IDX. apply (KN g x); [now apply LG|right; now apply G3].
  - intros g x s t v1 v2 I S1 T1 D1 D2 ->. apply POS in D1, D2. rewrite D1 in D2. injection D2 as <-.
    apply (AP g x s); [now apply LG|]. split; [now apply G2|now apply G3].
  - exists p. rewrite EQ. cbn [bind]. split; [reflexivity|]. split; [exact LP|].
    intros a b i j Da Db N.
    assert (IJ : i <> j) by (intros ->; apply N; apply POS in Da, Db; congruence).
    destruct (WP (find_complete_edge i j)) as [(x & (g & s & t & v1 & v2 & A & B & C & F & G & H) & EN)|(A & EN)].
    + apply fce_range; eauto.
    + left. exists g, x. split; [|split; [now apply LG|exact EN]].
      assert (NV : v1 <> v2).
      { intros ->. apply POS in F, G. rewrite F in G. injection G as <-. apply (AP g x s); [now apply LG|]. split; [now apply G2|now apply G3]. }
      assert (Q : (v1 = i /\ v2 = j) \/ (v1 = j /\ v2 = i)).
      { destruct (Nat.lt_ge_cases i j), (Nat.lt_ge_cases v1 v2).
        - left. apply fce_inj_lt in H; auto. lia.
        - right. rewrite (fce_sym v1 v2) in H. apply fce_inj_lt in H; lia.
        - right. rewrite (fce_sym i j) in H. apply fce_inj_lt in H; lia.
        - left. rewrite (fce_sym i j), (fce_sym v1 v2) in H. apply fce_inj_lt in H; lia. }
      assert (NM : forall m n v, dget index m = Some v -> dget index n = Some v -> m = n) by (intros m n v X Y; apply POS in X, Y; congruence).
      destruct Q as [(-> & ->)|(-> & ->)].
      * left. rewrite <- (NM _ _ _ F Da), <- (NM _ _ _ G Db). split; [now apply G2|now apply G3].
      * right. rewrite <- (NM _ _ _ G Da), <- (NM _ _ _ F Db). split; [now apply G2|now apply G3].
    + right. split; [|exact EN]. intros g x LK LX. apply (A x). apply LG in LX. destruct LK as [(S1 & T1)|(S1 & T1)].
      * exists g, a, b, i, j. apply G2 in S1. apply G3 in T1. auto 10.
      * exists g, b, a, j, i. apply G2 in S1. apply G3 in T1. repeat (split; [auto|]). apply fce_sym.
Qed.

(** A group with a feature on both sides changes the prior of other pairs. *)
Definition three_types : list (list string) := [["name"; "type"]; ["a"; "ordinal"]; ["b"; "ordinal"]; ["c"; "ordinal"]]%string.
Definition three_values : list (list string) := [["name"; "value"]; ["a"; "1"]; ["a"; "2"]; ["b"; "1"]; ["b"; "2"]; ["c"; "1"]; ["c"; "2"]]%string.
Definition clique : list (list string) := [["g"; "1.5"; "a"; "a"]; ["g"; ""; "b"; "b"]]%string.

Lemma C47_clique : exists types_csv values_csv rows sc a c i j x,
  load_schema (fun _ => Some x) types_csv values_csv None = Ok sc /\
  dget (sc_index sc) a = Some i /\ dget (sc_index sc) c = Some j /\ a <> c /\ (forall g, ~ links rows g a c) /\ x <> 0%R /\
  exists sc', repaired_load_schema (fun _ => Some x) types_csv values_csv (Some (["group"; "logit"; "source"; "target"]%string :: rows)) = Ok sc' /\
    nth (find_complete_edge i j) (sc_prior sc') 0%R = x.
Proof.
  exists three_types, three_values, clique. eexists. exists "a"%string, "c"%string, 0, 2, 1%R.
  split; [reflexivity|]. split; [reflexivity|]. split; [reflexivity|]. split; [discriminate|]. split.
  - intros g [((r & I & _ & _ & A & _) & (r' & I' & _ & _ & B & _))|((r & I & _ & _ & A & _) & _)].
    + destruct I' as [<-|[<-|[]]]; cbn in B; discriminate.
    + destruct I as [<-|[<-|[]]]; cbn in A; discriminate.
  - split; [lra|]. eexists. split; [reflexivity|]. reflexivity.
Qed.

Lemma C47_repaired_case_proof : let rows := [["g"; "1.5"; "a"; "c"]; ["g"; ""; "b"; ""]; ["h"; ""; "a"; "a"]; ["h"]]%string in
  let f := fun s => if String.eqb s "1.5" then Some (3 / 2)%R else None in
  (forall g s, says rows g 1 s -> f s <> None) /\
  (forall g x n, logit_of f rows g x -> source_of rows g n \/ target_of rows g n -> In n ["a"; "b"; "c"]%string) /\
  (forall g x n, logit_of f rows g x -> ~ (source_of rows g n /\ target_of rows g n)) /\
  exists sc sc', load_schema f three_types three_values None = Ok sc /\ sc_names sc = ["a"; "b"; "c"]%string /\
    repaired_load_schema f three_types three_values (Some (["group"; "logit"; "source"; "target"]%string :: rows)) = Ok sc' /\
    sc_prior sc' = [0; 3 / 2; 3 / 2]%R.
Proof.
  intros rows f.
  assert (G : forall g x, logit_of f rows g x -> g = "g"%string).
  { intros g x (b & r & a & E & L & A & B & _). assert (I : In r rows) by (rewrite E; apply in_or_app; right; now left).
    destruct I as [<-|[<-|[<-|[<-|[]]]]]; cbn in *; congruence. }
  split; [|split; [|split]].
  - intros g s (r & I & L & A & B & N). destruct I as [<-|[<-|[<-|[<-|[]]]]]; cbn in *; subst s; try congruence. unfold f. cbn. discriminate.
  - intros g x n _ [(r & I & L & A & B & N)|(r & I & L & A & B & N)];
      (destruct I as [<-|[<-|[<-|[<-|[]]]]]; cbn in *; subst n; try congruence; auto).
  - intros g x n H ((r & I & L & A & B & N) & (r' & I' & L' & A' & B' & N')). apply G in H. subst g.
    destruct I as [<-|[<-|[<-|[<-|[]]]]]; cbn in A, B; try discriminate A; destruct I' as [<-|[<-|[<-|[<-|[]]]]]; cbn in A', B'; try discriminate A'; congruence.
  - eexists. eexists. split; [reflexivity|]. split; [reflexivity|]. split; [reflexivity|]. reflexivity.
Qed.
