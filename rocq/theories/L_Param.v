(** Unknown parameters in a parameter file. *)
From Coq Require Import String.
From Coq Require Import List Arith ZArith Bool Lia.
From Verif Require Import Base L_Base M_Config M_Strings M_Serving M_Validate Spec_Validate L_Config L_Validate L_Validate2.
Import ListNotations.
Open Scope list_scope.

Lemma lookup_in : forall (d : dict) k, lookup d k <> None <-> In k (map fst d).
Proof.
  induction d as [|[k' v] d IH]; intros k; cbn; [split; [congruence|intros []]|]. destruct (String.eqb_spec k k') as [->|N]; [split; [auto|discriminate]|].
  rewrite IH. split; [auto|intros [->|H]; [congruence|exact H]].
Qed.
Lemma dict_set_keys : forall (d : dict) k v x, In x (map fst (dict_set d k v)) <-> x = k \/ In x (map fst d).
Proof.
  induction d as [|[k' v'] d IH]; intros k v x; cbn; [intuition|]. destruct (String.eqb_spec k k') as [->|N]; cbn; [intuition|]. rewrite IH. intuition.
Qed.
Lemma make_config_unknown : forall o k, In k (map fst o) -> ~ In k params -> make_config o = Raise ValueError.
Proof.
  intros o k I N. unfold make_config, params in *.
  assert (G : forall d, (forall x, In x (map fst d) <-> In x (map fst DEFAULT_CONFIG)) ->
    foldM (fun config '(key, value) => match lookup config key with None => Raise ValueError | Some _ => Ok (dict_set config key (PInt (to_int value))) end) o d = Raise ValueError); [|apply G; tauto].
  induction o as [|[k' v] o IH]; intros d H; [destruct I|]. cbn [foldM]. destruct (lookup d k') as [w|] eqn:E; [|reflexivity]. cbn [bind].
  assert (K : In k' (map fst d)) by (apply lookup_in; congruence). destruct I as [X|I]; [cbn in X; subst k'; exfalso; apply N, H, K|]. apply IH; [exact I|].
  intros x. rewrite dict_set_keys, <- H. split; [intros [->|?]; auto|auto].
Qed.
Lemma set_cells_keys : forall l o o', foldM set_cell l o = Ok o' -> forall x, In x (map fst o) \/ In x (map fst l) -> In x (map fst o').
Proof.
  induction l as [|[k c] l IH]; intros o o' E x H; cbn in E, H; [inversion E; subst; tauto|]. unfold set_cell at 1 in E. cbn [fst snd] in E. destruct (int_of_str c); [|discriminate]. cbn [bind] in E.
  apply (IH _ _ E). rewrite dict_set_keys. intuition.
Qed.
Lemma combine_keys {A B} : forall (a : list A) (b : list B), length a = length b -> map fst (combine a b) = a.
Proof. induction a as [|x a IH]; intros [|y b] H; cbn in *; try discriminate; [reflexivity|]. f_equal. apply IH. lia. Qed.

Lemma C50_unknown_proof : forall header rows options k, header <> [] ->
  setting options "seed" = None -> ~ In "seed"%string header -> ~ In "model_ensemble_size"%string header ->
  In k header \/ In k (map fst options) -> ~ In k params -> (exists row, In row rows /\ used header row = true) -> 0 < parts_of options ->
  read_param_csv (header :: rows) options = Raise ValueError.
Proof.
  intros header rows options k HN NS HS HM IK NK (row & IR & U) PP. unfold read_param_csv. unfold parts_of in PP.
  unfold setting in *. destruct (lookup options "seed"); [discriminate|]. rewrite !not_existsb by auto. cbn [negb assert_ bind].
  assert (QQ : 0 < Z.to_nat (match lookup options "model_ensemble_size" with Some v => to_int v | None => 4%Z end)) by (destruct (lookup options "model_ensemble_size"); cbn in *; lia).
  clear PP. revert QQ. generalize (match lookup options "model_ensemble_size" with Some v => to_int v | None => 4%Z end). intros P PP.
  assert (G : forall cs, foldM (read_param_row P header) rows (options, cs) = Raise ValueError); [|now rewrite G].
  clear NS. induction rows as [|r rows IH]; intros cs; [destruct IR|]. cbn [foldM]. destruct (used header r) eqn:Ur.
  - destruct (used_true header HN r Ur) as (L & c0 & t0 & ER & SH).
    unfold read_param_row at 1. rewrite L, Nat.eqb_refl. cbn [negb]. replace (get IndexError r 0) with (Ok c0) by (rewrite ER; reflexivity). cbn [bind]. rewrite SH.
    rewrite (foldM_ext _ _ _ set_cell) by (intros s [k' v]; reflexivity).
    assert (SC : forall l o, match foldM set_cell l o with Ok _ => True | Raise e => e = ValueError end).
    { induction l as [|a l IHl]; intros o; cbn; auto. unfold set_cell at 1. destruct (int_of_str (snd a)); cbn; auto. apply IHl. }
    specialize (SC (combine header r) options). destruct (foldM set_cell (combine header r) options) as [o'|e] eqn:E; cbn [bind]; [|now rewrite SC].
    assert (K : In k (map fst o')) by (apply (set_cells_keys _ _ _ E); rewrite combine_keys by congruence; tauto).
    destruct (Z.to_nat P) as [|n]; [lia|]. cbn [seq mapM]. rewrite (make_config_unknown _ k); [reflexivity|now right|exact NK].
  - rewrite (row_skipped header HN P options cs r Ur). cbn [bind]. apply IH. destruct IR as [->|]; auto. congruence.
Qed.
