From Coq Require Import String.
From Coq Require Import List ZArith Bool.
From Verif Require Import Base M_Options.
Import ListNotations.
Open Scope list_scope.

Lemma set_keys kw o o' : set_printoptions kw o = Ok o' -> map fst o' = map fst o.
Proof. unfold set_printoptions. destruct (forallb _ kw); [|discriminate]. intros E. inversion E. rewrite map_map. apply map_ext. now intros [k v]. Qed.
Lemma has_in o k : has o k = true <-> In k (map fst o).
Proof.
  unfold has. rewrite existsb_exists, in_map_iff. split.
  - intros ([k' v] & I & E). apply String.eqb_eq in E. subst. exists (k', v). auto.
  - intros ([k' v] & <- & I). exists (k', v). split; [exact I|apply String.eqb_refl].
Qed.
Lemma get_in o k v d : NoDup (map fst o) -> In (k, v) o -> get o k d = v.
Proof.
  unfold get. induction o as [|[k' v'] o IH]; intros N I; [destruct I|]. cbn in *. inversion N as [|? ? X N']; subst. destruct I as [E|I].
  - inversion E; subst. now rewrite String.eqb_refl.
  - destruct (String.eqb_spec k k') as [->|_]; [exfalso; apply X; apply in_map_iff; now exists (k', v)|]. now apply IH.
Qed.
(** Setting all options again. *)
Lemma set_back old o : NoDup (map fst old) -> map fst o = map fst old -> set_printoptions old o = Ok old.
Proof.
  intros N K. unfold set_printoptions. replace (forallb _ old) with true.
  - f_equal. transitivity (map (fun k => (k, get old k 0%Z)) (map fst o)).
    + rewrite map_map. apply map_ext_in. intros [k v] I. cbn. f_equal. assert (In k (map fst old)) by (rewrite <- K; apply in_map_iff; now exists (k, v)).
      apply in_map_iff in H. destruct H as ([k' w] & <- & Iw). cbn. now rewrite !(get_in old k' w).
    + rewrite K, map_map. transitivity (map (fun kv => kv) old); [|apply map_id]. apply map_ext_in. intros [k v] I. cbn. f_equal. now apply get_in.
  - symmetry. apply forallb_forall. intros [k v] I. apply has_in. rewrite K. apply in_map_iff. now exists (k, v).
Qed.

Lemma run_keys p : forall o, NoDup (map fst o) -> map fst (snd (run p o)) = map fst o.
Proof.
  induction p; intros o N; cbn [run]; auto.
  - destruct (set_printoptions kwargs o) eqn:E; [now apply set_keys in E|reflexivity].
  - specialize (IHp1 o N). destruct (run p1 o) as [[e|] o']; cbn [snd] in *; [exact IHp1|]. rewrite IHp2; congruence.
  - destruct (set_printoptions kwargs o) as [o1|] eqn:E; [|reflexivity]. pose proof (set_keys _ _ _ E) as K1. specialize (IHp o1 ltac:(congruence)).
    destruct (run p o1) as [[e|] o2]; cbn [snd] in *; [congruence|]. rewrite set_back by congruence. reflexivity.
  - now apply IHp.
Qed.
Lemma repaired_keys p : forall o, NoDup (map fst o) -> map fst (snd (repaired_run p o)) = map fst o.
Proof.
  induction p; intros o N; cbn [repaired_run]; auto.
  - destruct (set_printoptions kwargs o) eqn:E; [now apply set_keys in E|reflexivity].
  - specialize (IHp1 o N). destruct (repaired_run p1 o) as [[e|] o']; cbn [snd] in *; [exact IHp1|]. rewrite IHp2; congruence.
  - destruct (set_printoptions kwargs o) as [o1|] eqn:E; [|reflexivity]. pose proof (set_keys _ _ _ E) as K1. specialize (IHp o1 ltac:(congruence)).
    destruct (repaired_run p o1) as [x o2]; cbn [snd] in *. rewrite set_back by congruence. reflexivity.
  - now apply IHp.
Qed.

Lemma C94_proof : forall kwargs body o, NoDup (map fst o) ->
  (forall o', run (With kwargs body) o = (None, o') -> o' = o) /\
  (forall o1 o2, set_printoptions kwargs o = Ok o1 -> run body o1 = (None, o2) -> run (With kwargs body) o = (None, o)) /\
  (forall e, set_printoptions kwargs o = Raise e -> run (With kwargs body) o = (Some e, o)).
Proof.
  intros kw body o N.
  assert (R : forall o1 o2, set_printoptions kw o = Ok o1 -> run body o1 = (None, o2) -> run (With kw body) o = (None, o)).
  { intros o1 o2 E1 E2. cbn [run]. rewrite E1. pose proof (set_keys _ _ _ E1) as K1. pose proof (run_keys body o1 ltac:(congruence)) as K2. rewrite E2 in *. cbn [snd] in K2.
    rewrite set_back by congruence. reflexivity. }
  split; [|split; [exact R|intros e E; cbn [run]; now rewrite E]]. intros o' E. destruct (set_printoptions kw o) as [o1|e] eqn:E1; [|cbn [run] in E; rewrite E1 in E; discriminate].
  destruct (run body o1) as [[e|] o2] eqn:E2; [cbn [run] in E; rewrite E1, E2 in E; discriminate|]. rewrite (R o1 o2 eq_refl E2) in E. congruence.
Qed.

Lemma C94_leak_proof : forall kwargs body o o1 o2 e, set_printoptions kwargs o = Ok o1 -> run body o1 = (Some e, o2) -> run (Try (With kwargs body)) o = (None, o2).
Proof. intros kw body o o1 o2 e E1 E2. cbn [run]. now rewrite E1, E2. Qed.

Definition options0 : options := [("precision", 8%Z); ("threshold", 1000%Z); ("edgeitems", 3%Z)]%string.
Lemma C94_refuted_proof : exists kwargs body o e, NoDup (map fst o) /\ run (With kwargs body) o = (Some e, snd (run (With kwargs body) o)) /\ snd (run (With kwargs body) o) <> o.
Proof.
  exists [("precision", 2%Z)]%string, (Throw ValueError), options0, ValueError. split; [|split; [reflexivity|discriminate]].
  repeat constructor; cbn; intros H; repeat (destruct H as [H|H]; [discriminate H|]); exact H.
Qed.
Lemma C94_repaired_proof : forall kwargs body o, NoDup (map fst o) -> snd (repaired_run (With kwargs body) o) = o /\
  forall o1, set_printoptions kwargs o = Ok o1 -> fst (repaired_run (With kwargs body) o) = fst (repaired_run body o1).
Proof.
  intros kw body o N. cbn [repaired_run]. destruct (set_printoptions kw o) as [o1|e] eqn:E1; [|split; [reflexivity|discriminate]].
  pose proof (set_keys _ _ _ E1) as K1. pose proof (repaired_keys body o1 ltac:(congruence)) as K2. destruct (repaired_run body o1) as [x o2] eqn:E2. cbn [snd] in K2.
  rewrite set_back by congruence. split; [reflexivity|]. intros o' E. inversion E; subst. now rewrite E2.
Qed.
Lemma C94_case_proof : NoDup (map fst options0) /\
  let nested := With [("precision", 2%Z); ("edgeitems", 5%Z)]%string (Then (Set_ [("threshold", 7%Z)]%string) (With [("precision", 4%Z)]%string Pass)) in
  exists o1 o2, set_printoptions [("precision", 2%Z); ("edgeitems", 5%Z)]%string options0 = Ok o1 /\ o1 <> options0 /\
    run (Then (Set_ [("threshold", 7%Z)]%string) (With [("precision", 4%Z)]%string Pass)) o1 = (None, o2) /\ o2 <> o1 /\ run nested options0 = (None, options0).
Proof.
  split; [repeat constructor; cbn; intros H; repeat (destruct H as [H|H]; [discriminate H|]); exact H|]. cbv zeta. eexists _, _.
  split; [reflexivity|]. split; [discriminate|]. split; [reflexivity|]. split; [discriminate|reflexivity].
Qed.
