(** Two neighbouring slots of order_vertices hold the ends of an edge. *)
From Coq Require Import List Arith Lia Bool Permutation.
From Verif Require Import Base Spec_Graph M_Structure L_Base L_Graph L_MakeTree L_SampleTree.
Import ListNotations.
Open Scope nat_scope.

Lemma neighbours (p : nat) (l : list nat) : NoDup l -> In p l -> (exists w, In w l /\ w <> p) ->
  exists l1 a b l2 w, l = l1 ++ a :: b :: l2 /\ In w l /\ w <> p /\ ((a = p /\ b = w) \/ (a = w /\ b = p)).
Proof.
  intros ND I (w & Iw & Nw). destruct (in_split _ _ I) as (l1 & l2 & ->). destruct l2 as [|b l2].
  - destruct (@exists_last _ l1) as (l1' & a & ->).
    { intros ->. destruct Iw as [E|[]]. congruence. }
    exists l1', a, p, [], a. split; [now rewrite <- app_assoc|]. split; [apply in_or_app; left; apply in_or_app; right; now left|].
    split; [|auto]. intros ->. rewrite <- app_assoc in ND. apply NoDup_remove_2 in ND. apply ND. apply in_or_app. right. now left.
  - exists l1, p, b, l2, b. split; [reflexivity|]. split; [apply in_or_app; right; right; now left|].
    split; [|auto]. intros ->. apply NoDup_remove_2 in ND. apply ND. apply in_or_app. right. now left.
Qed.

Lemma deepest (dep : nat -> nat) V : 1 <= V -> exists u, u < V /\ forall w, w < V -> dep w <= dep u.
Proof.
  induction V as [|V IH]; intros H; [lia|]. destruct V as [|V].
  - exists 0. split; [lia|]. intros w Hw. assert (w = 0) by lia. now subst.
  - destruct IH as (u & Hu & M); [lia|]. destruct (Nat.le_gt_cases (dep (S V)) (dep u)) as [L|L].
    + exists u. split; [lia|]. intros w Hw. destruct (Nat.eq_dec w (S V)) as [->|]; auto. apply M. lia.
    + exists (S V). split; [lia|]. intros w Hw. destruct (Nat.eq_dec w (S V)) as [->|]; auto. specialize (M w). lia.
Qed.

Section Tree.
Variables (V : nat) (edges : list edge) (c : nat) (slots : list nat).
Hypothesis T : spanning_tree V edges.
Hypothesis HV : 2 <= V.
Hypothesis HC : c < V.
Hypothesis PS : Permutation slots (seq 0 V).
Hypothesis BR : forall e rest, Permutation edges (e :: rest) ->
  exists o1 o2 o3, slots = o1 ++ o2 ++ o3 /\ forall u, u < V -> (In u o2 <-> ~ reach rest c u).

Lemma adjacent_edge : exists l1 a b l2, slots = l1 ++ a :: b :: l2 /\ adj edges a b.
Proof.
  destruct (tree_rooted V edges c T HC) as (par & dep & RT).
  assert (NDs : NoDup slots) by (eapply Permutation_NoDup; [symmetry; exact PS|apply seq_NoDup]).
  assert (IS : forall v, In v slots <-> v < V) by (intros v; rewrite (Permutation_in' eq_refl PS), in_seq; lia).
  destruct (deepest dep V ltac:(lia)) as (u & Hu & MX).
  assert (DU : 1 <= dep u).
  { set (w := if c =? 0 then 1 else 0). assert (w < V /\ w <> c) as (Hw & Nw) by (unfold w; destruct (Nat.eqb_spec c 0); lia).
    destruct (rt_par _ _ _ _ _ RT w Hw Nw) as (_ & D & _). specialize (MX w Hw). lia. }
  assert (Nu : u <> c) by (intros ->; rewrite (rt_dep _ _ _ _ _ RT) in DU; lia).
  destruct (rt_par _ _ _ _ _ RT u Hu Nu) as (Hp & Du & Au). set (p := par u) in *.
  assert (FIN : forall block o1 o3, slots = o1 ++ block ++ o3 -> In p block -> In u block -> (forall w, In w block -> w <> p -> w <> c /\ par w = p) ->
            exists l1 a b l2, slots = l1 ++ a :: b :: l2 /\ adj edges a b).
  { intros block o1 o3 E Ip Iu CH.
    assert (NDb : NoDup block). { rewrite E in NDs. apply NoDup_app_inv in NDs as (_ & N & _). now apply NoDup_app_inv in N as (N1 & _). }
    assert (up : u <> p) by (intros X; rewrite <- X in Du; lia).
    destruct (neighbours p block NDb Ip (ex_intro _ u (conj Iu up))) as (l1 & a & b & l2 & w & EB & Iw & Nw & AB).
    exists (o1 ++ l1), a, b, (l2 ++ o3). split; [rewrite E, EB; rewrite <- !app_assoc; reflexivity|].
    destruct (CH w Iw Nw) as (Nc & PW). assert (Hw : w < V) by (apply IS; rewrite E; apply in_or_app; right; apply in_or_app; now left).
    destruct (rt_par _ _ _ _ _ RT w Hw Nc) as (_ & _ & A). rewrite PW in A. destruct AB as [[-> ->]|[-> ->]]; [now apply adj_sym|exact A]. }
  destruct (Nat.eq_dec p c) as [PC|NP].
  - apply (FIN slots [] []); [now rewrite app_nil_r|now apply IS|now apply IS|]. intros w Iw Nw. apply IS in Iw. split; [congruence|].
    assert (Nc : w <> c) by congruence. destruct (rt_par _ _ _ _ _ RT w Iw Nc) as (Hq & Dw & _). specialize (MX w Iw). rewrite Du, PC, (rt_dep _ _ _ _ _ RT) in MX.
    destruct (Nat.eq_dec (par w) c) as [E|N]; [congruence|]. destruct (rt_par _ _ _ _ _ RT (par w) Hq N) as (_ & D2 & _). lia.
  - destruct (rt_par _ _ _ _ _ RT p Hp NP) as (Hpp & Dp & Ap).
    assert (exists e rest, Permutation edges (e :: rest) /\ (e = (p, par p) \/ e = (par p, p))) as (e & rest & PE & EE).
    { destruct Ap as [I|I]; destruct (in_split _ _ I) as (l1 & l2 & ->); eexists _, (l1 ++ l2); (split; [symmetry; apply Permutation_middle|auto]). }
    destruct (BR e rest PE) as (o1 & o2 & o3 & ES & IO).
    assert (ADJ : forall w, w < V -> w <> c -> w <> p -> adj rest w (par w)).
    { intros w Hw Nc Nw. destruct (rt_par _ _ _ _ _ RT w Hw Nc) as (_ & Dw & A).
      assert (NE : e <> (w, par w) /\ e <> (par w, w)).
      { split; intros X; subst e; destruct EE as [E|E]; injection E as E1 E2; try congruence; subst; rewrite E1 in Dw || rewrite E2 in Dw; lia. }
      destruct A as [A|A]; [left|right]; apply (Permutation_in _ PE) in A; destruct A as [A|A]; tauto || exact A. }
    assert (NRP : ~ reach rest c p).
    { intros R. assert (RC : forall k w, dep w <= k -> w < V -> dep w < dep p \/ w = p -> reach rest c w).
      { induction k as [|k IH]; intros w D Hw [L|L]; try (now subst).
        - destruct (Nat.eq_dec w c) as [->|Nc]; [apply reach_refl|]. destruct (rt_par _ _ _ _ _ RT w Hw Nc) as (_ & Dw & _). lia.
        - destruct (Nat.eq_dec w c) as [->|Nc]; [apply reach_refl|]. destruct (rt_par _ _ _ _ _ RT w Hw Nc) as (Hq & Dw & _).
          eapply reach_trans; [apply (IH (par w)); [lia|exact Hq|left; lia]|]. apply reach_adj, adj_sym, ADJ; auto. intros ->. lia. }
      assert (R2 : reach rest c (par p)) by (apply (RC (dep (par p))); auto; left; lia).
      destruct EE as [-> | ->].
      - destruct (two_comps V p (par p) rest (spanning_tree_perm _ _ _ PE T) c HC) as [[A B]|[A B]]; apply B; now apply reach_sym.
      - destruct (two_comps V (par p) p rest (spanning_tree_perm _ _ _ PE T) c HC) as [[A B]|[A B]]; apply B; now apply reach_sym. }
    apply (FIN o2 o1 o3 ES).
    + now apply IO.
    + apply IO; auto. intros R. apply NRP. eapply reach_trans; [exact R|]. apply reach_adj. apply ADJ; auto. intros X. rewrite <- X in Du. lia.
    + intros w Iw Nw. assert (Hw : w < V) by (apply IS; rewrite ES; apply in_or_app; right; apply in_or_app; now left).
      apply (IO w Hw) in Iw. split; [intros ->; apply Iw, reach_refl|].
      assert (CL : forall k w, dep w <= k -> w < V -> dep w <= S (dep p) -> reach rest c w \/ w = p \/ par w = p).
      { induction k as [|k IH]; intros x D Hx L.
        - destruct (Nat.eq_dec x c) as [->|Nc]; [left; apply reach_refl|]. destruct (rt_par _ _ _ _ _ RT x Hx Nc) as (_ & Dx & _). lia.
        - destruct (Nat.eq_dec x c) as [->|Nc]; [left; apply reach_refl|]. destruct (Nat.eq_dec x p) as [|Np]; [auto|].
          destruct (rt_par _ _ _ _ _ RT x Hx Nc) as (Hq & Dx & _). destruct (IH (par x)) as [R|[E|E]]; [lia|exact Hq|lia| | |].
          + left. eapply reach_trans; [exact R|]. apply reach_adj, adj_sym, ADJ; auto.
          + auto.
          + destruct (Nat.eq_dec (par x) c) as [Q|Q]; [rewrite Q, (rt_parr _ _ _ _ _ RT) in E; congruence|].
            destruct (rt_par _ _ _ _ _ RT (par x) Hq Q) as (_ & D2 & _). rewrite E in D2. lia. }
      destruct (CL (dep w) w (le_n _) Hw) as [R|[E|E]]; auto; [|tauto|congruence].
      rewrite <- Du. now apply MX.
Qed.
End Tree.
