From Coq Require Import List Arith Lia Bool Reals Lra Classical.
From Verif Require Import Base Spec_Graph Spec_Sum Spec_MST Spec_Stats M_Structure M_Rand M_Util M_Training M_Serving Spec_Serving Spec_Summary.
From Verif Require L_MakeTree.
From Verif Require Import L_Sum L_Estimate L_Serve1 L_Summary M_Layout Spec_Layout.
Import ListNotations.
Open Scope R_scope.

Lemma nth_seq_map : forall {A} (f : nat -> A) n i d, (i < n)%nat -> nth i (map f (seq 0 n)) d = f i.
Proof. intros. rewrite (nth_indep _ d (f 0%nat)) by (rewrite map_length, seq_length; auto). rewrite map_nth. now rewrite seq_nth. Qed.
Lemma sumf_pick : forall n i (f : nat -> R), (i < n)%nat -> sumf (seq 0 n) (fun j => if (i =? j)%nat then f j else 0) = f i.
Proof.
  intros n i f L. replace n with (i + S (n - S i))%nat by lia. rewrite seq_app, sumf_app. cbn [seq]. rewrite sumf_cons. rewrite Nat.add_0_l, Nat.eqb_refl.
  rewrite (sumf_zero (seq 0 i)), (sumf_zero (seq (S i) _)); [lra| |]; intros x I; apply in_seq in I; destruct (Nat.eqb_spec i x); auto; lia.
Qed.
Lemma fold_sum : forall (f : nat -> R) l, fold_right Rplus 0 (map f l) = sumf l f.
Proof. induction l; cbn; [auto|]. now rewrite IHl. Qed.

Section Lap.
Variables (n : nat) (cm : list (list R)).
Hypothesis COR : correlations n cm.
Definition w (i j : nat) : R := if (i =? j)%nat then 0 else entry cm i j.
Lemma w_sym : forall i j, (i < n)%nat -> (j < n)%nat -> w i j = w j i.
Proof. intros i j Hi Hj. unfold w. rewrite (Nat.eqb_sym j i). destruct (i =? j)%nat; [auto|]. now apply COR. Qed.
Lemma w_nonneg : forall i j, (i < n)%nat -> (j < n)%nat -> 0 <= w i j.
Proof. intros i j Hi Hj. unfold w. destruct (i =? j)%nat; [lra|]. now apply COR. Qed.

Lemma lap_entry : forall i j, (i < n)%nat -> (j < n)%nat -> entry (layout_laplacian cm) i j = if (i =? j)%nat then sumf (seq 0 n) (w i) else - entry cm i j.
Proof.
  intros i j Hi Hj. destruct COR as (LN & _ & _). unfold layout_laplacian, entry. rewrite LN.
  rewrite nth_seq_map by auto. rewrite nth_seq_map by auto. destruct (Nat.eqb_spec i j) as [<-|NE].
  - rewrite fold_sum. rewrite <- (Ropp_involutive (sumf (seq 0 n) (w i))). f_equal. rewrite <- (Rmult_1_l (sumf _ (w i))), Ropp_mult_distr_l, <- sumf_scal. apply sumf_ext. intros k Ik. apply in_seq in Ik.
    rewrite nth_seq_map by lia. rewrite nth_seq_map by auto. rewrite (w_sym i k) by lia. unfold w, entry. destruct (k =? i)%nat; lra.
  - rewrite nth_seq_map by auto. rewrite nth_seq_map by auto. destruct (Nat.eqb_spec i j); [contradiction|auto].
Qed.

Lemma lap_apply : forall x i, (i < n)%nat -> dot n (entry (layout_laplacian cm) i) x = sumf (seq 0 n) (fun k => w i k * (x i - x k)).
Proof.
  intros x i Hi. unfold dot.
  rewrite (sumf_ext _ _ (fun j => (if (i =? j)%nat then sumf (seq 0 n) (w i) * x j else 0) - w i j * x j)).
  2:{ intros j Ij. apply in_seq in Ij. rewrite lap_entry by lia. unfold w at 3. destruct (i =? j)%nat; lra. }
  rewrite sumf_minus, (sumf_pick n i (fun j => sumf (seq 0 n) (w i) * x j) Hi). rewrite <- sumf_scal_r, <- sumf_minus. apply sumf_ext. intros; lra.
Qed.

Definition form (x : nat -> R) : R := sumf (seq 0 n) (fun i => sumf (seq 0 n) (fun j => w i j * ((x i - x j) * (x i - x j)))) / 2.

Lemma form_apply : forall x, dot n x (fun i => dot n (entry (layout_laplacian cm) i) x) = form x.
Proof.
  intros x. unfold dot at 1. rewrite (sumf_ext _ _ (fun i => sumf (seq 0 n) (fun k => x i * (w i k * (x i - x k))))).
  2:{ intros i Ii. apply in_seq in Ii. rewrite lap_apply by lia. now rewrite sumf_scal. }
  set (A := sumf (seq 0 n) (fun i => sumf (seq 0 n) (fun k => x i * (w i k * (x i - x k))))).
  assert (B : A = sumf (seq 0 n) (fun i => sumf (seq 0 n) (fun k => x k * (w i k * (x k - x i))))).
  { unfold A. rewrite sumf_swap. apply sumf_ext. intros i Ii. apply sumf_ext. intros k Ik. apply in_seq in Ii, Ik. rewrite (w_sym k i) by lia. reflexivity. }
  assert (T : A + A = 2 * form x); [|lra]. rewrite B at 2. unfold form, A. rewrite <- sumf_plus. rewrite <- sumf_div, <- sumf_scal. apply sumf_ext. intros i _.
  rewrite <- sumf_plus, <- sumf_div, <- sumf_scal. apply sumf_ext. intros k _. field.
Qed.

Lemma form_energy : forall x, form x = energy n (entry cm) x.
Proof.
  intros x. unfold form, energy.
  assert (G : forall m, (m <= n)%nat -> sumf (seq 0 m) (fun i => sumf (seq 0 m) (fun j => w i j * ((x i - x j) * (x i - x j)))) = 2 * sumf (seq 0 m) (fun i => sumf (seq 0 i) (fun j => entry cm i j * ((x i - x j) * (x i - x j))))).
  { induction m as [|m IH]; intros L; [cbn; lra|]. rewrite !seq_S, !Nat.add_0_l.
    rewrite (sumf_ext _ _ (fun i => sumf (seq 0 m) (fun j => w i j * ((x i - x j) * (x i - x j))) + w i m * ((x i - x m) * (x i - x m)))).
    2:{ intros i _. rewrite sumf_app, sumf_cons, sumf_nil. lra. }
    rewrite !sumf_app, !sumf_cons, !sumf_nil, sumf_plus, IH by lia.
    rewrite (sumf_ext (seq 0 m) (fun i => w i m * ((x i - x m) * (x i - x m))) (fun j => entry cm m j * ((x m - x j) * (x m - x j)))).
    2:{ intros i Ii. apply in_seq in Ii. rewrite (w_sym i m) by lia. unfold w. destruct (Nat.eqb_spec m i); [lia|lra]. }
    rewrite (sumf_ext (seq 0 m) (fun j => w m j * ((x m - x j) * (x m - x j))) (fun j => entry cm m j * ((x m - x j) * (x m - x j)))).
    2:{ intros i Ii. apply in_seq in Ii. unfold w. destruct (Nat.eqb_spec m i); [lia|lra]. }
    unfold w. rewrite Nat.eqb_refl. lra. }
  rewrite (G n) by lia. lra.
Qed.
Lemma form_nonneg : forall x, 0 <= form x.
Proof. intros x. unfold form. apply Rmult_le_pos; [|lra]. apply sumf_nonneg. intros i Ii. apply sumf_nonneg. intros j Ij. apply in_seq in Ii, Ij.
  apply Rmult_le_pos; [apply w_nonneg; lia|apply Rle_0_sqr]. Qed.
Lemma form_zero : forall x, form x = 0 -> forall i j, (i < n)%nat -> (j < n)%nat -> 0 < w i j -> x i = x j.
Proof.
  intros x F i j Hi Hj P. unfold form in F. assert (Z : sumf (seq 0 n) (fun i => sumf (seq 0 n) (fun j => w i j * ((x i - x j) * (x i - x j)))) = 0) by lra.
  assert (NN : forall i j, In i (seq 0 n) -> In j (seq 0 n) -> 0 <= w i j * ((x i - x j) * (x i - x j))).
  { intros a b Ia Ib. apply in_seq in Ia, Ib. apply Rmult_le_pos; [apply w_nonneg; lia|apply Rle_0_sqr]. }
  assert (Ii : In i (seq 0 n)) by (apply in_seq; lia). assert (Ij : In j (seq 0 n)) by (apply in_seq; lia).
  pose proof (sumf_zero_inv _ _ (fun a Ia => sumf_nonneg _ _ (fun b Ib => NN a b Ia Ib)) Z i Ii) as Z1.
  pose proof (sumf_zero_inv _ _ (fun b Ib => NN i b Ii Ib) Z1 j Ij) as Z2. cbv beta in Z2. apply Rmult_integral in Z2. destruct Z2 as [Z2|Z2]; [lra|]. apply Rmult_integral in Z2. lra.
Qed.
Lemma tied_const : forall x, form x = 0 -> forall u v, (u < n)%nat -> tied (entry cm) n u v -> x u = x v.
Proof.
  intros x F u v Hu T. induction T as [|u v z Hv Hz T IH P]; [auto|]. rewrite IH by auto. destruct (Nat.eq_dec v z) as [->|NE]; [auto|].
  apply (form_zero x F); auto. unfold w. destruct (Nat.eqb_spec v z); [contradiction|auto].
Qed.

Variable es : list (R * list R).
Hypothesis ES : eigen_system n (layout_laplacian cm) es.
Definition lam (k : nat) : R := fst (nth k es (0, [])).
Definition vec (k j : nat) : R := nth j (snd (nth k es (0, []))) 0.
Lemma dot_ext : forall x y x' y', (forall i, (i < n)%nat -> x i = x' i) -> (forall i, (i < n)%nat -> y i = y' i) -> dot n x y = dot n x' y'.
Proof. intros. apply sumf_ext. intros i Ii. apply in_seq in Ii. rewrite H, H0 by lia. auto. Qed.
Lemma dot_sym : forall x y, dot n x y = dot n y x.
Proof. intros. apply sumf_ext. intros. lra. Qed.

(** expansion in eigenvectors *)
Lemma parseval : forall x y, dot n x y = sumf (seq 0 n) (fun k => dot n x (vec k) * dot n y (vec k)).
Proof.
  intros x y. rewrite dot_sym. unfold dot at 1. rewrite (sumf_ext _ _ (fun i => sumf (seq 0 n) (fun k => y i * (dot n x (vec k) * vec k i)))).
  2:{ intros i Ii. apply in_seq in Ii. rewrite (es_spanning _ _ _ ES x i) by lia. symmetry. apply sumf_scal. }
  rewrite sumf_swap. apply sumf_ext. intros k _. rewrite (sumf_ext _ _ (fun i => dot n x (vec k) * (y i * vec k i))) by (intros; lra). now rewrite sumf_scal.
Qed.
Lemma lap_symm : forall x y, dot n y (fun i => dot n (entry (layout_laplacian cm) i) x) = dot n x (fun i => dot n (entry (layout_laplacian cm) i) y).
Proof.
  intros x y. unfold dot at 1 3. 
  rewrite (sumf_ext _ (fun i => y i * _) (fun i => sumf (seq 0 n) (fun j => y i * (entry (layout_laplacian cm) i j * x j)))) by (intros; symmetry; apply sumf_scal).
  rewrite (sumf_ext _ (fun i => x i * _) (fun i => sumf (seq 0 n) (fun j => x i * (entry (layout_laplacian cm) i j * y j)))) by (intros; symmetry; apply sumf_scal).
  rewrite sumf_swap. apply sumf_ext. intros i Ii. apply sumf_ext. intros j Ij. apply in_seq in Ii, Ij. rewrite !lap_entry by lia. rewrite (Nat.eqb_sym j i).
  destruct (Nat.eqb_spec i j) as [->|NE]; [lra|]. destruct COR as (_ & _ & S). destruct (S i j) as [-> _]; [lia|lia|]. lra.
Qed.
Lemma form_spec : forall x, form x = sumf (seq 0 n) (fun k => lam k * (dot n x (vec k) * dot n x (vec k))).
Proof.
  intros x. rewrite <- form_apply. rewrite parseval. apply sumf_ext. intros k Ik. apply in_seq in Ik.
  rewrite (dot_sym (fun i => dot n (entry (layout_laplacian cm) i) x) (vec k)). rewrite lap_symm.
  rewrite (dot_ext x (fun i => dot n (entry (layout_laplacian cm) i) (vec k)) x (fun i => lam k * vec k i)); [|auto|].
  - unfold dot at 2. rewrite (sumf_ext _ _ (fun i => lam k * (x i * vec k i))) by (intros; lra). rewrite sumf_scal. fold (dot n x (vec k)). lra.
  - intros i Hi. apply (es_value _ _ _ ES k i); lia.
Qed.
Lemma lam_form : forall k, (k < n)%nat -> lam k = form (vec k).
Proof.
  intros k Hk. rewrite form_spec. rewrite (sumf_ext _ _ (fun j => if (k =? j)%nat then lam j else 0)).
  - symmetry. now apply sumf_pick.
  - intros j Ij. apply in_seq in Ij. unfold vec. rewrite (es_unit _ _ _ ES k j) by lia. destruct (k =? j)%nat; lra.
Qed.
Lemma lam_nonneg : forall k, (k < n)%nat -> 0 <= lam k.
Proof. intros. rewrite lam_form by auto. apply form_nonneg. Qed.

Definition connected : Prop := forall u v, (u < n)%nat -> (v < n)%nat -> tied (entry cm) n u v.

Lemma one_form : form (fun _ => 1) = 0.
Proof. unfold form. rewrite sumf_zero; [lra|]. intros. apply sumf_zero. intros. lra. Qed.
Lemma connected_pos : connected -> (2 <= n)%nat -> 0 < lam 1.
Proof.
  intros C N2. destruct (Rle_lt_or_eq_dec 0 (lam 1) (lam_nonneg 1 ltac:(lia))) as [P|Z]; [auto|exfalso].
  assert (Z0 : lam 0 = 0). { pose proof (lam_nonneg 0 ltac:(lia)). pose proof (es_ascending _ _ _ ES 0%nat 1%nat ltac:(lia)) as A. unfold lam in *. lra. }
  assert (K : forall k, (k < n)%nat -> lam k = 0 -> forall i, (i < n)%nat -> vec k i = vec k 0).
  { intros k Hk L i Hi. symmetry. apply tied_const; [rewrite <- lam_form; auto|lia|apply C; lia]. }
  assert (D : forall k l, (k < 2)%nat -> (l < 2)%nat -> INR n * (vec k 0 * vec l 0) = if (k =? l)%nat then 1 else 0).
  { intros k l Hk Hl. assert (lam k = 0) by (destruct k as [|[|k]]; [auto|auto|lia]). assert (lam l = 0) by (destruct l as [|[|l]]; [auto|auto|lia]).
    rewrite <- (es_unit _ _ _ ES k l) by lia. fold (vec k) (vec l). rewrite (dot_ext _ _ (fun _ => vec k 0) (fun _ => vec l 0)) by (intros; apply K; auto; lia).
    unfold dot. rewrite sumf_const, seq_length. reflexivity. }
  pose proof (D 0 0 ltac:(lia) ltac:(lia))%nat as A. pose proof (D 1 1 ltac:(lia) ltac:(lia))%nat as B. pose proof (D 0 1 ltac:(lia) ltac:(lia))%nat as E. cbn in A, B, E.
  assert (F : (INR n * (vec 0 0 * vec 1 0)) * (INR n * (vec 0 0 * vec 1 0)) = (INR n * (vec 0 0 * vec 0 0)) * (INR n * (vec 1 0 * vec 1 0))) by ring. rewrite A, B, E in F. lra.
Qed.

(** the vectors that the form ignores *)
Lemma ignored : 0 < lam 1 -> (2 <= n)%nat -> forall x, form x = 0 -> forall i, (i < n)%nat -> x i = dot n x (vec 0) * vec 0 i.
Proof.
  intros P N2 x F i Hi. rewrite (es_spanning _ _ _ ES x i Hi). rewrite form_spec in F.
  assert (Z : forall k, (1 <= k < n)%nat -> dot n x (vec k) = 0).
  { intros k Hk. assert (Ik : In k (seq 0 n)) by (apply in_seq; lia).
    assert (NN : forall k, In k (seq 0 n) -> 0 <= lam k * (dot n x (vec k) * dot n x (vec k))) by (intros q Iq; apply in_seq in Iq; apply Rmult_le_pos; [apply lam_nonneg; lia|apply Rle_0_sqr]).
    pose proof (sumf_zero_inv _ _ NN F k Ik) as Q. cbv beta in Q. pose proof (es_ascending _ _ _ ES 1%nat k ltac:(lia)) as A. fold (lam 1) (lam k) in A.
    apply Rmult_integral in Q. destruct Q as [Q|Q]; [lra|]. apply Rmult_integral in Q. tauto. }
  replace n with (1 + (n - 1))%nat at 1 by lia. rewrite seq_app, sumf_app. cbn [seq Nat.add]. rewrite sumf_cons, sumf_nil. rewrite (sumf_zero (seq 1 (n - 1))); [unfold vec; lra|].
  intros k Ik. apply in_seq in Ik. fold (vec k). rewrite Z by lia. lra.
Qed.

Lemma finite_choice : forall (P : nat -> Prop) m, exists b : nat -> bool, forall i, (i < m)%nat -> (b i = true <-> P i).
Proof.
  intros P. induction m as [|m (b & B)]; [exists (fun _ => true); intros; lia|].
  destruct (classic (P m)) as [Y|N].
  - exists (fun i => if (i =? m)%nat then true else b i). intros i Hi. destruct (Nat.eqb_spec i m); [subst; tauto|apply B; lia].
  - exists (fun i => if (i =? m)%nat then false else b i). intros i Hi. destruct (Nat.eqb_spec i m); [subst; split; [discriminate|tauto]|apply B; lia].
Qed.

Lemma pos_connected : 0 < lam 1 -> (2 <= n)%nat -> connected.
Proof.
  intros P N2 u v Hu Hv. destruct (finite_choice (tied (entry cm) n u) n) as (b & B).
  set (x := fun i => if b i then 1 else 0).
  assert (F : form x = 0).
  { unfold form. rewrite sumf_zero; [lra|]. intros i Ii. apply sumf_zero. intros j Ij. apply in_seq in Ii, Ij.
    destruct (Req_EM_T (w i j) 0) as [->|NE]; [lra|]. assert (W : 0 < w i j) by (pose proof (w_nonneg i j ltac:(lia) ltac:(lia)); lra).
    assert (Wc : 0 < entry cm i j) by (unfold w in W; destruct (i =? j)%nat; [lra|auto]).
    assert (Wd : 0 < entry cm j i) by (destruct COR as (_ & _ & S); destruct (S i j) as [E _]; [lia|lia|]; lra).
    assert (E : b i = b j). { destruct (b i) eqn:Bi, (b j) eqn:Bj; auto.
      - apply B in Bi; [|lia]. assert (b j = true); [|congruence]. apply B; [lia|]. eapply tied_step; [| |exact Bi|exact Wc]; lia.
      - apply B in Bj; [|lia]. assert (b i = true); [|congruence]. apply B; [lia|]. eapply tied_step; [| |exact Bj|exact Wd]; lia. }
    unfold x. rewrite E. lra. }
  pose proof (ignored P N2 x F) as X. pose proof (ignored P N2 (fun _ => 1) one_form) as O.
  assert (Bu : b u = true) by (apply B; [auto|apply tied_self]). pose proof (X u Hu) as Xu. pose proof (O u Hu) as Ou. pose proof (X v Hv) as Xv. pose proof (O v Hv) as Ov.
  set (p := dot n x (vec 0)) in *. set (q := dot n (fun _ => 1) (vec 0)) in *. cbv beta in Ou, Ov. unfold x in Xu at 1. rewrite Bu in Xu.
  assert (Q : q <> 0) by (intros E; rewrite E in Ou; lra). assert (V1 : vec 0 u = vec 0 v).
  { apply (Rmult_eq_reg_l q); [|auto]. congruence. }
  rewrite <- V1, <- Xu in Xv. apply B; [auto|]. unfold x in Xv. destruct (b v); [auto|lra].
Qed.

Lemma v0_const : 0 < lam 1 -> (2 <= n)%nat -> forall k, (1 <= k < n)%nat -> sumf (seq 0 n) (vec k) = 0.
Proof.
  intros P N2 k Hk. pose proof (ignored P N2 (fun _ => 1) one_form) as O.
  transitivity (dot n (fun _ => 1) (vec k)); [apply sumf_ext; intros; lra|].
  rewrite (dot_ext _ (vec k) (fun i => dot n (fun _ => 1) (vec 0) * vec 0 i) (vec k)); [|exact O|auto].
  unfold dot at 1. rewrite (sumf_ext _ _ (fun i => dot n (fun _ => 1) (vec 0) * (vec 0 i * vec k i))) by (intros; lra). rewrite sumf_scal.
  change (sumf (seq 0 n) (fun i => vec 0 i * vec k i)) with (dot n (vec 0) (vec k)). unfold vec at 2 3. rewrite (es_unit _ _ _ ES 0%nat k) by lia. destruct k; [lia|]. cbn. lra.
Qed.
Lemma nearest : 0 < lam 1 -> (2 <= n)%nat -> forall k x, (1 <= k < n)%nat -> sumf (seq 0 n) x = 0 -> dot n x x = 1 -> (forall l, (1 <= l < k)%nat -> dot n x (vec l) = 0) -> lam k <= form x.
Proof.
  intros P N2 k x Hk C U OR. pose proof (ignored P N2 (fun _ => 1) one_form) as O.
  assert (Z0 : dot n x (vec 0) = 0).
  { set (q := dot n (fun _ => 1) (vec 0)) in *. assert (Q : q <> 0) by (intros E; pose proof (O 0%nat ltac:(lia)) as Y; rewrite E in Y; lra).
    apply (Rmult_eq_reg_l q); [|auto]. rewrite Rmult_0_r. unfold dot. rewrite <- sumf_scal. rewrite <- C. apply sumf_ext. intros i Ii. apply in_seq in Ii. pose proof (O i ltac:(lia)) as Y. cbv beta in Y.
    transitivity (x i * (q * vec 0 i)); [lra|]. rewrite <- Y. lra. }
  assert (Z : forall l, (l < k)%nat -> dot n x (vec l) = 0) by (intros [|l] Hl; [auto|apply OR; lia]).
  rewrite form_spec. rewrite parseval in U. rewrite <- (Rmult_1_r (lam k)), <- U, <- sumf_scal. apply sumf_le. intros l Il. apply in_seq in Il.
  destruct (le_lt_dec k l) as [KL|KL]; [|rewrite (Z l KL); lra].
  apply Rmult_le_compat_r; [apply Rle_0_sqr|]. apply (es_ascending _ _ _ ES); lia.
Qed.

(** layout_tree *)
Variable eigh : list (list R) -> list (R * list R).
Hypothesis EQ : eigh (layout_laplacian cm) = es.

Lemma layout_runs : (4 <= n)%nat -> repaired_layout_tree eigh cm = if Rlt_dec 0 (lam 1) then Ok (map (fun v => [vec 1 v; vec 2 v; vec 3 v]) (seq 0 n)) else Raise AssertionError.
Proof.
  intros N4. pose proof COR as (LN & RL & _). unfold repaired_layout_tree, layout_tree_with, eigh_range. rewrite LN.
  assert (A : forallb (fun row => (length row =? n)%nat) cm = true) by (apply forallb_forall; intros r I; apply Nat.eqb_eq; auto). rewrite A. cbn [assert_ bind].
  assert (LL : length (layout_laplacian cm) = n) by (unfold layout_laplacian; rewrite map_length, seq_length; auto). rewrite LL.
  destruct (Nat.ltb_spec 3 n) as [X|X]; [|lia]. clear X. cbn [bind]. rewrite EQ. change (3 + 1 - 1)%nat with 3%nat.
  assert (PK : firstn 3 (skipn 1 es) = [nth 1 es (0, []); nth 2 es (0, []); nth 3 es (0, [])]).
  { pose proof (es_length _ _ _ ES) as LE. destruct es as [|e0 [|e1 [|e2 [|e3 t]]]]; cbn in LE; try lia. reflexivity. }
  rewrite PK. destruct (nth 1 es (0, [])) as [l1 v1] eqn:E1, (nth 2 es (0, [])) as [l2 v2] eqn:E2, (nth 3 es (0, [])) as [l3 v3] eqn:E3. cbn [forallb].
  pose proof (es_ascending _ _ _ ES 1%nat 2%nat ltac:(lia)) as A1. pose proof (es_ascending _ _ _ ES 1%nat 3%nat ltac:(lia)) as A2. rewrite E1, E2 in A1. rewrite E1, E3 in A2. cbn in A1, A2.
  unfold lam. rewrite E1. cbn [fst]. destruct (Rlt_dec 0 l1) as [L|L].
  - destruct (Rlt_dec 0 l2) as [_|X]; [|lra]. destruct (Rlt_dec 0 l3) as [_|X]; [|lra]. cbn [andb assert_ bind length Nat.eqb]. unfold vec. rewrite E1, E2, E3. reflexivity.
  - reflexivity.
Qed.

Lemma layout_spectral : (4 <= n)%nat -> 0 < lam 1 -> spectral n (entry cm) (map (fun v => [vec 1 v; vec 2 v; vec 3 v]) (seq 0 n)).
Proof.
  intros N4 P. assert (E : forall v k, (v < n)%nat -> (k < 3)%nat -> entry (map (fun v => [vec 1 v; vec 2 v; vec 3 v]) (seq 0 n)) v k = vec (S k) v).
  { intros v k Hv Hk. unfold entry. rewrite nth_seq_map by auto. destruct k as [|[|[|k]]]; try lia; reflexivity. }
  split.
  - split; [rewrite map_length, seq_length; auto|]. intros v Hv. rewrite nth_seq_map by auto. reflexivity.
  - intros k Hk. unfold centered. rewrite <- (v0_const P ltac:(lia) (S k) ltac:(lia)). apply sumf_ext. intros v Iv. apply in_seq in Iv. apply E; lia.
  - intros k l Hk Hl. rewrite <- (dot_ext (vec (S k)) (vec (S l))) by (intros; symmetry; apply E; auto). unfold vec. rewrite (es_unit _ _ _ ES (S k) (S l)) by lia. reflexivity.
  - intros k x Hk C U OR. rewrite <- !form_energy.
    assert (F : form (fun v => entry (map (fun v => [vec 1 v; vec 2 v; vec 3 v]) (seq 0 n)) v k) = form (vec (S k))).
    { unfold form. f_equal. apply sumf_ext. intros i Ii. apply sumf_ext. intros j Ij. apply in_seq in Ii, Ij. rewrite !E by lia. reflexivity. }
    rewrite F, <- lam_form by lia. apply nearest; auto; try lia. intros [|l] Hl; [lia|]. rewrite <- (OR l) by lia. apply dot_ext; [auto|]. intros; symmetry; apply E; lia.
Qed.
End Lap.

Lemma lap_of : forall n cm, correlations n cm -> laplacian_of n (entry cm) (layout_laplacian cm).
Proof.
  intros n cm COR. pose proof COR as (LN & _ & _). split; [|split].
  - unfold layout_laplacian. now rewrite map_length, seq_length.
  - intros row I. unfold layout_laplacian in I. apply in_map_iff in I. destruct I as (i & <- & _). now rewrite map_length, seq_length.
  - intros i j Hi Hj. now apply lap_entry.
Qed.
Lemma C73_layout : forall eigh n cm, correlations n cm -> (4 <= n)%nat -> eigh_contract eigh n (entry cm) ->
  (forall u v, (u < n)%nat -> (v < n)%nat -> tied (entry cm) n u v) ->
  exists positions, repaired_layout_tree eigh cm = Ok positions /\ spectral n (entry cm) positions.
Proof.
  intros eigh n cm COR N4 EC C. pose proof (EC _ (lap_of n cm COR)) as ES. pose proof (connected_pos n cm COR _ ES C ltac:(lia)) as P. rewrite (layout_runs n cm COR _ ES eigh eq_refl N4).
  destruct (Rlt_dec 0 (lam _ 1)); [|contradiction]. eexists. split; [reflexivity|]. now apply layout_spectral.
Qed.
Lemma C73_fails : forall eigh n cm, correlations n cm -> (4 <= n)%nat -> eigh_contract eigh n (entry cm) ->
  ~ (forall u v, (u < n)%nat -> (v < n)%nat -> tied (entry cm) n u v) -> repaired_layout_tree eigh cm = Raise AssertionError.
Proof.
  intros eigh n cm COR N4 EC C. pose proof (EC _ (lap_of n cm COR)) as ES. rewrite (layout_runs n cm COR _ ES eigh eq_refl N4). destruct (Rlt_dec 0 (lam _ 1)) as [P|]; [|auto].
  destruct C. apply (pos_connected n cm COR _ ES P). lia.
Qed.
Lemma C73_small : forall eigh n cm, correlations n cm -> (n < 4)%nat -> repaired_layout_tree eigh cm = Raise ValueError.
Proof.
  intros eigh n cm (LN & RL & _) N4. unfold repaired_layout_tree, layout_tree_with, eigh_range. rewrite LN.
  assert (A : forallb (fun row => (length row =? n)%nat) cm = true) by (apply forallb_forall; intros r I; apply Nat.eqb_eq; auto). rewrite A. cbn [assert_ bind].
  assert (LL : length (layout_laplacian cm) = n) by (unfold layout_laplacian; rewrite map_length, seq_length; auto). rewrite LL.
  destruct (Nat.ltb_spec 3 n); [lia|reflexivity].
Qed.

Lemma C73_always : forall eigh n cm, correlations n cm -> layout_tree eigh cm = Raise ValueError.
Proof.
  intros eigh n cm (LN & RL & _). unfold layout_tree, layout_tree_with, eigh_range. rewrite LN.
  assert (A : forallb (fun row => (length row =? n)%nat) cm = true) by (apply forallb_forall; intros r I; apply Nat.eqb_eq; auto). rewrite A. reflexivity.
Qed.

(** Servers: their correlations are correlations; with one cluster all are zero. *)
Lemma C73_server_correlations : forall ws V M N m mst s junk rows, consistent ws V M N m -> mst_contract mst -> tree_server mst m = Ok s ->
  latent_correlation s junk = Ok rows -> correlations V rows.
Proof.
  intros ws V M N m mst s junk rows CM MC TS LC. destruct (C34_proof ws V M N m mst s junk CM MC TS) as (rows' & E & L & H). rewrite LC in E. inversion E; subst rows'. clear E.
  split; [auto|]. split.
  - intros row I. destruct (In_nth _ _ [] I) as (u & Hu & <-). rewrite L in Hu. now destruct (H u u Hu Hu) as (A & _).
  - intros i j Hi Hj. destruct (H i j Hi Hj) as (_ & _ & _ & A & B & _). unfold entry. split; [exact A|apply B].
Qed.
Lemma tied_none : forall c n u v, (forall i j, (i < n)%nat -> (j < n)%nat -> c i j = 0) -> tied c n u v -> u = v.
Proof. intros c n u v Z T. induction T as [|u v w Hv Hw T IH P]; [auto|]. rewrite (Z v w Hv Hw) in P. lra. Qed.
Lemma C73_one_cluster : forall ws V N m mst s junk rows eigh, consistent ws V 1 N m -> mst_contract mst -> tree_server mst m = Ok s -> (4 <= V)%nat ->
  latent_correlation s junk = Ok rows -> eigh_contract eigh V (entry rows) -> repaired_layout_tree eigh rows = Raise AssertionError.
Proof.
  intros ws V N m mst s junk rows eigh CM MC TS N4 LC EC. pose proof (C73_server_correlations _ _ _ _ _ _ _ _ _ CM MC TS LC) as COR.
  apply (C73_fails eigh V rows COR N4 EC). intros C. assert (0 = 1)%nat; [|lia]. apply (tied_none (entry rows) V 0 1); [|apply C; lia]. intros i j Hi Hj.
  destruct (C34_proof ws V 1 N m mst s junk CM MC TS) as (rows' & E & L & H). rewrite LC in E. inversion E; subst rows'. clear E. destruct (H i j Hi Hj) as (_ & A & _). unfold entry. rewrite A.
  assert (T : pair_prob m i j 0 0 = 1).
  { destruct (L_Server.build_server ws V 1 N m CM mst MC) as (s' & edges & E' & SF & ST & SV & SE & SFe & _). rewrite TS in E'. inversion E'; subst s'.
    assert (SM : d_M m = 1%nat) by (destruct (cm_M _ _ _ _ _ CM); auto).
    pose proof (pair_total ws V 1 m edges s SF ST SM SV SE SFe i j Hi Hj) as PT. cbn [seq] in PT. rewrite !sumf_cons, !sumf_nil in PT. lra. }
  unfold mutual_information. cbn [seq]. rewrite !sumf_cons, !sumf_nil. rewrite T. replace (1 / ((1 + 0) * (1 + 0))) with 1 by field. rewrite ln_1.
  replace (-2 * (1 * 0 + 0 + 0)) with 0 by ring. rewrite exp_0. replace (1 - 1) with 0 by ring. apply sqrt_0.
Qed.

(** A model of four features with one cluster. *)
Definition lone_model : smodel :=
  SModel (TS 4 (make_tree [(0, 1); (1, 2); (2, 3)]%nat)) [0; 2; 4; 6; 8]%nat (fun _ _ => 1%Z) (fun _ _ _ => 1%Z) (fun q _ => if Nat.even q then 1 else 0)%Z 1 (repeat 0 6).
Lemma lone_consistent : consistent [2; 2; 2; 2]%nat 4 1 1 lone_model.
Proof.
  constructor; cbn [lone_model d_ri d_M d_tree d_vert d_edge d_feat d_logits]; auto.
  - split; [reflexivity|lia].
  - exists [(0, 1); (1, 2); (2, 3)]%nat. split; [|reflexivity]. exact (L_MakeTree.path_spanning 4 ltac:(lia)).
  - intros; lia.
  - intros; lia.
  - intros q c _ _. destruct (Nat.even q); lia.
Qed.
Lemma lone_served : exists s rows, tree_server naive_mst lone_model = Ok s /\ latent_correlation s (fun _ _ _ _ => 0) = Ok rows.
Proof.
  destruct (L_Server.build_server _ _ _ _ _ lone_consistent naive_mst naive_mst_contract) as (s & edges & E & _).
  destruct (C34_proof _ _ _ _ _ _ _ (fun _ _ _ _ => 0) lone_consistent naive_mst_contract E) as (rows & LC & _). now exists s, rows.
Qed.

(** Four features, any two of them equally correlated. *)
Definition even_cm : list (list R) := [[1; 1/2; 1/2; 1/2]; [1/2; 1; 1/2; 1/2]; [1/2; 1/2; 1; 1/2]; [1/2; 1/2; 1/2; 1]].
Definition even_es : list (R * list R) := [(0, [1/2; 1/2; 1/2; 1/2]); (2, [1/2; 1/2; -1/2; -1/2]); (2, [1/2; -1/2; 1/2; -1/2]); (2, [1/2; -1/2; -1/2; 1/2])].
Lemma below4 : forall i, (i < 4)%nat -> i = 0%nat \/ i = 1%nat \/ i = 2%nat \/ i = 3%nat. Proof. intros; lia. Qed.
Lemma even_correlations : correlations 4 even_cm.
Proof.
  split; [reflexivity|]. split; [intros row I; cbn in I; repeat (destruct I as [<-|I]; [reflexivity|]); destruct I|].
  intros i j Hi Hj. apply below4 in Hi, Hj. destruct Hi as [->|[->|[->| ->]]], Hj as [->|[->|[->| ->]]]; cbn; lra.
Qed.
Lemma even_contract : eigh_contract (fun _ => even_es) 4 (entry even_cm).
Proof.
  intros m (_ & _ & ME).
  assert (E : forall i, (i < 4)%nat -> forall x, dot 4 (entry m i) x = 2 * x i - (x 0%nat + x 1%nat + x 2%nat + x 3%nat) / 2).
  { intros i Hi x. unfold dot. cbn [seq]. rewrite !sumf_cons, sumf_nil. rewrite !ME by lia. apply below4 in Hi. destruct Hi as [->|[->|[->| ->]]]; cbn; lra. }
  split.
  - reflexivity.
  - intros k i Hk Hi. rewrite E by auto. apply below4 in Hk, Hi. destruct Hi as [->|[->|[->| ->]]], Hk as [->|[->|[->| ->]]]; cbn; lra.
  - intros k l Hk Hl. apply below4 in Hk, Hl. unfold dot. cbn [seq]. rewrite !sumf_cons, sumf_nil. destruct Hk as [->|[->|[->| ->]]], Hl as [->|[->|[->| ->]]]; cbn; lra.
  - intros k l [Hk Hl]. assert (Hk4 : (k < 4)%nat) by lia. apply below4 in Hk4, Hl. destruct Hk4 as [->|[->|[->| ->]]], Hl as [->|[->|[->| ->]]]; cbn; try lra; lia.
  - intros x i Hi. unfold dot. cbn [seq]. rewrite !sumf_cons, !sumf_nil. apply below4 in Hi. destruct Hi as [->|[->|[->| ->]]]; cbn; lra.
Qed.
Lemma even_tied : forall u v, (u < 4)%nat -> (v < 4)%nat -> tied (entry even_cm) 4 u v.
Proof. intros u v Hu Hv. apply (tied_step _ _ u u v Hu Hv (tied_self _ _ u)). apply below4 in Hu, Hv. destruct Hu as [->|[->|[->| ->]]], Hv as [->|[->|[->| ->]]]; cbn; lra. Qed.
