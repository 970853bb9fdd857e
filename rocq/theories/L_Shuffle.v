(** Lemmas for EnsembleServer.sample: random splits and shuffles. *)
From Coq Require Import List Arith Lia Bool Reals Lra Permutation.
From Verif Require Import Base L_Base Spec_Sum L_Sum M_Rand L_Rand Spec_Joint Spec_Conditional L_Asg M_EnsembleServer.
Import ListNotations.
Open Scope R_scope.

(** ** Linearity of expectation *)
Lemma expect_sum {A B} (p : rprog A) (l : list B) (f : B -> result A -> R) :
  expect p (fun r => sumf l (fun b => f b r)) = sumf l (fun b => expect p (f b)).
Proof.
  induction p; cbn [expect].
  - reflexivity.
  - reflexivity.
  - destruct w as [|x w]; [reflexivity|]. destruct (Req_EM_T _ _); [apply H|].
    rewrite (sumf_ext _ _ (fun i => sumf l (fun b => nth i (x :: w) 0 / rsum (x :: w) * expect (k i) (f b)))).
    + apply sumf_swap.
    + intros i _. rewrite H. now rewrite sumf_scal.
  - rewrite (sumf_ext _ _ (fun s => sumf l (fun b => expect (k s) (f b)))) by (intros; apply H).
    rewrite sumf_swap. unfold Rdiv. now rewrite <- sumf_scal_r.
Qed.

Lemma expect_scal {A} (p : rprog A) c (f : result A -> R) : expect p (fun r => c * f r) = c * expect p f.
Proof.
  transitivity (sumf [tt] (fun _ => c * expect p f)); [|cbn; ring].
  induction p; cbn [expect]; [cbn; ring|cbn; ring| |].
  - destruct w as [|x w]; [cbn; ring|]. destruct (Req_EM_T _ _); [rewrite H; cbn; ring|].
    cbn [sumf fold_right]. rewrite Rplus_0_r, <- sumf_scal. apply sumf_ext. intros i _. rewrite H. cbn. ring.
  - rewrite (sumf_ext _ _ (fun s => c * expect (k s) f)) by (intros; rewrite H; cbn; ring).
    rewrite sumf_scal. cbn. unfold Rdiv. ring.
Qed.

(** ** Rearranging a list by a list of indices *)
Section Arrange.
Context {T : Type} (d : T).
Definition at_ (X : list T) (s : list nat) : list T := map (fun i => nth i X d) s.

Lemma at_length X s : length (at_ X s) = length s. Proof. apply map_length. Qed.
Lemma at_id X : at_ X (seq 0 (length X)) = X.
Proof.
  unfold at_. induction X; [reflexivity|]. cbn [length seq map nth]. f_equal. rewrite <- seq_shift, map_map. exact IHX.
Qed.
Lemma perm_bound s n i : Permutation s (seq 0 n) -> In i s -> (i < n)%nat.
Proof. intros P I. apply (Permutation_in i P) in I. apply in_seq in I. lia. Qed.
Lemma at_perm X s : Permutation s (seq 0 (length X)) -> Permutation (at_ X s) X.
Proof. intros P. apply (Permutation_map (fun i => nth i X d)) in P. fold (at_ X s) in P. fold (at_ X (seq 0 (length X))) in P. now rewrite at_id in P. Qed.
Lemma at_cancel X Y s : length X = length Y -> Permutation s (seq 0 (length X)) -> at_ X s = at_ Y s -> X = Y.
Proof.
  intros L P E. apply nth_ext with (d := d) (d' := d); [auto|]. intros i Hi.
  assert (I : In i s) by (apply (Permutation_in i (Permutation_sym P)), in_seq; lia).
  unfold at_ in E. clear P. induction s; [destruct I|]. cbn in E. injection E as E1 E2. destruct I as [->|I]; auto.
Qed.
End Arrange.
Lemma at_at {T} (d : T) X s t : (forall i, In i t -> (i < length s)%nat) -> at_ d (at_ d X s) t = at_ d X (at_ 0%nat s t).
Proof.
  intros B. unfold at_. rewrite map_map. apply map_ext_in. intros i Hi. rewrite nth_indep with (d' := (fun i => nth i X d) 0%nat) by (rewrite map_length; auto).
  apply (map_nth (fun i => nth i X d)).
Qed.

Lemma inserts_map {A B} (f : A -> B) x l : inserts (f x) (map f l) = map (map f) (inserts x l).
Proof.
  induction l; [reflexivity|]. cbn [map inserts]. rewrite IHl, !map_map. reflexivity.
Qed.
Lemma perms_map {A B} (f : A -> B) l : perms (map f l) = map (map f) (perms l).
Proof.
  induction l; [reflexivity|]. cbn [map perms]. rewrite IHl. generalize (perms l). intros L. induction L; [reflexivity|].
  cbn [map flat_map]. rewrite inserts_map, map_app. now f_equal.
Qed.
Lemma perm_at {T} (d : T) X Y : Permutation Y X -> exists s, Permutation s (seq 0 (length X)) /\ Y = at_ d X s.
Proof.
  intros P. apply perms_complete in P. rewrite <- (at_id d X) in P at 1. unfold at_ in P. rewrite perms_map in P.
  apply in_map_iff in P. destruct P as (s & <- & I). apply perms_Permutation in I. exists s. split; [exact I|reflexivity].
Qed.

Lemma perm_comp n s t : Permutation s (seq 0 n) -> Permutation t (seq 0 n) -> Permutation (at_ 0%nat s t) (seq 0 n).
Proof.
  intros P Q. assert (L : length s = n) by (apply Permutation_length in P; now rewrite seq_length in P).
  apply Permutation_trans with s; [apply at_perm; now rewrite L|auto].
Qed.
Lemma reindex_right n rho (G : list nat -> R) : Permutation rho (seq 0 n) ->
  sumf (perms (seq 0 n)) G = sumf (perms (seq 0 n)) (fun t => G (at_ 0%nat t rho)).
Proof.
  intros P. apply sumf_reindex.
  - apply perms_NoDup, seq_NoDup.
  - intros t I. apply perms_complete. apply perms_Permutation in I. now apply perm_comp.
  - intros t u I J E. apply perms_Permutation in I, J. pose proof (Permutation_length I) as LI. pose proof (Permutation_length J) as LJ.
    rewrite seq_length in *. apply (at_cancel 0%nat _ _ rho); auto; [lia|now rewrite LI].
Qed.
Lemma reindex_left n rho (G : list nat -> R) : Permutation rho (seq 0 n) ->
  sumf (perms (seq 0 n)) G = sumf (perms (seq 0 n)) (fun t => G (at_ 0%nat rho t)).
Proof.
  intros P. apply sumf_reindex.
  - apply perms_NoDup, seq_NoDup.
  - intros t I. apply perms_complete. apply perms_Permutation in I. now apply perm_comp.
  - intros t u I J E. apply perms_Permutation in I, J. pose proof (Permutation_length P) as L. rewrite seq_length in L.
    assert (ND : NoDup rho) by (apply (Permutation_NoDup (Permutation_sym P)), seq_NoDup).
    assert (B : (forall i, In i t -> (i < length rho)%nat) /\ (forall i, In i u -> (i < length rho)%nat)).
    { rewrite L. split; intros i; now apply perm_bound. }
    clear I J. destruct B as (Bt & Bu). revert u E Bu. unfold at_. induction t; intros [|b u] E Bu; try discriminate; [reflexivity|].
    cbn in E. injection E as E1 E2. f_equal.
    + apply (proj1 (NoDup_nth rho 0%nat) ND); auto; [apply Bt|apply Bu]; now left.
    + apply IHt; auto; intros; [apply Bt|apply Bu]; now right.
Qed.

Section Count.
Context {T : Type} (d : T) (eqd : forall x y : T, {x = y} + {x <> y}).
Definition is_ (Z Y : list T) : R := if list_eq_dec eqd Y Z then 1 else 0.

Lemma is_iff Z Y Z' Y' : (Y = Z <-> Y' = Z') -> is_ Z Y = is_ Z' Y'.
Proof. unfold is_. intros H. destruct (list_eq_dec eqd Y Z), (list_eq_dec eqd Y' Z'); tauto. Qed.

(** As many rearrangements take [Y] to [X] as take [X] to [Y]. *)
Lemma shuffle_count n X Y : length X = n -> length Y = n ->
  sumf (perms (seq 0 n)) (fun s => is_ X (at_ d Y s)) = sumf (perms (seq 0 n)) (fun t => is_ (at_ d X t) Y).
Proof.
  intros LX LY. destruct (in_dec (list_eq_dec eqd) X (perms Y)) as [P|NP].
  - apply perms_Permutation in P. destruct (perm_at d Y X P) as (rho & PR & ->). rewrite LY in *.
    pose proof (Permutation_length PR) as LR. rewrite seq_length in LR.
    rewrite (reindex_right n rho) by auto. transitivity (sumf (perms (seq 0 n)) (fun s => is_ Y (at_ d Y s))).
    + apply sumf_ext. intros s I. apply perms_Permutation in I. pose proof (Permutation_length I) as LI. rewrite seq_length in LI.
      rewrite <- at_at by (intros i Hi; rewrite LI; now apply (perm_bound rho)). apply is_iff. split; [|now intros ->].
      intros E. apply (at_cancel d _ _ rho) in E; auto; rewrite at_length, LI; auto.
    + rewrite (reindex_left n rho) by auto. apply sumf_ext. intros t I. apply perms_Permutation in I.
      rewrite <- at_at by (intros i Hi; rewrite LR; now apply (perm_bound t)). apply is_iff. split; intros E; symmetry; exact E.
  - rewrite !sumf_zero; [reflexivity| |]; intros s I; apply perms_Permutation in I; unfold is_; destruct (list_eq_dec _ _ _) as [E|]; auto; exfalso; apply NP, perms_complete.
    + subst Y. apply Permutation_sym, at_perm. now rewrite LX.
    + rewrite <- E. apply at_perm. now rewrite LY.
Qed.

Lemma expect_shuffled n X Y : length X = n ->
  expect (shuffled d n Y) (fun r => match r with Ok Z => is_ X Z | Raise _ => 0 end) =
  sumf (perms (seq 0 n)) (fun t => is_ (at_ d X t) Y) / INR (fact n).
Proof.
  intros LX. unfold shuffled. cbn [expect]. rewrite perms_length, seq_length. destruct (Nat.eqb_spec (length Y) n) as [E|NE].
  - rewrite E. f_equal. cbn [assert_ lift rbind expect]. apply shuffle_count; auto.
  - cbn [assert_ lift rbind expect]. rewrite !sumf_zero; [unfold Rdiv; ring| |auto].
    intros t I. apply perms_Permutation, Permutation_length in I. rewrite seq_length in I. unfold is_. destruct (list_eq_dec _ _ _) as [->|]; auto.
    now rewrite at_length in NE.
Qed.
End Count.

Lemma map_repeat {A B} (f : A -> B) a n : map f (repeat a n) = repeat (f a) n.
Proof. induction n; cbn; congruence. Qed.

(** ** Random splits *)
Definition add_labels (nums l : list nat) : list nat := fold_left (fun nums i => upd nums i (S (nth i nums 0%nat))) l nums.
Definition labels (nums : list nat) : list nat := flat_map (fun k => repeat k (nth k nums 0%nat)) (seq 0 (length nums)).

Lemma upd_length {A} (l : list A) i x : length (upd l i x) = length l.
Proof. revert i. induction l; intros [|i]; cbn; auto. Qed.
Lemma nth_upd {A} (l : list A) i x d j : (i < length l)%nat -> nth j (upd l i x) d = if (j =? i)%nat then x else nth j l d.
Proof. revert i j. induction l; intros [|i] [|j] H; cbn in *; try lia; auto. apply IHl. lia. Qed.

Lemma add_labels_spec l : forall nums, (forall i, In i l -> (i < length nums)%nat) ->
  length (add_labels nums l) = length nums /\ forall k, nth k (add_labels nums l) 0%nat = (nth k nums 0 + count_occ Nat.eq_dec l k)%nat.
Proof.
  induction l as [|i l IH]; intros nums B; [split; [reflexivity|]; intros; cbn; lia|]. cbn [add_labels fold_left].
  destruct (IH (upd nums i (S (nth i nums 0%nat)))) as (L & H); [intros; rewrite upd_length; apply B; now right|].
  rewrite upd_length in L. split; [exact L|]. intros k. fold (add_labels (upd nums i (S (nth i nums 0%nat))) l). rewrite H.
  rewrite nth_upd by (apply B; now left). cbn [count_occ]. destruct (Nat.eq_dec i k), (Nat.eqb_spec k i); subst; try lia; congruence.
Qed.

Lemma labels_perm K l : (forall i, In i l -> (i < K)%nat) -> Permutation (labels (add_labels (repeat 0%nat K) l)) l.
Proof.
  intros B. apply (Permutation_count_occ Nat.eq_dec). intros x.
  destruct (add_labels_spec l (repeat 0%nat K)) as (L & H); [intros; rewrite repeat_length; auto|]. rewrite repeat_length in L.
  unfold labels. rewrite L.
  assert (E : forall a n, count_occ Nat.eq_dec (flat_map (fun k => repeat k (nth k (add_labels (repeat 0%nat K) l) 0%nat)) (seq a n)) x =
    if ((a <=? x) && (x <? a + n))%nat then count_occ Nat.eq_dec l x else 0%nat).
  { intros a n. revert a. induction n; intros a; cbn [seq flat_map].
    - destruct (Nat.leb_spec a x), (Nat.ltb_spec x (a + 0)); cbn; auto; lia.
    - rewrite count_occ_app, IHn, H. assert (Z : nth a (repeat 0%nat K) 0%nat = 0%nat) by apply nth_repeat. rewrite Z, Nat.add_0_l. replace (S a + n)%nat with (a + S n)%nat by lia.
      destruct (Nat.eq_dec x a) as [->|N].
      + rewrite count_occ_repeat_eq by auto. destruct (Nat.leb_spec (S a) a), (Nat.leb_spec a a), (Nat.ltb_spec a (a + S n)); cbn [andb]; lia.
      + rewrite count_occ_repeat_neq by auto. destruct (Nat.leb_spec (S a) x), (Nat.leb_spec a x), (Nat.ltb_spec x (a + S n)); cbn [andb]; lia. }
  rewrite E. destruct (Nat.leb_spec 0 x), (Nat.ltb_spec x (0 + K)); cbn; auto; try lia.
  symmetry. apply count_occ_not_In. intros I. apply B in I. lia.
Qed.

Lemma expect_multinomial K n (f : result (list nat) -> R) : (0 < K)%nat ->
  expect (multinomial n (map (fun _ => 1 / INR K) (seq 0 K))) f =
  sumf (vectors n K) (fun l => f (Ok (add_labels (repeat 0%nat K) l))) / INR K ^ n.
Proof.
  intros HK. unfold multinomial. rewrite map_length, seq_length. assert (PK : 0 < INR K) by (now apply lt_0_INR).
  set (w := map (fun _ => 1 / INR K) (seq 0 K)).
  assert (SW : rsum w = 1). { unfold w, rsum. rewrite sumf_map, sumf_const, seq_length. field. lra. }
  enough (G : forall a nums, expect (rfold (fun nums _ => Cat w (fun i => Ret (upd nums i (S (nth i nums 0%nat))))) (seq a n) nums) f =
    sumf (vectors n K) (fun l => f (Ok (add_labels nums l))) / INR K ^ n) by apply G.
  induction n; intros a nums.
  - cbn [seq rfold expect vectors]. cbn. field.
  - cbn [seq rfold rbind expect]. destruct w as [|x0 w0] eqn:EW; [unfold w in EW; destruct K; [lia|discriminate]|].
    rewrite SW. destruct (Req_EM_T 1 0) as [E|_]; [lra|]. rewrite <- EW.
    assert (LW : length w = K) by (unfold w; now rewrite map_length, seq_length). rewrite EW in LW |- *. rewrite LW, <- EW.
    cbn [vectors]. rewrite sumf_flat_map. unfold Rdiv. rewrite <- sumf_scal_r. apply sumf_ext. intros i Hi. apply in_seq in Hi.
    rewrite EW. rewrite IHn. rewrite <- EW. rewrite sumf_map. cbn [add_labels fold_left].
    replace (nth i w 0) with (1 / INR K).
    2: { unfold w. rewrite nth_indep with (d' := (fun _ => 1 / INR K) 0%nat) by (rewrite map_length, seq_length; lia). now rewrite (map_nth (fun _ => 1 / INR K)). }
    unfold Rdiv. rewrite Rinv_1. cbn [pow]. unfold add_labels. field. split; [apply pow_nonzero|]; lra.
Qed.

(** ** The law of a shuffled mixture *)
Section Mixture.
Context {Sr T : Type} (d : T) (eqd : forall x y : T, {x = y} + {x <> y}).
Variables (pr : Sr -> nat -> rprog (list T)) (legal : T -> Prop).
Hypothesis shape : forall s n (f g : result (list T) -> R), (forall e, f (Raise e) = g (Raise e)) ->
  (forall l, length l = n -> f (Ok l) = g (Ok l)) -> expect (pr s n) f = expect (pr s n) g.
Definition hits (Z : list T) (r : result (list T)) : R := match r with Ok Y => is_ eqd Z Y | Raise _ => 0 end.
Definition follows (s : Sr) (q : T -> R) : Prop :=
  forall X, (forall x, In x X -> legal x) -> expect (pr s (length X)) (hits X) = prodf X q.

Lemma parts_law : forall ms qs nums Z, Forall2 follows ms qs -> length nums = length ms -> length Z = list_sum nums -> (forall z, In z Z -> legal z) ->
  expect (rmap (fun '(s, n) => pr s n) (combine ms nums)) (fun r => match r with Ok parts => is_ eqd Z (concat parts) | Raise _ => 0 end) =
  prodf (combine (flat_map (fun '(q, n) => repeat q n) (combine qs nums)) Z) (fun '(q, z) => q z).
Proof.
  intros ms qs nums Z FF. revert nums Z. induction FF as [|s q ms qs F FF IH]; intros [|n nums] Z LN LZ LG; try discriminate.
  - destruct Z; [|discriminate]. cbn [combine rmap expect concat flat_map]. unfold is_. destruct (list_eq_dec eqd [] []); [reflexivity|congruence].
  - cbn [combine rmap flat_map]. rewrite expect_bind. cbn [list_sum fold_right] in LZ. fold (list_sum nums) in LZ.
    assert (L1 : length (firstn n Z) = n) by (rewrite firstn_length; lia).
    assert (EC : forall (l : list (T -> R)) m (A B : list T), length A = m -> combine (repeat q m ++ l) (A ++ B) = (combine (repeat q m) A ++ combine l B)%list).
    { intros l m. induction m; intros [|a A] B E; try discriminate; [reflexivity|]. cbn. f_equal. apply IHm. now injection E. }
    replace (combine (repeat q n ++ flat_map (fun '(q, n) => repeat q n) (combine qs nums)) Z)
      with (combine (repeat q n ++ flat_map (fun '(q, n) => repeat q n) (combine qs nums)) (firstn n Z ++ skipn n Z)) by (now rewrite firstn_skipn).
    rewrite EC, prodf_app by auto.
    assert (E1 : forall m A, length A = m -> prodf (combine (repeat q m) A) (fun '(q, z) => q z) = prodf A q).
    { intros m. induction m; intros [|a A] E; try discriminate; [reflexivity|]. cbn [repeat combine]. rewrite !prodf_cons. f_equal. apply IHm. now injection E. }
    rewrite E1 by auto. clear E1 EC.
    assert (FA : forall z, In z (firstn n Z) -> legal z) by (intros; apply LG; rewrite <- (firstn_skipn n Z); apply in_or_app; auto).
    rewrite <- (F (firstn n Z)) by auto. rewrite L1.
    rewrite <- (IH nums (skipn n Z)); [|cbn in LN; lia|rewrite skipn_length; lia|intros; apply LG; rewrite <- (firstn_skipn n Z); apply in_or_app; auto].
    rewrite Rmult_comm, <- expect_scal. apply shape; [cbn; intros; ring|]. intros A LA. rewrite expect_bind. cbn [hits].
    rewrite Rmult_comm, <- expect_scal. apply expect_ext. intros [parts|e]; [|ring]. cbn [expect concat].
    unfold is_. destruct (list_eq_dec eqd (A ++ concat parts) Z) as [E|NE].
    + assert (EA : A = firstn n Z) by (rewrite <- E, <- LA, firstn_app, firstn_all, Nat.sub_diag, firstn_O, app_nil_r; reflexivity).
      assert (EB : concat parts = skipn n Z) by (rewrite <- E, <- LA, skipn_app, skipn_all, Nat.sub_diag; reflexivity).
      destruct (list_eq_dec eqd A (firstn n Z)), (list_eq_dec eqd (concat parts) (skipn n Z)); try contradiction. ring.
    + destruct (list_eq_dec eqd A (firstn n Z)) as [EA|]; [|ring]. destruct (list_eq_dec eqd (concat parts) (skipn n Z)) as [EB|]; [|ring].
      exfalso. apply NE. rewrite EA, EB. apply firstn_skipn.
Qed.

(** The product of the probabilities of [Z] under the members named by [l]. *)
Definition named (qs : list (T -> R)) (l : list nat) (Z : list T) : R :=
  prodf (combine l Z) (fun '(k, z) => nth k qs (fun _ => 0) z).

Lemma named_labels qs nums Z : length nums = length qs ->
  prodf (combine (flat_map (fun '(q, n) => repeat q n) (combine qs nums)) Z) (fun '(q, z) => q z) = named qs (labels nums) Z.
Proof.
  intros L. unfold named, labels.
  assert (E : flat_map (fun '(q, n) => repeat q n) (combine qs nums) =
    map (fun k => nth k qs (fun _ => 0)) (flat_map (fun k => repeat k (nth k nums 0%nat)) (seq 0 (length nums)))).
  { revert qs L. induction nums as [|n nums IH]; intros [|q qs] L; try discriminate; [reflexivity|]. cbn [combine flat_map length seq].
    rewrite map_app. f_equal; [rewrite map_repeat; reflexivity|]. rewrite IH by (cbn in L; lia). rewrite <- seq_shift.
    rewrite !flat_map_concat_map, !concat_map, !map_map. f_equal. apply map_ext. intros k. cbn [nth]. now rewrite !map_repeat. }
  rewrite E. generalize (flat_map (fun k => repeat k (nth k nums 0%nat)) (seq 0 (length nums))). intros l. revert Z.
  induction l as [|k l IH]; intros [|z Z]; try reflexivity. cbn [map combine]. rewrite !prodf_cons. now rewrite IH.
Qed.

Lemma combine_at (l : list nat) (Z : list T) rho : length l = length Z ->
  combine (at_ 0%nat l rho) (at_ d Z rho) = at_ (0%nat, d) (combine l Z) rho.
Proof. intros L. unfold at_. induction rho; [reflexivity|]. cbn [map combine]. rewrite IHrho. now rewrite combine_nth. Qed.

Lemma named_perm qs l Z rho : length l = length Z -> Permutation rho (seq 0 (length Z)) ->
  named qs (at_ 0%nat l rho) (at_ d Z rho) = named qs l Z.
Proof. intros L P. unfold named. rewrite combine_at by auto. apply prodf_perm, at_perm. now rewrite combine_length, L, Nat.min_id. Qed.

Lemma named_total qs Z : sumf (vectors (length Z) (length qs)) (fun l => named qs l Z) = prodf Z (fun z => sumf qs (fun q => q z)).
Proof.
  induction Z as [|z Z IH]; [cbn; unfold named; cbn; ring|]. cbn [length vectors]. rewrite sumf_flat_map, prodf_cons.
  rewrite (sumf_ext _ _ (fun k => nth k qs (fun _ => 0) z * prodf Z (fun z => sumf qs (fun q => q z)))).
  - rewrite sumf_scal_r. f_equal. clear. 
    transitivity (sumf (seq 0 (length qs)) (fun k => nth k (map (fun q => q z) qs) 0)).
    + apply sumf_ext. intros k Hk. apply in_seq in Hk. exact (eq_sym (map_nth (fun q : T -> R => q z) qs (fun _ => 0) k)).
    + rewrite <- (map_length (fun q => q z) qs), sumf_seq_nth. unfold rsum. now rewrite sumf_map.
  - intros k _. rewrite sumf_map. rewrite <- IH, <- sumf_scal. apply sumf_ext. intros l _. unfold named. cbn [combine]. now rewrite prodf_cons.
Qed.

Lemma mixture_law ms qs X : ms <> [] -> Forall2 follows ms qs -> (forall x, In x X -> legal x) ->
  expect (rbind (multinomial (length X) (map (fun _ => 1 / INR (length ms)) (seq 0 (length ms)))) (fun nums =>
    rbind (rmap (fun '(s, n) => pr s n) (combine ms nums)) (fun parts => shuffled d (length X) (concat parts)))) (hits X) =
  prodf X (fun x => sumf qs (fun q => q x) / INR (length ms)).
Proof.
  intros NE FF LG. set (n := length X). set (K := length ms).
  assert (HK : (0 < K)%nat) by (unfold K; destruct ms; [congruence|cbn; lia]). assert (PK : 0 < INR K) by (now apply lt_0_INR).
  assert (LQ : length qs = K) by (unfold K; clear - FF; induction FF; cbn; congruence).
  rewrite expect_bind, expect_multinomial by auto.
  rewrite (sumf_ext _ _ (fun l => sumf (perms (seq 0 n)) (fun t => named qs l (at_ d X t)) / INR (fact n))).
  - unfold Rdiv. rewrite sumf_scal_r, sumf_swap.
    rewrite (sumf_ext _ _ (fun _ => prodf X (fun z => sumf qs (fun q => q z)))).
    + rewrite sumf_const, perms_length, seq_length.
      rewrite prodf_mult. assert (E : prodf X (fun _ => / INR K) = / INR K ^ n).
      { unfold n. clear. induction X; [cbn; now rewrite Rinv_1|]. rewrite prodf_cons, IHX. cbn [length pow]. now rewrite Rinv_mult. }
      rewrite E. field. split; [apply pow_nonzero; lra|apply INR_fact_neq_0].
    + intros t I. apply perms_Permutation in I. rewrite <- (prodf_perm _ _ (fun z => sumf qs (fun q => q z)) (at_perm d X t I)).
      rewrite <- named_total. rewrite at_length. pose proof (Permutation_length I) as LT. rewrite seq_length in LT. now rewrite LT, LQ.
  - intros l Il. apply in_vectors in Il. destruct Il as (Ll & Bl). destruct (add_labels_spec l (repeat 0%nat K)) as (LA & _); [intros; rewrite repeat_length; auto|].
    rewrite repeat_length in LA. pose proof (labels_perm K l Bl) as PL. set (nums := add_labels (repeat 0%nat K) l) in *.
    assert (SN : list_sum nums = n).
    { apply Permutation_length in PL. rewrite Ll in PL. rewrite <- PL. unfold labels. clear. 
      assert (E : forall a, length (flat_map (fun k => repeat k (nth (k - a) nums 0%nat)) (seq a (length nums))) = list_sum nums).
      { induction nums as [|c nums IH]; intros a; [reflexivity|]. cbn [length seq flat_map list_sum fold_right]. rewrite app_length, repeat_length, Nat.sub_diag.
        fold (list_sum nums). rewrite <- (IH (S a)). cbn [nth]. f_equal. rewrite !flat_map_concat_map. do 2 f_equal. apply map_ext_in. intros k Hk. apply in_seq in Hk.
        f_equal. replace (k - a)%nat with (S (k - S a)) by lia. reflexivity. }
      rewrite <- (E 0%nat). rewrite !flat_map_concat_map. do 2 f_equal. apply map_ext. intros k. now rewrite Nat.sub_0_r. }
    rewrite expect_bind.
    rewrite (expect_ext _ _ _ (fun r => / INR (fact n) * sumf (perms (seq 0 n)) (fun t => match r with Ok parts => is_ eqd (at_ d X t) (concat parts) | Raise _ => 0 end))).
    + rewrite expect_scal, expect_sum. unfold Rdiv. rewrite Rmult_comm. f_equal.
      rewrite (sumf_ext _ _ (fun t => named qs (labels nums) (at_ d X t))).
      * destruct (perm_at 0%nat l (labels nums) PL) as (rho & PR & ER). rewrite Ll in PR. rewrite ER. rewrite (reindex_right n rho) by auto.
        apply sumf_ext. intros t I. apply perms_Permutation in I. pose proof (Permutation_length I) as LT. rewrite seq_length in LT.
        rewrite <- at_at by (intros i Hi; rewrite LT; now apply (perm_bound rho)). apply named_perm; rewrite at_length, LT; auto.
      * intros t I. apply perms_Permutation in I. pose proof (Permutation_length I) as LT. rewrite seq_length in LT.
        rewrite (parts_law ms qs nums (at_ d X t) FF).
        -- apply named_labels. now rewrite LA.
        -- exact LA.
        -- now rewrite at_length, LT.
        -- intros z Hz. apply LG. now apply (Permutation_in z (at_perm d X t I)).
    + intros [parts|e].
      * unfold hits. rewrite (expect_shuffled d eqd n X (concat parts)) by reflexivity. unfold Rdiv. ring.
      * rewrite sumf_zero by auto. cbn. ring.
Qed.
End Mixture.
