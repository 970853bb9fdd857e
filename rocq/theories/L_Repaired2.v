(** The law of the repaired ensemble samples. *)
From Coq Require Import List Arith Lia Bool ZArith Reals Lra Permutation.
From Verif Require Import Base L_Base Spec_Graph L_Graph Spec_Sum L_Sum M_Structure M_Rand L_Rand M_Util Spec_Ragged L_Ragged M_Array M_SampleTree M_EstimateTree Spec_Trees Spec_MST L_Pairing L_Estimate L_AllTrees M_Training Spec_Stats L_Stats Spec_Joint Spec_Conditional L_Asg M_Serving Spec_Serving Spec_Summary L_Server L_Serve1 L_Serve2 L_Serve3 L_Summary L_Observed M_EnsembleServer L_Shuffle L_EnsServe L_EnsServe2 M_Repaired.
Import ListNotations.
Open Scope R_scope.

Definition weigh (w : list R) (l : list nat) : R := prodf l (fun k => nth k w 0).

Lemma expect_multinomial_w w n (f : result (list nat) -> R) : w <> [] -> rsum w = 1 ->
  expect (multinomial n w) f = sumf (vectors n (length w)) (fun l => weigh w l * f (Ok (add_labels (repeat 0%nat (length w)) l))).
Proof.
  intros NE SW. unfold multinomial. set (K := length w).
  enough (G : forall a nums, expect (rfold (fun nums _ => Cat w (fun i => Ret (upd nums i (S (nth i nums 0%nat))))) (seq a n) nums) f =
    sumf (vectors n K) (fun l => weigh w l * f (Ok (add_labels nums l)))) by apply G.
  induction n; intros a nums.
  - cbn [seq rfold expect vectors]. unfold weigh. cbn. ring.
  - cbn [seq rfold rbind expect]. destruct w as [|x0 w0] eqn:EW; [congruence|]. rewrite SW. destruct (Req_EM_T 1 0) as [E|_]; [lra|].
    cbn [vectors]. rewrite sumf_flat_map. apply sumf_ext. intros i Hi. rewrite IHn.
    rewrite sumf_map, <- sumf_scal. apply sumf_ext. intros l _. unfold weigh. rewrite prodf_cons. cbn [add_labels fold_left].
    unfold add_labels, Rdiv. rewrite Rinv_1. ring.
Qed.

Section Mix.
Context {Sr T : Type} (d : T) (eqd : forall x y : T, {x = y} + {x <> y}).
Variables (pr : Sr -> nat -> rprog (list T)) (legal : T -> Prop).
Hypothesis shape : forall s n (f g : result (list T) -> R), (forall e, f (Raise e) = g (Raise e)) ->
  (forall l, length l = n -> f (Ok l) = g (Ok l)) -> expect (pr s n) f = expect (pr s n) g.
Notation follows := (follows eqd pr legal).
Notation hits := (hits eqd).

Lemma weigh_named w (qs : list (T -> R)) l (Z : list T) : length w = length qs -> length l = length Z -> (forall i, In i l -> (i < length qs)%nat) ->
  weigh w l * named qs l Z = named (map (fun '(a, q) z => a * q z) (combine w qs)) l Z.
Proof.
  intros LW. revert Z. induction l as [|k l IH]; intros [|z Z] LZ B; try discriminate; [unfold weigh, named; cbn; ring|].
  unfold weigh, named in *. cbn [combine]. rewrite !prodf_cons. rewrite <- IH by (auto; intros; apply B; now right).
  assert (Hk : (k < length qs)%nat) by (apply B; now left).
  rewrite (nth_map_lt _ _ _ _ (0, fun _ => 0)) by (rewrite combine_length; lia). rewrite combine_nth by auto. ring.
Qed.

Lemma mixture_law_w ms qs w X : ms <> [] -> length w = length ms -> rsum w = 1 -> Forall2 follows ms qs -> (forall x, In x X -> legal x) ->
  expect (rbind (multinomial (length X) w) (fun nums =>
    rbind (rmap (fun '(s, n) => pr s n) (combine ms nums)) (fun parts => shuffled d (length X) (concat parts)))) (hits X) =
  prodf X (fun x => sumf (combine w qs) (fun '(a, q) => a * q x)).
Proof.
  intros NE LW SW FF LG. set (n := length X). set (K := length w).
  assert (WNE : w <> []) by (intros ->; destruct ms; [congruence|discriminate]).
  assert (LQ : length qs = K) by (unfold K; rewrite LW; clear - FF; induction FF; cbn; congruence).
  rewrite expect_bind, expect_multinomial_w by auto. fold K.
  set (wqs := map (fun '(a, q) z => a * q z) (combine w qs)).
  assert (LWQ : length wqs = K) by (unfold wqs; rewrite map_length, combine_length; lia).
  rewrite (sumf_ext _ _ (fun l => sumf (perms (seq 0 n)) (fun t => named wqs l (at_ d X t)) / INR (fact n))).
  - unfold Rdiv. rewrite sumf_scal_r, sumf_swap.
    rewrite (sumf_ext _ _ (fun _ => prodf X (fun z => sumf wqs (fun q => q z)))).
    + rewrite sumf_const, perms_length, seq_length. unfold wqs.
      rewrite (prodf_ext X _ (fun x => sumf (combine w qs) (fun '(a, q) => a * q x))).
      * field. apply INR_fact_neq_0.
      * intros x _. rewrite sumf_map. apply sumf_ext. intros [a q] _. reflexivity.
    + intros t I. apply perms_Permutation in I. rewrite <- (prodf_perm _ _ (fun z => sumf wqs (fun q => q z)) (at_perm d X t I)).
      rewrite <- named_total. rewrite at_length. pose proof (Permutation_length I) as LT. rewrite seq_length in LT. now rewrite LT, LWQ.
  - intros l Il. apply in_vectors in Il. destruct Il as (Ll & Bl). destruct (add_labels_spec l (repeat 0%nat K)) as (LA & _); [intros; rewrite repeat_length; auto|].
    rewrite repeat_length in LA. pose proof (labels_perm K l Bl) as PL. set (nums := add_labels (repeat 0%nat K) l) in *.
    assert (SN : list_sum nums = n).
    { apply Permutation_length in PL. rewrite Ll in PL. rewrite <- PL. unfold labels. clear. 
      assert (E : forall a, length (flat_map (fun k => repeat k (nth (k - a) nums 0%nat)) (seq a (length nums))) = list_sum nums).
      { induction nums as [|c nums IH]; intros a; [reflexivity|]. cbn [length seq flat_map list_sum fold_right]. rewrite app_length, repeat_length, Nat.sub_diag.
        fold (list_sum nums). rewrite <- (IH (S a)). cbn [nth]. f_equal. rewrite !flat_map_concat_map. do 2 f_equal. apply map_ext_in. intros k Hk. apply in_seq in Hk.
        f_equal. replace (k - a)%nat with (S (k - S a)) by lia. reflexivity. }
      rewrite <- (E 0%nat). rewrite !flat_map_concat_map. do 2 f_equal. apply map_ext. intros k. now rewrite Nat.sub_0_r. }
    rewrite expect_bind.
    rewrite (expect_ext _ _ _ (fun r => / INR (fact n) * sumf (perms (seq 0 n)) (fun t => match r with Ok parts => is_ eqd (at_ d X t) (concat parts) | Raise _ => 0 end))).
    + rewrite expect_scal, expect_sum. unfold Rdiv. rewrite (Rmult_comm (sumf _ _)), <- Rmult_assoc, (Rmult_comm (weigh w l)), Rmult_assoc. f_equal.
      rewrite (sumf_ext _ _ (fun t => named qs (labels nums) (at_ d X t))).
      * destruct (perm_at 0%nat l (labels nums) PL) as (rho & PR & ER). rewrite Ll in PR. rewrite ER. rewrite (reindex_right n rho) by auto.
        rewrite <- sumf_scal. apply sumf_ext. intros t I. apply perms_Permutation in I. pose proof (Permutation_length I) as LT. rewrite seq_length in LT.
        rewrite <- at_at by (intros i Hi; rewrite LT; now apply (perm_bound rho)). rewrite named_perm by (rewrite at_length, LT; auto).
        apply weigh_named; [lia|rewrite at_length, LT; auto|]. intros i Hi. rewrite LQ. now apply Bl.
      * intros t I. apply perms_Permutation in I. pose proof (Permutation_length I) as LT. rewrite seq_length in LT.
        rewrite (parts_law eqd pr legal shape ms qs nums (at_ d X t) FF).
        -- apply named_labels. now rewrite LA.
        -- rewrite LA. exact LW.
        -- now rewrite at_length, LT.
        -- intros z Hz. apply LG. now apply (Permutation_in z (at_perm d X t I)).
    + intros [parts|e].
      * unfold L_Shuffle.hits. rewrite (expect_shuffled d eqd n X (concat parts)) by reflexivity. unfold Rdiv. ring.
      * rewrite sumf_zero by auto. cbn. ring.
Qed.
End Mix.

Lemma combine_map_l {A B C} (f : A -> B) (g : A -> C) l : combine (map f l) (map g l) = map (fun a => (f a, g a)) l.
Proof. induction l; cbn; congruence. Qed.

Lemma C36_repaired : forall ws V M N mst ms es counts data X, ms <> [] -> (forall m, In m ms -> consistent ws V M N m) ->
  mst_contract mst -> ensemble_server mst ms = Ok es ->
  length counts = V -> (forall v, (v < V)%nat -> (0 <= nth v counts 0 <= 127)%Z) ->
  (forall v, (v < V)%nat -> (0 < nth v counts 0)%Z -> (1 <= nth v ws 0)%nat) ->
  length data = list_sum ws -> (forall x, In x X -> legal_row ws counts x) ->
  exists le lps, ens_logprob es [data] = Ok [le] /\ ens_logprob es (map (merge data) X) = Ok lps /\
    prob_of (repaired_ens_sample es (length X) counts data) X = prodf (combine X lps) (fun '(x, l) => arrangements ws counts x * exp (l - le)).
Proof.
  intros ws V M N mst ms es counts data X NE C MC E CL CB CW LD LR. assert (O : ens_ok ws V M N ms) by (split; auto).
  destruct (members_nonempty ws V M N mst ms es O MC E) as (NEm & LM).
  pose proof (members_of ws V M N mst ms es O MC E) as F.
  assert (LMg : forall x, In x X -> length (merge data x) = list_sum ws).
  { intros x Hx. unfold merge. rewrite map_length, combine_length, LD, (proj1 (LR x Hx)). apply Nat.min_id. }
  destruct (C35_value ws V M N mst ms es [data] O MC E) as (_ & E1 & P1); [intros row [<-|[]]; auto|].
  destruct (C35_value ws V M N mst ms es (map (merge data) X) O MC E) as (_ & E2 & P2).
  { intros row I. apply in_map_iff in I. destruct I as (x & <- & I). auto. }
  assert (PD : forall m, In m ms -> 0 < row_prob ws m data) by (intros m Hm; apply P1; auto; now left).
  assert (PS : 0 < sumf ms (fun m => row_prob ws m data)).
  { apply sumf_pos; [intros; left; auto|]. destruct ms as [|m ms']; [congruence|]. exists m. split; [now left|apply PD; now left]. }
  do 2 eexists. split; [exact E1|]. split; [exact E2|].
  set (q := fun m x => arrangements ws counts x * (row_prob ws m (merge data x) / row_prob ws m data)).
  assert (FF : Forall2 (follows (list_eq_dec Z.eq_dec) (fun s n => sample s n counts (Some data)) (legal_row ws counts)) (es_members es) (map q ms)).
  { clear E E1 E2 P1 P2 PD PS NEm LM O NE. induction F as [|m s ms members Es F IH]; [constructor|]. cbn [map]. constructor.
    - intros Y LY. assert (DL : forall d, Some data = Some d -> length d = list_sum ws) by (intros d K; now injection K as <-). transitivity (prob_of (sample s (length Y) counts (Some data)) Y);
        [|exact (law ws V M N m mst s (length Y) counts (Some data) Y (C m (or_introl eq_refl)) MC Es CL CB CW DL eq_refl LY)].
      unfold prob_of, prob. apply expect_ext. intros [a|e]; [|reflexivity]. unfold hits, is_. destruct (list_eq_dec _ _ _); reflexivity.
    - apply IH. intros; apply C; now right. }
  assert (EL : mapM (fun s => lp <- logprob s [data] ;; get IndexError lp 0) (es_members es) = Ok (map (fun m => ln (row_prob ws m data)) ms)).
  { apply mapM_Forall2. clear E E1 E2 P1 P2 PD PS NEm LM O NE FF. induction F as [|m s ms members Es F IH]; [constructor|]. cbn [map]. constructor.
    - destruct (C26_data ws V M N m mst s [data] (C m (or_introl eq_refl)) MC Es) as (EQ & _); [intros row [<-|[]]; auto|]. rewrite EQ. reflexivity.
    - apply IH. intros; apply C; now right. }
  set (tot := sumf ms (fun m => row_prob ws m data)) in *.
  assert (LSE : logsumexp (map (fun m => ln (row_prob ws m data)) ms) = ln tot).
  { rewrite logsumexp_eq by (destruct ms; [congruence|discriminate]). f_equal. rewrite sumf_map. apply sumf_ext. intros m Hm. now apply exp_ln, PD. }
  assert (EW : map (fun lp => exp (lp - logsumexp (map (fun m => ln (row_prob ws m data)) ms))) (map (fun m => ln (row_prob ws m data)) ms) =
    map (fun m => row_prob ws m data / tot) ms).
  { rewrite LSE, map_map. apply map_ext_in. intros m Hm. apply exp_ratio; auto. }
  unfold prob_of, prob, repaired_ens_sample. rewrite EL. cbn [lift rbind]. rewrite EW.
  rewrite (expect_ext _ _ _ (hits (list_eq_dec Z.eq_dec) X)).
  2: { intros [a|e]; [|reflexivity]. unfold hits, is_. destruct (list_eq_dec _ _ _); reflexivity. }
  rewrite (mixture_law_w [] (list_eq_dec Z.eq_dec) (fun s n => sample s n counts (Some data)) (legal_row ws counts)
    (fun s n f g => sample_shape s n counts (Some data) f g) (es_members es) (map q ms) (map (fun m => row_prob ws m data / tot) ms) X NEm).
  - rewrite combine_map_l. rewrite map_map, (prodf_combine (fun x => ln (sumf ms (fun m => row_prob ws m (merge data x)) / INR (length ms))) (fun x l => arrangements ws counts x *
      exp (l - ln (tot / INR (length ms))))).
    apply prodf_ext. intros x Hx. rewrite exp_ratio.
    + rewrite sumf_map. pose proof (size_pos ms NE) as SP.
      transitivity (arrangements ws counts x * (sumf ms (fun m => row_prob ws m (merge data x)) / tot)); [|f_equal; field; split; lra].
      unfold Rdiv. rewrite <- sumf_scal_r, <- sumf_scal. apply sumf_ext. intros m Hm. unfold q. specialize (PD m Hm). field. split; lra.
    + apply mean_exp; auto. intros m Hm. apply P2; auto. now apply in_map.
    + apply mean_exp; auto.
  - rewrite map_length. now rewrite LM.
  - unfold rsum. rewrite sumf_map. unfold Rdiv. rewrite sumf_scal_r. fold tot. field. lra.
  - exact FF.
  - exact LR.
Qed.
