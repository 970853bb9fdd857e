(** plot_circular: what the figure shows. *)
From Coq Require Import String.
From Coq Require Import List Arith Lia Bool Reals Lra Permutation.
From Verif Require Import Base Spec_Graph Spec_Trees M_Structure M_Plot Spec_Plot L_Base L_Graph L_MakeTree L_Order L_Plot1 L_Plot2.
Import ListNotations.
Open Scope list_scope.
Open Scope R_scope.

(** ** Counters *)
Definition edge_eqb (e f : nat * nat) : bool := ((fst e =? fst f) && (snd e =? snd f))%nat.
Lemma edge_eqb_spec e f : reflect (e = f) (edge_eqb e f).
Proof.
  unfold edge_eqb. destruct e as [a b], f as [c d]. cbn [fst snd]. destruct (Nat.eqb_spec a c), (Nat.eqb_spec b d); cbn; constructor; congruence.
Qed.
Definition occ (e : nat * nat) (l : list (nat * nat)) : nat := length (filter (edge_eqb e) l).
Definition cnt (c : list ((nat * nat) * nat)) (e : nat * nat) : nat := match find (fun kn => edge_eqb e (fst kn)) c with Some kn => snd kn | None => 0%nat end.

Lemma cnt_add c k e : cnt (counter_add c k) e = (cnt c e + if edge_eqb e k then 1 else 0)%nat.
Proof.
  induction c as [|[k' n] c IH]; unfold cnt in *; cbn [counter_add].
  - cbn [find fst snd]. destruct (edge_eqb e k); reflexivity.
  - fold (edge_eqb k k'). destruct (edge_eqb_spec k k') as [->|N]; cbn [find fst snd].
    + destruct (edge_eqb_spec e k'); cbn [snd]; [lia|]. fold (cnt c e). lia.
    + destruct (edge_eqb_spec e k') as [->|N']; [|exact IH]. cbn [snd]. destruct (edge_eqb_spec k' k); [congruence|lia].
Qed.
Lemma keys_add c k : forall e, In e (map fst (counter_add c k)) <-> e = k \/ In e (map fst c).
Proof.
  induction c as [|[k' n] c IH]; intros e; cbn [counter_add].
  - cbn. intuition.
  - fold (edge_eqb k k'). destruct (edge_eqb_spec k k') as [->|N]; cbn [map fst In]; [intuition|]. rewrite IH. intuition.
Qed.
Lemma keys_add_NoDup c k : NoDup (map fst c) -> NoDup (map fst (counter_add c k)).
Proof.
  induction c as [|[k' n] c IH]; intros H; cbn [counter_add].
  - repeat constructor. auto.
  - inversion H; subst. fold (edge_eqb k k'). destruct (edge_eqb_spec k k') as [->|N]; cbn [map fst]; [now constructor|].
    constructor; [|auto]. rewrite keys_add. intros [E|I]; [congruence|tauto].
Qed.

Definition counted (l : list (nat * nat)) (c : list ((nat * nat) * nat)) : Prop :=
  NoDup (map fst c) /\ (forall e, In e (map fst c) <-> In e l) /\ forall e, cnt c e = occ e l.
Lemma occ_app e l m : occ e (l ++ m) = (occ e l + occ e m)%nat.
Proof. unfold occ. now rewrite filter_app, app_length. Qed.
Lemma counted_step l c k : counted l c -> counted (l ++ [k]) (counter_add c k).
Proof.
  intros (N & K & O). split; [now apply keys_add_NoDup|]. split.
  - intros e. rewrite keys_add, K, in_app_iff. cbn. intuition.
  - intros e. rewrite cnt_add, O, occ_app. unfold occ at 3. cbn [filter]. destruct (edge_eqb e k); reflexivity.
Qed.
Lemma counted_sample sample : forall l c, counted l c -> counted (l ++ sample) (fold_left counter_add sample c).
Proof.
  induction sample as [|k s IH]; intros l c H; cbn [fold_left]; [now rewrite app_nil_r|].
  replace (l ++ k :: s) with ((l ++ [k]) ++ s) by now rewrite <- app_assoc. apply IH. now apply counted_step.
Qed.
Lemma counted_all samples : forall l c, counted l c -> counted (l ++ concat samples) (fold_left (fun c s => fold_left counter_add s c) samples c).
Proof.
  induction samples as [|s ss IH]; intros l c H; cbn [fold_left concat]; [now rewrite app_nil_r|].
  rewrite app_assoc. apply IH. now apply counted_sample.
Qed.
Lemma cnt_in c : NoDup (map fst c) -> forall e n, In (e, n) c -> cnt c e = n.
Proof.
  unfold cnt. induction c as [|[k n] c IH]; intros H e m I; [destruct I|]. inversion H; subst. cbn [find fst snd].
  destruct I as [E|I].
  - injection E as -> ->. destruct (edge_eqb_spec e e); [reflexivity|congruence].
  - destruct (edge_eqb_spec e k) as [->|]; [|auto]. exfalso. apply H2. apply in_map_iff. now exists (k, m).
Qed.

Lemma occ_samples e samples : (forall s, In s samples -> NoDup s) -> occ e (concat samples) = length (filter (has_edge e) samples).
Proof.
  induction samples as [|s ss IH]; intros H; [reflexivity|]. cbn [concat filter]. rewrite occ_app, IH by (intros; apply H; now right).
  assert (E : occ e s = if has_edge e s then 1%nat else 0%nat).
  { specialize (H s (or_introl eq_refl)). clear - H. change (has_edge e s) with (existsb (edge_eqb e) s). unfold occ. induction s as [|f s IHs]; [reflexivity|]. inversion H; subst. cbn [filter existsb].
    destruct (edge_eqb_spec e f) as [->|N]; cbn [orb length]; [|auto].
    rewrite IHs by auto. destruct (existsb _ s) eqn:X; [|reflexivity]. apply existsb_exists in X as (g & I & G). destruct (edge_eqb_spec f g); congruence. }
  rewrite E. destruct (has_edge e s); cbn [length]; lia.
Qed.

(** ** The figure without samples *)
Lemma map_nth_seq' {A B} (f : A -> B) (l : list A) d : map f l = map (fun i => f (nth i l d)) (seq 0 (length l)).
Proof.
  induction l as [|a l IH]; [reflexivity|]. cbn [length seq map nth]. f_equal. rewrite <- seq_shift, map_map. exact IH.
Qed.

Lemma edge_ends V tree : spanning_tree V tree -> forall a b, In (a, b) tree -> (a < V)%nat /\ (b < V)%nat /\ a <> b.
Proof.
  intros T a b I. destruct (proj1 (proj2 T) a b I) as (Ha & Hb). split; [auto|]. split; [auto|]. intros <-.
  destruct (tree_rooted V tree a T Ha) as (par & dep & RT). destruct (rt_edge _ _ _ _ _ RT a a I) as [(N & _)|(N & _)]; congruence.
Qed.

Lemma map_fst_combine {A B} : forall (l : list A) (m : list B), length l = length m -> map fst (combine l m) = l.
Proof. induction l as [|a l IH]; intros [|b m] H; try discriminate; [reflexivity|]. cbn. f_equal. auto. Qed.

Lemma label_ok V angle p name alpha : labels V p (plot_label V angle p name alpha) /\
  tx_name (plot_label V angle p name alpha) = name /\ tx_alpha (plot_label V angle p name alpha) = alpha.
Proof.
  unfold plot_label, labels. destruct p as [x y]. cbn [fst snd].
  destruct (Rlt_dec 0 x) as [X|X], (Rlt_dec 0 y) as [Y|Y]; cbn [tx_ha tx_va tx_at tx_name tx_alpha fst snd]; (split; [|auto]);
    repeat split; intros; try reflexivity; try (exfalso; lra); lra.
Qed.

Lemma label_radial V i p name alpha : (0 < V)%nat -> radial (on_circle V i) (plot_label V (slot_angle V i) p name alpha).
Proof.
  intros HV. rewrite <- slot_on_circle by auto. pose proof PI_RGT_0 as HP. unfold radial, plot_label. destruct p as [x y].
  destruct (Rlt_dec 0 x); [left|right]; (destruct (Rlt_dec 0 y); cbn [tx_ha tx_rotation fst snd]; (split; [reflexivity|])).
  - f_equal; f_equal; field; lra.
  - f_equal; f_equal; field; lra.
  - replace ((slot_angle V i * 360 / (2 * PI) - 180) * PI / 180) with (slot_angle V i - PI) by (field; lra).
    rewrite cos_minus, sin_minus, cos_PI, sin_PI. f_equal; ring.
  - replace ((slot_angle V i * 360 / (2 * PI) - 180) * PI / 180) with (slot_angle V i - PI) by (field; lra).
    rewrite cos_minus, sin_minus, cos_PI, sin_PI. f_equal; ring.
Qed.

Lemma chord_bends V p q alpha : bends V (plot_chord p q (1 / INR V) alpha).
Proof.
  unfold bends. cbn [plot_chord cv_begin cv_end cv_c1 cv_c2]. unfold pscale. replace (norm2 (psub p q)) with (apart p q) by reflexivity.
  split; f_equal; f_equal; ring.
Qed.

Section Base.
Variables (V : nat) (tree : list edge) (iter : nat -> list nat -> list nat) (contract : R).
Variables (names : list string) (dens obs lat : list R).
Hypothesis T : spanning_tree V tree.
Hypothesis IT : forall v s, NoDup s -> Permutation (iter v s) s.
Hypothesis LN : length names = V.
Hypothesis LD : length dens = V.
Hypothesis LO : length obs = V.
Hypothesis LL : length lat = V.
Hypothesis HC : contract = 0 \/ (2 <= V)%nat.

Definition branches_together (slots : list nat) : Prop :=
  exists c, center V tree c /\ forall e rest, Permutation tree (e :: rest) ->
    exists o1 o2 o3, slots = o1 ++ o2 ++ o3 /\ forall u, (u < V)%nat -> (In u o2 <-> ~ reach rest c u).

Lemma V_pos : (1 <= V)%nat.
Proof. destruct T as (A & _). lia. Qed.

Lemma base_Ok : exists order slots XY fig at_ place,
  circular_base iter contract tree names (map Some dens) obs lat = Ok (map Some order, XY, fig) /\
  length order = V /\ length XY = V /\ (forall v, (v < V)%nat -> (nth v order 0 < V)%nat) /\
  (forall v, (v < V)%nat -> place v = nth (nth v order 0%nat) XY (0, 0)) /\
  arranged slots at_ /\ branches_together slots /\
  (forall v, (v < V)%nat -> place v = pulled (contract * (2 * sin (PI / INR V))) at_ tree v) /\
  (Rabs contract < 1 / 4 -> forall u v, (u < V)%nat -> (v < V)%nat -> u <> v -> place u <> place v) /\
  fg_sampled fig = [] /\
  shows names dens obs lat tree [] slots place fig.
Proof.
  pose proof V_pos as VP. pose proof T as (LT & RG & _).
  destruct (C11_proof V tree iter T IT) as (order & slots & c & EO & PO & PS & INV & CC & BR).
  assert (Lo : length order = V) by (rewrite (Permutation_length PO); apply seq_length).
  assert (Ls : length slots = V) by (rewrite (Permutation_length PS); apply seq_length).
  assert (OB : forall v, (v < V)%nat -> (nth v order 0 < V)%nat).
  { intros v Hv. assert (I : In (nth v order 0%nat) order) by (apply nth_In; lia). apply (Permutation_in _ PO) in I. apply in_seq in I. lia. }
  assert (SB : forall v, In v slots -> (v < V)%nat) by (intros v I; apply (Permutation_in _ PS) in I; apply in_seq in I; lia).
  assert (O2S : forall v, (v < V)%nat -> nth (nth v order 0%nat) slots 0%nat = v).
  { intros v Hv. apply nth_error_nth. apply INV. apply nth_error_nth'. lia. }
  assert (S2O : forall i, (i < V)%nat -> nth (nth i slots 0%nat) order 0%nat = i).
  { intros i Hi. apply nth_error_nth. apply INV. apply nth_error_nth'. lia. }
  set (at_ := fun v => on_circle V (nth v order 0%nat)).
  set (circle := map (fun a => (cos a, sin a) : point) (map (slot_angle V) (seq 0 V))).
  assert (LC : @length point circle = V) by (unfold circle; now rewrite !map_length, seq_length).
  assert (CN : forall i, (i < V)%nat -> @nth point i circle (0, 0) = on_circle V i).
  { intros i Hi. unfold circle. rewrite map_map. rewrite (nth_indep _ (0, 0) ((fun x => (cos (slot_angle V x), sin (slot_angle V x)) : point) 0%nat)) by now rewrite map_length, seq_length.
    rewrite (map_nth (fun x => (cos (slot_angle V x), sin (slot_angle V x)) : point)). rewrite seq_nth by auto. cbn [Nat.add]. apply slot_on_circle. lia. }
  set (edges := map (fun '(a, b) => (nth a order 0%nat, nth b order 0%nat)) tree).
  assert (EI : forall a b, In (a, b) tree -> (a < V)%nat /\ (b < V)%nat /\ a <> b) by (intros a b I; exact (edge_ends V tree T a b I)).
  assert (DIST : forall a b, In (a, b) tree -> (2 <= V)%nat -> 0 < apart (at_ a) (at_ b)).
  { intros a b I H2. destruct (EI a b I) as (Ha & Hb & N). pose proof (sin_step_pos V H2).
    assert (NN : nth a order 0%nat <> nth b order 0%nat) by (intros E; apply N; rewrite <- (O2S a), <- (O2S b), E by auto; reflexivity).
    pose proof (circle_gap V (nth a order 0%nat) (nth b order 0%nat) H2 (OB a Ha) (OB b Hb) NN). unfold at_. lra. }
  assert (POS : exists XY : list point, (if Req_EM_T contract 0 then Ok circle else contract_positions circle edges contract) = Ok XY /\ length XY = V /\
            forall v, (v < V)%nat -> nth (nth v order 0%nat) XY (0, 0) = pulled (contract * (2 * sin (PI / INR V))) at_ tree v).
  { destruct (Req_EM_T contract 0) as [C0|C0].
    - exists circle. split; [reflexivity|]. split; [exact LC|]. intros v Hv. rewrite CN by auto. fold (at_ v). unfold pulled. rewrite C0, Rmult_0_l.
      assert (Z : forall p q, toward 0 p q = (0, 0)) by (intros; unfold toward, Rdiv; rewrite !Rmult_0_l; reflexivity).
      destruct (last_with snd v tree), (last_with fst v tree); rewrite ?Z; cbn [fst snd]; rewrite !Rplus_0_r; destruct (at_ v); reflexivity.
    - destruct HC as [?|H2]; [tauto|].
      assert (NE : edges <> []) by (unfold edges; destruct tree; [cbn in LT; lia|discriminate]).
      assert (LE : length edges = length tree) by (unfold edges; apply map_length).
      destruct (contract_Ok circle edges contract NE) as (XY & len & E & LX & SH & N).
      + rewrite LC, LE. lia.
      + intros a b I. unfold edges in I. apply in_map_iff in I as ([x y] & E & I). injection E as <- <-. destruct (EI x y I) as (Hx & Hy & _).
        rewrite LC. split; [now apply OB|]. split; [now apply OB|]. rewrite !CN by auto. now apply DIST.
      + exists XY. split; [exact E|]. split; [exact (eq_trans LX LC)|]. intros v Hv.
        assert (EL : len = 2 * sin (PI / INR V)).
        { apply Rle_antisym.
          - destruct (adjacent_edge V tree c slots T H2 (proj1 CC) PS BR) as (l1 & a & b & l2 & ES & AD).
            assert (Ha : (a < V)%nat) by (apply SB; rewrite ES; apply in_or_app; right; now left).
            assert (Hb : (b < V)%nat) by (apply SB; rewrite ES; apply in_or_app; right; right; now left).
            assert (Ea : nth a order 0%nat = length l1).
            { apply nth_error_nth. apply INV. rewrite ES, nth_error_app2, Nat.sub_diag by lia. reflexivity. }
            assert (Eb : nth b order 0%nat = Datatypes.S (length l1)).
            { apply nth_error_nth. apply INV. rewrite ES, nth_error_app2 by lia. replace (Datatypes.S (length l1) - length l1)%nat with 1%nat by lia. reflexivity. }
            rewrite <- (circle_step V (length l1) H2), <- Ea. rewrite Ea at 2. rewrite <- Eb.
            assert (L1 : (nth a order 0 < V)%nat) by auto. assert (L2 : (nth b order 0 < V)%nat) by auto.
            rewrite <- (CN _ L1), <- (CN _ L2). destruct AD as [I|I].
            + apply SH. unfold edges. apply in_map_iff. exists (a, b). auto.
            + rewrite apart_sym. apply SH. unfold edges. apply in_map_iff. exists (b, a). auto.
          - destruct SH as ((a & b & I & ->) & _). unfold edges in I. apply in_map_iff in I as ([x y] & E' & I). injection E' as <- <-. destruct (EI x y I) as (Hx & Hy & NXY).
            rewrite !CN by auto. apply circle_gap; auto. intros Q. apply NXY. rewrite <- (O2S x), <- (O2S y), Q by auto. reflexivity. }
        rewrite N by (rewrite LC; auto). rewrite EL. unfold pulled.
        assert (LW : forall g, (forall e, In e tree -> (g e < V)%nat) -> (forall x y, g ((fun '(a, b) => (nth a order 0%nat, nth b order 0%nat)) (x, y)) = nth (g (x, y)) order 0%nat) ->
                 last_with g (nth v order 0%nat) edges = option_map (fun '(a, b) => (nth a order 0%nat, nth b order 0%nat)) (last_with g v tree)).
        { intros g GB GE. unfold last_with, edges. rewrite <- map_rev. assert (RB : forall e, In e (rev tree) -> (g e < V)%nat) by (intros; apply GB; now apply in_rev).
          induction (rev tree) as [|[x y] l IHl]; [reflexivity|]. cbn [map find]. rewrite GE.
          assert (EQ : (nth (g (x, y)) order 0 =? nth v order 0)%nat = (g (x, y) =? v)%nat).
          { destruct (Nat.eqb_spec (g (x, y)) v) as [->|NQ]; [apply Nat.eqb_refl|]. apply Nat.eqb_neq. intros Q. apply NQ. rewrite <- (O2S (g (x, y))), Q, O2S by (auto; apply RB; now left). reflexivity. }
          rewrite EQ. destruct (g (x, y) =? v)%nat; [reflexivity|]. apply IHl. intros; apply RB; now right. }
        rewrite (LW snd), (LW fst); [|intros [x y] I; now apply (EI x y)|reflexivity|intros [x y] I; now apply (EI x y)|reflexivity].
        assert (CA : forall v, (v < V)%nat -> @nth point (nth v order 0%nat) circle (0, 0) = at_ v) by (intros w Hw; rewrite CN by auto; reflexivity).
        rewrite CA by auto.
        assert (FI : forall g e, last_with g v tree = Some e -> In e tree) by (intros g e F; apply find_some in F as (F & _); now apply in_rev).
        destruct (last_with snd v tree) as [[x y]|] eqn:F1; destruct (last_with fst v tree) as [[z w]|] eqn:F2; cbn [option_map fst snd]; try apply FI in F1; try apply FI in F2;
          rewrite ?CA by first [apply (EI _ _ F1)|apply (EI _ _ F2)]; reflexivity. }
  destruct POS as (XY & EXY & LXY & PXY).
  unfold circular_base. rewrite EO. cbn [bind].
  assert (OA : forall v, (v < V)%nat -> order_at (map Some order) v = Ok (nth v order 0%nat)).
  { intros v Hv. unfold order_at. rewrite (get_Ok _ _ _ _ (Some 0%nat)) by (rewrite map_length; lia). cbn [bind]. rewrite (map_nth Some). reflexivity. }
  assert (EE : mapM (fun '(v1, v2) => a <- order_at (map Some order) v1 ;; b <- order_at (map Some order) v2 ;; Ok (a, b)) tree = Ok edges).
  { unfold edges. apply mapM_total. intros [a b] I. destruct (EI a b I) as (Ha & Hb & _). rewrite !OA by auto. reflexivity. }
  rewrite EE. cbn [bind].
  rewrite (index_get_Ok names slots EmptyString) by (intros i I; rewrite LN; auto). cbn [bind].
  rewrite (index_get_Ok (map Some dens) slots (Some 0)) by (intros i I; rewrite map_length, LD; auto). cbn [bind].
  rewrite (index_get_Ok obs slots 0) by (intros i I; rewrite LO; auto). cbn [bind].
  rewrite (index_get_Ok lat slots 0) by (intros i I; rewrite LL; auto). cbn [bind].
  assert (LNM : length (map (fun i => nth i names EmptyString) slots) = V) by now rewrite map_length.
  rewrite LNM. fold circle. rewrite EXY. cbn [bind].
  set (place := fun v => nth (nth v order 0%nat) XY (0, 0)).
  assert (PL : forall A (g : point -> nat -> A), map (fun i => g (nth i XY (0, 0)) (nth i slots 0%nat)) (seq 0 V) = map (fun v => g (place v) v) slots).
  { intros A g. rewrite (map_nth_seq' (fun v => g (place v) v) slots 0%nat), Ls. apply map_ext_in. intros i I. apply in_seq in I. unfold place. rewrite S2O by lia. reflexivity. }
  assert (CB : forall B C (f : point * B -> C) (h : nat -> B), map f (combine XY (map h slots)) = map (fun v => f (place v, h v)) slots).
  { intros B C f h. etransitivity; [|exact (PL C (fun p v => f (p, h v)))]. clear - LXY Ls. revert LXY Ls. generalize V. revert slots. induction XY as [|p xs IH]; intros slots V' L1 L2; destruct slots as [|s ss]; cbn in *; subst; try reflexivity; try discriminate.
    cbn [seq map nth]. f_equal. rewrite <- seq_shift, map_map. apply IH; auto. }
  assert (MP : forall C (f : point -> C), map f XY = map (fun v => f (place v)) slots).
  { intros C f. etransitivity; [|exact (PL C (fun p v => f p))]. rewrite (map_nth_seq' f XY (0, 0)), LXY. reflexivity. }
  set (lab := fun i => plot_label V (slot_angle V i) (nth i XY (0, 0)) (nth (nth i slots 0%nat) names EmptyString) (Some (1 / 4 + 3 / 4 * nth (nth i slots 0%nat) dens 0))).
  rewrite (mapM_total _ (fun '(v, _) => lab v)).
  2: { intros [i nm] I. pose proof (in_combine_l _ _ _ _ I) as Ii. apply in_seq in Ii. apply (In_nth _ _ (0%nat, EmptyString)) in I as (k & Hk & E).
       rewrite combine_length, map_length, seq_length in Hk. rewrite combine_nth in E by (rewrite map_length, seq_length; auto). rewrite seq_nth in E by lia. cbn [Nat.add] in E. injection E as -> E.
       rewrite (get_Ok point _ _ _ (0, 0)) by lia. cbn [bind]. rewrite (get_Ok _ _ _ _ (slot_angle V 0)) by (rewrite map_length, seq_length; lia). cbn [bind].
       rewrite (get_Ok _ _ _ _ (option_map (fun x => (1 / 4 + 3 / 4 * x)%R) (Some 0))) by (rewrite !map_length; lia). cbn [bind].
       rewrite (map_nth (slot_angle V)), seq_nth by lia. rewrite (map_nth (option_map _)). f_equal. unfold lab. cbn [Nat.add]. f_equal.
       - rewrite <- E. rewrite (nth_indep _ EmptyString (nth 0 names EmptyString)) by (rewrite map_length; lia). rewrite (map_nth (fun i => nth i names EmptyString)). reflexivity.
       - rewrite (nth_indep _ (Some 0) (nth 0 (map Some dens) (Some 0))) by (rewrite map_length; lia). rewrite (map_nth (fun i => nth i (map Some dens) (Some 0))), (map_nth Some). reflexivity. }
  cbn [bind].
  assert (CH : exists chords, mapM (fun '(v1, v2) => p <- get IndexError XY v1 ;; q <- get IndexError XY v2 ;; Ok (plot_chord p q (1 / INR V) None)) edges = Ok chords /\
             map ends chords = map (fun '(a, b) => (place a, place b, None)) tree /\ Forall (bends V) chords).
  { exists (map (fun '(a, b) => plot_chord (nth a XY (0, 0)) (nth b XY (0, 0)) (1 / INR V) None) edges). split.
    - apply mapM_total. intros [a b] I. unfold edges in I. apply in_map_iff in I as ([x y] & E & I). injection E as <- <-. destruct (EI x y I) as (Hx & Hy & _).
      rewrite (get_Ok point _ _ _ (0, 0)) by (rewrite LXY; auto). cbn [bind]. rewrite (get_Ok point _ _ _ (0, 0)) by (rewrite LXY; auto). reflexivity.
    - split; [unfold edges; rewrite !map_map; apply map_ext_in; intros [x y] I; reflexivity|]. rewrite Forall_map. apply Forall_forall. intros [a b] _. apply chord_bends. }
  destruct CH as (chords & ECH & MCH & BCH). rewrite ECH. cbn [bind].
  eexists order, slots, XY, _, at_, place. split; [reflexivity|].
  split; [exact Lo|]. split; [exact LXY|]. split; [exact OB|]. split; [reflexivity|].
  split; [intros i v E; rewrite Ls; unfold at_; f_equal; apply nth_error_nth, INV; exact E|]. split; [exists c; auto|].
  split; [exact PXY|]. split.
  { intros RC u v Hu Hv NUV E. unfold place in E. rewrite !PXY in E by auto.
    assert (N : nth u order 0%nat <> nth v order 0%nat) by (intros Q; apply NUV; rewrite <- (O2S u), <- (O2S v), Q by auto; reflexivity).
    assert (H2 : (2 <= V)%nat) by lia.
    pose proof (circle_gap V _ _ H2 (OB u Hu) (OB v Hv) N) as G. fold (at_ u) (at_ v) in G. pose proof (sin_step_pos V H2) as SP.
    pose proof (pulled_near (contract * (2 * sin (PI / INR V))) at_ tree u (fun a b I => DIST a b I H2)) as M1.
    pose proof (pulled_near (contract * (2 * sin (PI / INR V))) at_ tree v (fun a b I => DIST a b I H2)) as M2.
    rewrite E in M1. rewrite Rabs_mult, (Rabs_pos_eq (2 * _)) in M1, M2 by lra. rewrite apart_sym in M2.
    pose proof (apart_tri (at_ u) (pulled (contract * (2 * sin (PI / INR V))) at_ tree v) (at_ v)). nra. }
  split; [reflexivity|].
  assert (TX : map (fun '(v, _) => lab v) (combine (seq 0 V) (map (fun i => nth i names EmptyString) slots)) = map lab (seq 0 V)).
  { rewrite (map_ext _ (fun x => lab (fst x))) by (now intros [? ?]). rewrite <- (map_map fst lab). f_equal. apply map_fst_combine. now rewrite map_length, seq_length. }
  assert (TN : forall A (g : text -> A) (h : nat -> A), (forall i, (i < V)%nat -> g (lab i) = h (nth i slots 0%nat)) -> map g (map lab (seq 0 V)) = map h slots).
  { intros A g h GH. rewrite map_map, (map_nth_seq' h slots 0%nat), Ls. apply map_ext_in. intros i I. apply in_seq in I. apply GH. lia. }
  constructor; cbn [fg_texts fg_observed fg_latent fg_spokes fg_tree fg_sampled]; rewrite ?TX.
  - rewrite LN. exact PS.
  - apply TN. intros i Hi. apply label_ok.
  - apply (TN _ tx_alpha (fun v => Some (1 / 4 + 3 / 4 * nth v dens 0))). intros i Hi. apply label_ok.
  - rewrite LN. assert (E : slots = map (fun i => nth i slots 0%nat) (seq 0 V)) by (rewrite <- Ls, <- (map_nth_seq' (fun x => x)); symmetry; apply map_id).
    rewrite E at 1. assert (IB : forall i, In i (seq 0 V) -> (i < V)%nat) by (intros i I; apply in_seq in I; lia). revert IB. generalize (seq 0 V). intros l. induction l as [|i l IH]; intros IB; cbn [map]; constructor.
    + unfold place. rewrite S2O by (apply IB; now left). apply label_ok.
    + apply IH. intros j J. apply IB. now right.
  - intros i t E. assert (Hi : (i < V)%nat) by (rewrite <- (seq_length V 0), <- (map_length lab); apply nth_error_Some; congruence).
    apply nth_error_nth with (d := lab 0%nat) in E. rewrite map_nth, seq_nth in E by auto. subst t. rewrite LN. apply label_radial. lia.
  - rewrite CB. reflexivity.
  - rewrite CB. apply map_ext. intros v. f_equal. unfold pscale. rewrite !Rmult_1_l. now destruct (place v).
  - apply MP.
  - exact MCH.
  - exists []. split; [constructor|]. split; [|reflexivity]. intros e. split; [intros []|intros (s & [] & _)].
  - rewrite app_nil_r, LN. exact BCH.
Qed.

(** The sampled edges. *)
Lemma samples_Ok order (XY : list point) fig slots (place : nat -> point) samples : length order = V -> length XY = V -> (forall v, (v < V)%nat -> (nth v order 0 < V)%nat) ->
  (forall v, (v < V)%nat -> place v = nth (nth v order 0%nat) XY (0, 0)) -> shows names dens obs lat tree [] slots place fig ->
  (forall s, In s samples -> canonical_tree V s) ->
  exists fig', circular_samples (map Some order) XY fig (length samples) samples = Ok fig' /\ shows names dens obs lat tree samples slots place fig'.
Proof.
  intros Lo LX OB PL SH CS. pose proof V_pos as VP. unfold circular_samples.
  assert (ND : forall s, In s samples -> NoDup s).
  { intros s I. destruct (CS s I) as (ST & _). destruct (tree_rooted V s 0 ST ltac:(lia)) as (par & dep & RT). apply (NoDup_map_inv norm). apply RT. }
  destruct (counted_all samples [] []) as (N & K & O). { split; [constructor|]. split; [tauto|reflexivity]. }
  cbn [app] in K, O. set (c := fold_left _ samples []) in *.
  assert (KI : forall e, In e (map fst c) <-> exists s, In s samples /\ In e s).
  { intros e. rewrite K, in_concat. split; intros (s & ? & ?); exists s; auto. }
  rewrite (mapM_total _ (fun '((a, b), n) => plot_chord (place a) (place b) (1 / INR (length XY)) (Some (INR n / INR (length samples))))).
  - cbn [bind]. eexists. split; [reflexivity|]. destruct SH. constructor; cbn [fg_texts fg_observed fg_latent fg_spokes fg_tree fg_sampled]; auto.
    2:{ apply Forall_app. split; [now apply Forall_app in sh_bends|]. rewrite Forall_map. apply Forall_forall. intros [[a b] n] _. rewrite LX, LN. apply chord_bends. }
    exists (map fst c). split; [exact N|]. split; [exact KI|]. rewrite !map_map. apply map_ext_in. intros [[a b] n] I. cbn [fst snd]. unfold ends. cbn [plot_chord cv_begin cv_end cv_alpha].
    rewrite <- occ_samples by exact ND. rewrite <- O. rewrite (cnt_in c N (a, b) n I). reflexivity.
  - intros [[a b] n] I. assert (J : In (a, b) (map fst c)) by (apply in_map_iff; now exists (a, b, n)). apply KI in J as (s & Is & J).
    destruct (CS s Is) as ((_ & RG & _) & _). destruct (RG a b J) as (Ha & Hb).
    assert (OA : forall v, (v < V)%nat -> order_at (map Some order) v = Ok (nth v order 0%nat)).
    { intros v Hv. unfold order_at. rewrite (get_Ok _ _ _ _ (Some 0%nat)) by (rewrite map_length; lia). cbn [bind]. rewrite (map_nth Some). reflexivity. }
    rewrite !OA by auto. cbn [bind]. rewrite (get_Ok point _ _ _ (0, 0)) by (rewrite LX; auto). cbn [bind]. rewrite (get_Ok point _ _ _ (0, 0)) by (rewrite LX; auto). cbn [bind].
    destruct samples as [|s0 ss]; [destruct Is|]. cbn [length Nat.eqb bind]. rewrite <- !PL by auto. reflexivity.
Qed.
End Base.
