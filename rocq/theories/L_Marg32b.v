(** Float32 marginals: the results. *)
From Coq Require Import List Arith Bool ZArith Reals Lra Lia.
From Flocq Require Import Core IEEE754.BinarySingleNaN.
From Verif Require Import Base L_Base Spec_Graph L_Graph Spec_Sum L_Sum M_Structure L_Pairing L_MakeTree L_Program L_ProgramValid Spec_Program L_Center L_Prop1 M_Util L_Quantize Spec_Ragged L_Ragged M_Array M_Training Spec_Stats L_Stats L_Trainer Spec_Conditional L_Asg L_BP L_BPVec L_AddRow
  M_Float32 M_Train32 Spec_Float32 L_Float32 L_Sample32 L_Train32 L_Train32c L_Train32d L_Train32i M_Serving Spec_Serving L_Server M_Serving32 Spec_Serving32 L_Serving32a L_Serving32b L_Serving32c L_Serving32d L_Serving32e L_Serving32f M_Sample32 M_Marg32 M_Repaired9 M_Repaired10 Spec_Marg32 L_ServeSample L_ServeSample2 L_Marg32.
Import ListNotations.
Open Scope R_scope.

(** ** Depths *)
Lemma tree_walks edges u v n : walk (grid_edges (make_tree edges)) u v n <-> walk edges u v n.
Proof.
  assert (AD : forall u v, adj (grid_edges (make_tree edges)) u v <-> adj edges u v).
  { intros. rewrite <- (adj_norm edges). split; apply adj_perm; [|symmetry]; apply make_tree_perm. }
  split; apply walk_incl; intros; now apply AD.
Qed.

Lemma tree_dist edges u v d : dist (grid_edges (make_tree edges)) u v d <-> dist edges u v d.
Proof. unfold dist. rewrite tree_walks. split; intros [X Y]; split; auto; intros; apply Y; now apply tree_walks. Qed.

Lemma max_exists (f : nat -> nat) : forall n, exists k, (k <= n)%nat /\ forall j, (j <= n)%nat -> (f j <= f k)%nat.
Proof.
  induction n as [|n (k & Hk & K)]; [exists 0%nat; split; [lia|]; intros j Hj; replace j with 0%nat by lia; lia|].
  destruct (le_dec (f k) (f (Datatypes.S n))) as [D|D].
  - exists (Datatypes.S n). split; [lia|]. intros j Hj. destruct (Nat.eq_dec j (Datatypes.S n)) as [-> | N]; [lia|]. specialize (K j ltac:(lia)). lia.
  - exists k. split; [lia|]. intros j Hj. destruct (Nat.eq_dec j (Datatypes.S n)) as [-> | N]; [lia|]. apply K. lia.
Qed.

Lemma center_within V edges c D : spanning_tree V edges -> center V edges c -> within V (grid_edges (make_tree edges)) D ->
  forall v n, (v < V)%nat -> dist (grid_edges (make_tree edges)) c v n -> (n <= D)%nat.
Proof.
  intros T (Hc & d & (_ & E2) & MIN) (c' & Hc' & W) v n Hv DN.
  destruct (tree_rooted V edges c' T Hc') as (par & dep & RT).
  destruct (max_exists dep (V - 1)%nat) as (k & Hk & K).
  assert (EC : ecc V edges c' (dep k)).
  { split; [exists k; split; [lia|]; apply (rt_dist _ _ _ _ _ RT); lia|]. intros u a Hu DA.
    pose proof (rt_dist _ _ _ _ _ RT u Hu) as DU. pose proof (dist_fun _ _ _ _ _ DA DU) as ->. apply K. lia. }
  specialize (MIN c' (dep k) Hc' EC). specialize (E2 v n Hv (proj1 (tree_dist edges c v n) DN)).
  destruct (W k ltac:(lia)) as (a & Ha & WA). apply (proj1 (tree_walks edges _ _ _)) in WA.
  pose proof (proj2 (rt_dist _ _ _ _ _ RT k ltac:(lia)) a WA). lia.
Qed.

(** ** Running the program *)
Lemma run_marg lib ws V M N0 m A L s row obs post lo hi D junk : lib_ok lib -> consistent ws V M N0 m -> counts_below A ws N0 m -> (6 <= A <= 16)%Z ->
  (A + 3 <= L)%Z -> (2 * L + A + 11 <= 149)%Z -> tables32 ws V M A m s ->
  (forall v, (v < V)%nat -> exists msg', obs s row v (s3_vert s v) = Ok msg' /\ vgood M (- L) 0 msg') ->
  lo 0%nat = (- L)%Z /\ hi 0%nat = 0%Z ->
  (forall d (c : bool) e f g, (e < V - 1)%nat -> (d < D)%nat -> vgood M (- L) 0 f -> vgood M (lo d) (hi d) g ->
    vgood M (lo (Datatypes.S d)) (hi (Datatypes.S d))
      (post M (fun k => fmul (f k) (l_dot lib (vec M ((if c then transpose (s3_trans s e) else s3_trans s e) k)) (vec M g))))) ->
  (forall d, (d <= D)%nat -> (-149 <= lo d - (A + 12))%Z /\ (hi d <= 90)%Z) ->
  within V (ts_get_edges (d_tree m)) D -> length row = list_sum ws ->
  exists x, marginals_row32_with lib obs post s junk row = Ok x /\ length x = list_sum ws /\ forall v, (v < V)%nat -> block_good ws v (fun q => nth q x fzero).
Proof.
  intros LIB C CBL HA HL0 HL TB OBS LH0 POST RNG W RL.
  destruct (cm_tree _ _ _ _ _ C) as (es & T & ET). pose proof (t3_prog _ _ _ _ _ _ TB) as EP. rewrite ET in EP, W. cbn [ts_grid] in EP.
  change (ts_get_edges (TS V (make_tree es))) with (grid_edges (make_tree es)) in W.
  pose proof (prog_bounds V es _ T EP) as PB.
  destruct (find_center_Ok V es T) as (ctr & EC & CC). destruct (make_program_valid V es ctr T (proj1 CC)) as (prog & E1 & VP).
  assert (EQ : s3_prog s = prog).
  { unfold make_propagation_program in EP, E1. rewrite EC in EP. cbn [bind] in EP, E1. rewrite EP in E1. now inversion E1. }
  rewrite <- EQ in VP. destruct (tree_rooted V _ ctr (make_tree_spanning _ _ T) (proj1 CC)) as (par & dep & RT).
  apply (marg_ok lib ws V M N0 m A L s row obs post lo hi D) with (edges := es) (r := ctr) (par := par) (dep := dep); auto.
  intros v Hv. eapply center_within; eauto. now apply (rt_dist _ _ _ _ _ RT).
Qed.

Lemma blocks_good ws V x : length x = list_sum ws -> (forall v, (v < V)%nat -> block_good ws v (fun q => nth q x fzero)) -> marginals_good ws V x.
Proof.
  intros E H. split; [exact E|]. intros v Hv. destruct (H v Hv) as (B1 & B2). split; [exact B1|]. intros W. apply B2. unfold block.
  destruct (nth v ws 0%nat); [lia|discriminate].
Qed.

Lemma marginals_finite lib ws V M N m A b c D row : lib_ok lib -> consistent ws V M N m -> counts_below A ws N m ->
  (6 <= A <= 16)%Z -> (0 <= b <= 140)%Z -> (0 <= c)%Z ->
  within V (ts_get_edges (d_tree m)) D ->
  (2 * (A + 3 + (b + 4) * c) + A + 11 <= 149)%Z ->
  ((A + 3 + (b + 4) * c) + Z.of_nat D * (A + 3 + (b + 4) * c + A + 11) + A + 12 <= 149)%Z -> (Z.of_nat D * (2 * A + 13) <= 90)%Z ->
  length row = list_sum ws -> Forall (fun x => (0 <= x)%Z) row ->
  (forall v, (v < V)%nat -> (block_sum ws row v <= c)%Z) ->
  (forall v q k, (v < V)%nat -> In q (block ws v) -> (k < M)%nat -> nth q row 0%Z <> 0%Z -> bp (- b) <= feat_prob ws m v q k) ->
  exists s, tree_server32 lib m = Ok s /\ forall junk, exists x, marginals_row32 lib s junk row = Ok x /\ marginals_good ws V x.
Proof.
  intros LIB C CB HA Hb Hc W HL HD HH RL RN RC RF. destruct (build32 lib ws V M N m A LIB C CB HA) as (s & E & TB).
  exists s. split; [exact E|]. intros junk. set (L := (A + 3 + (b + 4) * c)%Z) in *. assert (L0 : (A + 3 <= L)%Z) by (unfold L; nia).
  destruct (run_marg lib ws V M N m A L s row (observe32 lib) (fun _ message => message)
    (fun d => - L - Z.of_nat d * (L + A + 11))%Z (fun d => Z.of_nat d * (2 * A + 13))%Z D junk) as (x & EX & LX & GX); auto.
  - intros v Hv. apply (observe_good lib ws V M N m A b c s row LIB C HA Hb Hc HL TB RL RN RC RF v Hv).
  - split; lia.
  - intros d ct e f g He Hd Gf Gg. replace (- L - Z.of_nat (Datatypes.S d) * (L + A + 11))%Z with (- L + (- L - Z.of_nat d * (L + A + 11)) - (A + 11))%Z by lia.
    replace (Z.of_nat (Datatypes.S d) * (2 * A + 13))%Z with (0 + Z.of_nat d * (2 * A + 13) + 2 * A + 13)%Z by lia.
    apply (step_good lib ws V M N m A s LIB C HA TB); auto; try nia.
  - intros d Hd. split; nia.
  - exists x. split; [exact EX|]. now apply blocks_good.
Qed.

Lemma marginals_finite_any lib ws V M N m A c D row : lib_ok lib -> consistent ws V M N m -> counts_below A ws N m ->
  (6 <= A <= 16)%Z -> (0 <= c)%Z -> within V (ts_get_edges (d_tree m)) D ->
  (2 * (A + 3 + (A + 13) * c) + A + 11 <= 149)%Z ->
  ((A + 3 + (A + 13) * c) + Z.of_nat D * (A + 3 + (A + 13) * c + A + 11) + A + 12 <= 149)%Z -> (Z.of_nat D * (2 * A + 13) <= 90)%Z ->
  length row = list_sum ws -> Forall (fun x => (0 <= x)%Z) row ->
  (forall v, (v < V)%nat -> (block_sum ws row v <= c)%Z) ->
  exists s, tree_server32 lib m = Ok s /\ forall junk, exists x, marginals_row32 lib s junk row = Ok x /\ marginals_good ws V x.
Proof.
  intros LIB C CB HA Hc W HL HD HH RL RN RC. apply (marginals_finite lib ws V M N m A (A + 9) c D row); auto; try lia.
  intros v q k Hv Iq Hk _. apply (feat_prob_low ws V M N m A C CB HA); auto.
Qed.

Lemma repaired_marginals_finite lib ws V M N m A row : lib_ok lib -> consistent ws V M N m -> counts_below A ws N m -> (6 <= A <= 16)%Z ->
  length row = list_sum ws ->
  exists s, tree_server32 lib m = Ok s /\ forall junk, exists x, repaired_marginals_row32 lib s junk row = Ok x /\ marginals_good ws V x.
Proof.
  intros LIB C CB HA RL. destruct (build32 lib ws V M N m A LIB C CB HA) as (s & E & TB). exists s. split; [exact E|]. intros junk.
  assert (W : exists D, within V (ts_get_edges (d_tree m)) D).
  { destruct (cm_tree _ _ _ _ _ C) as (es & T & ET). rewrite ET. change (ts_get_edges (TS V (make_tree es))) with (grid_edges (make_tree es)).
    assert (HV : (0 < V)%nat) by (destruct T as (T & _); lia).
    destruct (tree_rooted V _ 0%nat (make_tree_spanning _ _ T) HV) as (par & dep & RT). destruct (max_exists dep (V - 1)%nat) as (k & Hk & K).
    exists (dep k), 0%nat. split; [exact HV|]. intros u Hu. exists (dep u). split; [apply K; lia|]. apply (rt_dist _ _ _ _ _ RT u Hu). }
  destruct W as (D & W).
  destruct (run_marg lib ws V M N m A (A + 3) s row repaired_observe_max32 rescaled (fun _ => - (A + 3))%Z (fun _ => 0%Z) D junk) as (x & EX & LX & GX); auto; try lia.
  - intros v Hv. apply (max_good ws V M N m A s row C CB HA TB RL v); auto. apply (mg_vert' ws V M N m A (A + 3) s C ltac:(lia) TB v Hv).
  - intros d ct e f g He Hd Gf Gg. eapply (rescaled_good ws V M N m A (A + 3)); [exact C|exact HA|lia| |apply (step_good lib ws V M N m A s LIB C HA TB ct e f g (- (A + 3)) 0 (- (A + 3)) 0 He)]; auto; lia.
  - exists x. split; [exact EX|]. now apply blocks_good.
Qed.
