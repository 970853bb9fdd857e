(** The mean edge logits and the estimated tree of an ensemble in float32. *)
From Coq Require Import List Arith Bool ZArith Reals Lra Lia.
From Flocq Require Import Core Relative IEEE754.BinarySingleNaN.
From Verif Require Import Base L_Base Spec_Graph Spec_Sum L_Sum M_Structure L_Pairing L_MakeTree L_Estimate M_Float32 L_Float32 M_Train32 M_Serving32 M_SampleTree32 L_Logits32a L_Logits32b
  Spec_Trees M_EstimateTree32 M_Run32 Spec_Run32 L_Run32c M_Ensemble32 Spec_Ensemble32.
From Verif Require Spec_MST L_AllTrees L_Graph.
Import ListNotations.
Open Scope R_scope.

Lemma fdiv_near (x y : f32) : fin32 x = true -> 0 < val y -> Rabs (val x / val y) <= bp 120 ->
  fin32 (fdiv x y) = true /\ Rabs (val (fdiv x y) - val x / val y) <= bp (-24) * Rabs (val x / val y) + bp (-150).
Proof.
  intros Fx Py B.
  pose proof (Bdiv_correct 24 128 p24 e128 mode_NE x y ltac:(lra)) as C. cbn [round_mode] in C. fold (rnd 24 128 (val x / val y)) in C.
  assert (F : fmt32 (bp 120)) by (apply fmt_bpow; [reflexivity|lia]).
  assert (F' : fmt32 (- bp 120)) by (apply generic_format_opp; exact F). apply Rabs_le_inv in B. assert (bp 120 < bp 128) by (apply bpow_lt; lia).
  rewrite (small 24 128 p24 (- bp 120) (bp 120) (val x / val y)) in C; [|exact F'|exact F|lra|lra|lra].
  destruct C as (C & C2 & _). unfold fdiv. split; [now rewrite C2|]. rewrite C. unfold rnd.
  change (round radix2 (SpecFloat.fexp 24 128) ZnearestE (val x / val y)) with
    (round radix2 (FLT_exp (3 - 128 - 24) 24) (Znearest (fun x => negb (Z.even x))) (val x / val y)).
  destruct (error_N_FLT radix2 (3 - 128 - 24) 24 p24 (fun x => negb (Z.even x)) (val x / val y)) as (eps & eta & E1 & E2 & _ & E3).
  rewrite E3. change (3 - 128 - 24)%Z with (-149)%Z in E2. replace (/ 2 * bp (-149)) with (bp (-150)) in E2 by (change (-150)%Z with (-1 + -149)%Z; rewrite bpow_plus; reflexivity).
  change (/ 2 * bp (- (24) + 1)) with (bp (-1) * bp (-23)) in E1. rewrite <- bpow_plus in E1. change (-1 + -23)%Z with (-24)%Z in E1.
  set (q := val x / val y) in *. replace (q * (1 + eps) + eta - q) with (q * eps + eta) by ring.
  eapply Rle_trans; [apply Rabs_triang|]. rewrite Rabs_mult. pose proof (Rabs_pos q). nra.
Qed.

(** Entry by entry. *)
Lemma average_entries L : forall rest a, length a = L -> Forall (fun b => length b = L) rest ->
  exists s, foldM add_arrays32 rest a = Ok s /\ length s = L /\
    forall k, (k < L)%nat -> nth k s fzero = fold_left fadd (map (fun b => nth k b fzero) rest) (nth k a fzero).
Proof.
  induction rest as [|b rest IH]; intros a La F.
  - exists a. split; [reflexivity|]. split; [exact La|]. reflexivity.
  - inversion F as [|? ? Lb F']; subst. cbn [foldM]. unfold add_arrays32 at 1. rewrite Lb, Nat.eqb_refl. cbn [bind].
    destruct (IH (map (fun '(x, y) => fadd x y) (combine a b))) as (s & E & Ls & Hs); [rewrite map_length, combine_length; lia|exact F'|].
    exists s. split; [exact E|]. split; [exact Ls|]. intros k Hk. rewrite Hs by exact Hk. cbn [map fold_left]. f_equal.
    set (g := fun p : f32 * f32 => let '(x, y) := p in fadd x y). change (nth k (map g (combine a b)) fzero = g (nth k a fzero, nth k b fzero)).
    rewrite (nth_indep (map g (combine a b)) fzero (g (fzero, fzero))) by (rewrite map_length, combine_length; lia).
    now rewrite (map_nth g), combine_nth by lia.
Qed.

Notation minf := (B754_infinity true : f32).

Definition entry_ok B (x : f32) : Prop := (fin32 x = true /\ Rabs (val x) <= B) \/ x = minf.

Lemma fadd_minf_r x B : entry_ok B x -> fadd x minf = minf.
Proof. intros [(F & _)| ->]; [|reflexivity]. destruct x; try discriminate; reflexivity. Qed.

Lemma fold_minf B l : Forall (entry_ok B) l -> fold_left fadd l minf = minf.
Proof.
  induction 1 as [|x l Hx F IH]; [reflexivity|]. cbn [fold_left].
  replace (fadd minf x) with minf; [exact IH|]. destruct Hx as [(Fx & _)| ->]; [|reflexivity]. destruct x; try discriminate; reflexivity.
Qed.

Lemma fold_some_minf B l : Forall (entry_ok B) l -> In minf l -> forall acc, (acc = minf \/ fin32 acc = true) -> 
  (forall l1 l2, l = l1 ++ minf :: l2 -> Forall (fun x => fin32 x = true) l1 -> fin32 (fold_left fadd l1 acc) = true \/ fold_left fadd l1 acc = minf) ->
  fold_left fadd l acc = minf.
Proof.
  intros F I acc Ha K.
  assert (SPL : exists l1 l2, l = l1 ++ minf :: l2 /\ Forall (fun x => fin32 x = true) l1).
  { clear K Ha acc. induction F as [|x l Hx F IH]; [destruct I|]. destruct Hx as [(Fx & Bx)| ->].
    - destruct I as [->|I]; [discriminate Fx|]. destruct (IH I) as (l1 & l2 & -> & G). exists (x :: l1), l2. split; [reflexivity|]. now constructor.
    - exists [], l. split; [reflexivity|constructor]. }
  destruct SPL as (l1 & l2 & E & G). specialize (K l1 l2 E G). rewrite E, fold_left_app. cbn [fold_left].
  replace (fadd (fold_left fadd l1 acc) minf) with minf.
  - apply (fold_minf B). rewrite E in F. apply Forall_app in F. destruct F as (_ & F). now inversion F.
  - symmetry. destruct K as [K|K]; [|rewrite K; reflexivity]. destruct (fold_left fadd l1 acc); try discriminate; reflexivity.
Qed.

Lemma fdiv_minf y : fin32 y = true -> 0 < val y -> fdiv minf y = minf.
Proof.
  intros Fy Py. destruct y as [s|s| |s m e H]; try discriminate; [cbn in Py; lra|].
  destruct s; [|reflexivity]. exfalso. cbn in Py. unfold F2R in Py. cbn [Fnum Fexp] in Py. pose proof (bpow_gt_0 radix2 e).
  assert (IZR (Z.neg m) < 0) by (apply IZR_lt; lia). change (IZR (Z.neg m) * bp e) with (IZR (Z.neg m) * bp e) in Py. nra.
Qed.

Lemma sum_abs_bound (l : list f32) B : Forall (fun x => fin32 x = true /\ Rabs (val x) <= B) l -> sumf l (fun x => Rabs (val x)) <= INR (length l) * B.
Proof. intros F. rewrite <- sumf_const. apply sumf_le. rewrite Forall_forall in F. intros x I. now apply F. Qed.

(** One entry. *)
Lemma entry_mean B x l : 0 <= B <= bp 40 -> (Z.of_nat (length (x :: l)) <= 2 ^ 16)%Z -> Forall (entry_ok B) (x :: l) ->
  let n := length (x :: l) in let r := fdiv (fold_left fadd l x) (f32_of (Z.of_nat n) 0) in
  (Forall (fun y => fin32 y = true) (x :: l) /\ fin32 r = true /\ Rabs (val r) <= 2 * B + 1 /\ Rabs (val r - sumf (x :: l) (fun y => val y) / INR n) <= mean_error n B) \/
  (~ Forall (fun y => fin32 y = true) (x :: l) /\ r = minf).
Proof.
  intros HB HL F n r. destruct HB as (B0 & HB).
  assert (P23 : 0 < bp (-23)) by apply bpow_gt_0. assert (E23 : bp (-23) = / 8388608) by reflexivity.
  assert (Nn : 1 <= INR n <= 65536). { split; [change 1 with (INR 1); apply le_INR; unfold n; cbn; lia|]. rewrite INR_IZR_INZ. apply IZR_le in HL. exact HL. }
  assert (B100 : bp 60 <= bp 100) by (apply bpow_le; lia). assert (B60 : bp 60 = bp 40 * 1048576) by (change 60%Z with (40 + 20)%Z; rewrite bpow_plus; reflexivity).
  assert (B120 : bp 100 <= bp 120) by (apply bpow_le; lia).
  destruct (f32_int (Z.of_nat n)) as (FN & VN); [unfold n; lia|]. rewrite <- INR_IZR_INZ in VN.
  (* sums of finite prefixes *)
  assert (PRE : forall l1, (length l1 <= length l)%nat -> Forall (fun y => fin32 y = true /\ Rabs (val y) <= B) (x :: l1) ->
     fin32 (fold_left fadd l1 x) = true /\ Rabs (val (fold_left fadd l1 x) - (val x + sumf l1 (fun y => val y))) <= INR n * (bp (-23) * (INR n * B))).
  { intros l1 Hl G. inversion G as [|? ? (Fx & Bx) G']; subst.
    assert (LN : INR (length l1) + 1 <= INR n). { rewrite <- S_INR. apply le_INR. unfold n. cbn [length]. lia. } pose proof (pos_INR (length l1)).
    destruct (fold_near (INR n * B) ltac:(nra) l1 x (val x) 0 Fx) as (R1 & R2).
    - eapply Forall_impl; [|exact G']. intros y (Q & _). exact Q.
    - pose proof (sum_abs_bound l1 B G'). nra.
    - rewrite Rminus_eq_0, Rabs_R0. lra.
    - lra.
    - rewrite E23. assert (0 <= INR n * B) by nra. nra.
    - split; [exact R1|]. eapply Rle_trans; [exact R2|]. assert (0 <= bp (-23) * (INR n * B)) by (apply Rmult_le_pos; nra). nra. }
  destruct (Forall_dec (fun y : f32 => fin32 y = true) (fun y => bool_dec (fin32 y) true) (x :: l)) as [A|A].
  - left. split; [exact A|].
    assert (G : Forall (fun y => fin32 y = true /\ Rabs (val y) <= B) (x :: l)).
    { rewrite Forall_forall in *. intros y I. destruct (F y I) as [Q| ->]; [exact Q|]. specialize (A minf I). discriminate A. }
    destruct (PRE l (le_n _) G) as (R1 & R2). rewrite sumf_cons. set (S := val x + sumf l (fun y => val y)) in *. set (s := fold_left fadd l x) in *.
    assert (SB : Rabs S <= INR n * B).
    { unfold S. rewrite <- (sumf_cons x l (fun y => val y)). eapply Rle_trans; [apply sumf_abs_le|]. now apply sum_abs_bound. }
    assert (MB : Rabs (S / INR n) <= B).
    { unfold Rdiv. rewrite Rabs_mult, (Rabs_pos_eq (/ INR n)) by (left; apply Rinv_0_lt_compat; lra).
      apply Rmult_le_reg_r with (INR n); [lra|]. rewrite Rmult_assoc, Rinv_l by lra. lra. }
    assert (DB : Rabs (val s / INR n - S / INR n) <= bp (-23) * (INR n * B)).
    { replace (val s / INR n - S / INR n) with ((val s - S) * / INR n) by (field; lra). rewrite Rabs_mult, (Rabs_pos_eq (/ INR n)) by (left; apply Rinv_0_lt_compat; lra).
      apply Rmult_le_reg_r with (INR n); [lra|]. rewrite Rmult_assoc, Rinv_l by lra. lra. }
    assert (NB : bp (-23) * (INR n * B) <= B / 100) by (rewrite E23; nra).
    assert (QB : Rabs (val s / INR n) <= 2 * B) by (apply Rabs_le_inv in DB, MB; apply Rabs_le; lra).
    destruct (fdiv_near s (f32_of (Z.of_nat n) 0) R1) as (D1 & D2); [rewrite VN; lra|rewrite VN; lra|]. rewrite VN in D2. fold r in D1, D2.
    assert (D3 : Rabs (val r - val s / INR n) <= bp (-23) * B + bp (-150)).
    { eapply Rle_trans; [exact D2|]. replace (bp (-23)) with (2 * bp (-24)) by (change (-23)%Z with (1 + -24)%Z; rewrite bpow_plus; reflexivity). pose proof (bpow_gt_0 radix2 (-24)). nra. }
    assert (T : bp (-150) <= / 2) by (change (/ 2) with (bp (-1)); apply bpow_le; lia).
    split; [exact D1|]. apply Rabs_le_inv in D3, DB, MB. split.
    + apply Rabs_le. assert (bp (-23) * B <= B / 100) by (rewrite E23; lra). lra.
    + unfold mean_error. assert (0 <= bp (-23) * B) by (apply Rmult_le_pos; lra). apply Rabs_le. lra.
  - right. split; [exact A|]. unfold r. replace (fold_left fadd l x) with minf; [apply fdiv_minf; [exact FN|rewrite VN; lra]|]. symmetry.
    inversion F as [|? ? Fx Fl]; subst.
    destruct Fx as [(Fx & Bx)| ->]; [|now apply (fold_minf B)].
    apply (fold_some_minf B); auto.
    + destruct (Forall_Exists_dec (fun y : f32 => fin32 y = true) (fun y => bool_dec (fin32 y) true) l) as [Q|Q]; [exfalso; apply A; now constructor|].
      apply Exists_exists in Q. destruct Q as (y & Iy & Hy). rewrite Forall_forall in Fl. destruct (Fl y Iy) as [(Q & _)| ->]; [contradiction|exact Iy].
    + intros l1 l2 El G. left. apply PRE.
      * rewrite El, app_length. cbn [length]. lia.
      * constructor; [now split|]. rewrite Forall_forall in *. intros y Iy. destruct (Fl y) as [Q| ->]; [rewrite El; apply in_or_app; now left|exact Q|]. specialize (G minf Iy). discriminate G.
Qed.

Lemma ens_avg_facts : forall V grid arrays B, (1 <= V)%nat -> make_complete_graph V = Ok grid ->
  arrays <> [] -> (Z.of_nat (length arrays) <= 2 ^ 16)%Z -> Forall (fun a => length a = length grid) arrays -> 0 <= B <= bp 40 ->
  Forall (Forall (fun x => (fin32 x = true /\ Rabs (val x) <= B) \/ x = B754_infinity true)) arrays ->
  length grid = tri V /\ exists avg, average32 arrays = Ok avg /\ length avg = length grid /\
  (forall k, (k < length grid)%nat ->
     (Forall (fun a => fin32 (nth k a fzero) = true) arrays /\ fin32 (nth k avg fzero) = true /\ Rabs (val (nth k avg fzero)) <= 2 * B + 1 /\
        Rabs (val (nth k avg fzero) - mean_entry arrays k) <= mean_error (length arrays) B) \/
     (~ Forall (fun a => fin32 (nth k a fzero) = true) arrays /\ nth k avg fzero = minf)) /\
  Forall (fun x => (fin32 x = true /\ Rabs (val x) <= 2 * B + 1) \/ x = minf) avg /\
  (forall T, spanning_tree V T -> (Forall (fun a => allowed_by a T) arrays <-> allowed_by avg T)).
Proof.
  intros V grid arrays B HV EG NE HL LEN HB ENT. destruct arrays as [|a rest] eqn:EA; [congruence|]. rewrite <- EA in *.
  assert (LG : length grid = tri V) by (rewrite make_complete_graph_Ok in EG; inversion EG; apply complete_grid_length).
  rewrite EA in LEN. inversion LEN as [|? ? La Lr Ex1]. clear Ex1. rewrite <- EA in LEN. clear dependent x. clear dependent l.
  destruct (average_entries (length grid) rest a La Lr) as (s & ES & Ls & Hs).
  set (n := length arrays) in *. set (dv := fun x => fdiv x (f32_of (Z.of_nat n) 0)). set (avg := map dv s).
  assert (AV : average32 arrays = Ok avg). { unfold average32. rewrite EA. rewrite ES. cbn [bind]. rewrite <- EA. reflexivity. }
  assert (LA : length avg = length grid) by (unfold avg; now rewrite map_length).
  assert (NK : forall k, (k < length grid)%nat -> nth k avg fzero = dv (fold_left fadd (map (fun b => nth k b fzero) rest) (nth k a fzero))).
  { intros k Hk. unfold avg. rewrite (nth_indep (map dv s) fzero (dv fzero)) by (rewrite map_length; lia). rewrite (map_nth dv). now rewrite Hs. }
  assert (ENTRY : forall k, (k < length grid)%nat ->
     (Forall (fun a => fin32 (nth k a fzero) = true) arrays /\ fin32 (nth k avg fzero) = true /\ Rabs (val (nth k avg fzero)) <= 2 * B + 1 /\
        Rabs (val (nth k avg fzero) - mean_entry arrays k) <= mean_error n B) \/
     (~ Forall (fun a => fin32 (nth k a fzero) = true) arrays /\ nth k avg fzero = minf)).
  { intros k Hk. rewrite NK by exact Hk.
    pose proof (entry_mean B (nth k a fzero) (map (fun b => nth k b fzero) rest) HB) as EM. cbv zeta in EM.
    change (nth k a fzero :: map (fun b => nth k b fzero) rest) with (map (fun b => nth k b fzero) (a :: rest)) in EM. rewrite <- EA in EM.
    rewrite map_length in EM. fold n in EM. specialize (EM HL).
    assert (FE : Forall (entry_ok B) (map (fun b => nth k b fzero) arrays)).
    { apply Forall_forall. intros y Iy. apply in_map_iff in Iy. destruct Iy as (b & <- & Ib). rewrite Forall_forall in ENT, LEN. specialize (ENT b Ib). rewrite Forall_forall in ENT.
      apply ENT, nth_In. rewrite (LEN b Ib). exact Hk. }
    specialize (EM FE). rewrite sumf_map in EM. rewrite Forall_map in EM. exact EM. }
  assert (FA : Forall (fun x => (fin32 x = true /\ Rabs (val x) <= 2 * B + 1) \/ x = minf) avg).
  { apply Forall_forall. intros y Iy. apply (In_nth _ _ fzero) in Iy. destruct Iy as (k & Hk & <-). rewrite LA in Hk. destruct (ENTRY k Hk) as [(_ & G1 & G2 & _)|(_ & G)]; auto. }
  assert (ALL : forall T, spanning_tree V T -> (Forall (fun a => allowed_by a T) arrays <-> allowed_by avg T)).
  { intros T ST. rewrite Forall_forall. split.
    - intros H x y I. destruct (tree_neq V T ST x y I) as (N & Hx & Hy). pose proof (fce_range V x y Hx Hy N) as RG. rewrite <- LG in RG.
      destruct (ENTRY _ RG) as [(_ & G & _)|(G & _)]; [exact G|]. exfalso. apply G, Forall_forall. intros b Ib. apply (H b Ib x y I).
    - intros H b Ib x y I. destruct (tree_neq V T ST x y I) as (N & Hx & Hy). pose proof (fce_range V x y Hx Hy N) as RG. rewrite <- LG in RG.
      destruct (ENTRY _ RG) as [(G & _)|(_ & G)]; [rewrite Forall_forall in G; now apply G|]. specialize (H x y I). rewrite G in H. discriminate H. }
  split; [exact LG|]. exists avg. auto.
Qed.

Lemma C90_proof : forall mst V grid arrays B, Spec_MST.mst_contract mst -> (1 <= V)%nat -> make_complete_graph V = Ok grid ->
  arrays <> [] -> (Z.of_nat (length arrays) <= 2 ^ 16)%Z -> Forall (fun a => length a = length grid) arrays -> 0 <= B <= bp 40 ->
  Forall (Forall (fun x => (fin32 x = true /\ Rabs (val x) <= B) \/ x = B754_infinity true)) arrays ->
  (exists T, spanning_tree V T /\ Forall (fun a => allowed_by a T) arrays) ->
  exists avg T, ens_tree32 mst grid arrays = Ok (avg, T) /\ length avg = length grid /\
    (forall k, (k < length grid)%nat ->
       (Forall (fun a => fin32 (nth k a fzero) = true) arrays /\ fin32 (nth k avg fzero) = true /\
          Rabs (val (nth k avg fzero) - mean_entry arrays k) <= mean_error (length arrays) B) \/
       (~ Forall (fun a => fin32 (nth k a fzero) = true) arrays /\ nth k avg fzero = B754_infinity true)) /\
    canonical_tree V T /\ Forall (fun a => allowed_by a T) arrays /\
    forall T', spanning_tree V T' -> Forall (fun a => allowed_by a T') arrays ->
      mean_score arrays T' <= mean_score arrays T + INR (V - 1) * (2 * mean_error (length arrays) B + bp (-20) * (2 * B + 2)).
Proof.
  intros mst V grid arrays B MC HV EG NE HL LEN HB ENT EX.
  destruct (ens_avg_facts V grid arrays B HV EG NE HL LEN HB ENT) as (LG & avg & AV & LA & ENTRY & FA & ALL). set (n := length arrays) in *.
  assert (SC : forall T, spanning_tree V T -> allowed_by avg T ->
     Rabs (sumf T (fun '(x, y) => val (nth (find_complete_edge x y) avg fzero)) - mean_score arrays T) <= INR (V - 1) * mean_error n B).
  { intros T ST AT. unfold mean_score. rewrite <- sumf_minus. replace (V - 1)%nat with (length T) by (destruct ST; lia). rewrite <- sumf_const.
    eapply Rle_trans; [apply sumf_abs_le|]. apply sumf_le. intros [x y] I. destruct (tree_neq V T ST x y I) as (N & Hx & Hy). pose proof (fce_range V x y Hx Hy N) as RG. rewrite <- LG in RG.
    destruct (ENTRY _ RG) as [(_ & _ & _ & G)|(_ & G)]; [exact G|]. specialize (AT x y I). rewrite G in AT. discriminate AT. }
  destruct EX as (T0 & ST0 & AT0).
  assert (B60 : bp 40 * 4 + 1 <= bp 60). { assert (E : bp 60 = bp 40 * 1048576) by (change 60%Z with (40 + 20)%Z; rewrite bpow_plus; reflexivity). assert (1 <= bp 40) by (change 1 with (bp 0); apply bpow_le; lia). lra. }
  destruct (C86_proof mst V grid avg (2 * B + 1) MC HV EG LA ltac:(lra) FA) as (T & ET & CT & AT & OPT).
  { exists T0. split; [exact ST0|]. now apply ALL. }
  exists avg, T. split; [unfold ens_tree32; rewrite AV; cbn [bind]; rewrite ET; reflexivity|]. split; [exact LA|]. split.
  { intros k Hk. destruct (ENTRY k Hk) as [(G1 & G2 & G3 & G4)|G]; [left|right]; auto. }
  split; [exact CT|]. destruct CT as (ST & CT'). split; [now apply ALL|].
  intros T' ST' AT'. apply ALL in AT'; [|exact ST']. specialize (OPT T' ST' AT'). pose proof (SC T ST AT) as K1. pose proof (SC T' ST' AT') as K2.
  apply Rabs_le_inv in K1, K2. replace (2 * B + 1 + 1) with (2 * B + 2) in OPT by ring. lra.
Qed.

(** Three features and two members. *)
Lemma C90_case_proof : Spec_MST.mst_contract naive_mst /\
  let arrays := [[f32_of 3 (-1); B754_infinity true; f32_of (-3) 0]; [f32_of 1 0; f32_of 2 0; f32_of (-1) 0]] in
  exists grid, make_complete_graph 3 = Ok grid /\ Forall (fun a => length a = length grid) arrays /\
  Forall (Forall (fun x => (fin32 x = true /\ Rabs (val x) <= 4) \/ x = B754_infinity true)) arrays /\ 0 <= 4 <= bp 40 /\
  spanning_tree 3 [(0, 1); (1, 2)]%nat /\ Forall (fun a => allowed_by a [(0, 1); (1, 2)]%nat) arrays.
Proof.
  split; [exact naive_mst_contract|]. cbv zeta. destruct C86_case_proof as (_ & grid & EG & _ & F1 & _ & ST & AL). exists grid. split; [exact EG|].
  cbn in EG. injection EG as <-. split; [repeat constructor|]. split.
  { constructor; [exact F1|]. constructor; [|constructor].
    assert (K : forall z, (Z.abs z <= 4)%Z -> fin32 (f32_of z 0) = true /\ Rabs (val (f32_of z 0)) <= 4).
    { intros z Hz. destruct (f32_int z ltac:(lia)) as (G1 & G2). split; [exact G1|]. rewrite G2, <- abs_IZR. now apply IZR_le. }
    repeat (constructor; [left; apply K; lia|]). constructor. }
  split. { split; [lra|]. change 4 with (bp 2). apply bpow_le. lia. }
  split; [exact ST|]. constructor; [exact AL|]. constructor; [|constructor]. intros x y [E|[E|[]]]; inversion E; subst; reflexivity.
Qed.

Lemma C90_none : forall mst V grid arrays B, mst_forest mst -> (1 <= V)%nat -> make_complete_graph V = Ok grid ->
  arrays <> [] -> (Z.of_nat (length arrays) <= 2 ^ 16)%Z -> Forall (fun a => length a = length grid) arrays -> 0 <= B <= bp 40 ->
  Forall (Forall (fun x => (fin32 x = true /\ Rabs (val x) <= B) \/ x = B754_infinity true)) arrays ->
  ~ (exists T, spanning_tree V T /\ Forall (fun a => allowed_by a T) arrays) -> ens_tree32 mst grid arrays = Raise AssertionError.
Proof.
  intros mst V grid arrays B MF HV EG NE HL LEN HB ENT NX.
  destruct (ens_avg_facts V grid arrays B HV EG NE HL LEN HB ENT) as (LG & avg & AV & LA & ENTRY & FA & ALL).
  unfold ens_tree32. rewrite AV. cbn [bind]. rewrite (C86_none mst V grid avg (2 * B + 1)); auto.
  - split; [lra|]. assert (bp 40 <= bp 58) by (apply bpow_le; lia). change 60%Z with (58 + 2)%Z. rewrite bpow_plus. pose proof (bpow_gt_0 radix2 58).
    assert (1 <= bp 58) by (change 1 with (bp 0); apply bpow_le; lia). change (bp 2) with 4. lra.
  - intros (T & ST & AT). apply NX. exists T. split; [exact ST|]. now apply ALL.
Qed.

(** Each member allows a tree, but not the same. *)
Lemma C90_none_case_proof : mst_forest naive_mst /\
  let a := [fzero; B754_infinity true; fzero] in let b := [B754_infinity true; fzero; fzero] in
  Forall (Forall (fun x => (fin32 x = true /\ Rabs (val x) <= 0) \/ x = B754_infinity true)) [a; b] /\
  (spanning_tree 3 [(0, 1); (1, 2)]%nat /\ allowed_by a [(0, 1); (1, 2)]%nat) /\
  (spanning_tree 3 [(0, 2); (1, 2)]%nat /\ allowed_by b [(0, 2); (1, 2)]%nat) /\
  ~ (exists T, spanning_tree 3 T /\ Forall (fun l => allowed_by l T) [a; b]).
Proof.
  split; [exact naive_forest|]. cbv zeta.
  assert (Z0 : fin32 fzero = true /\ Rabs (val fzero) <= 0) by (split; [reflexivity|]; change (val fzero) with 0; rewrite Rabs_R0; lra).
  split. { repeat (first [apply Forall_nil|apply Forall_cons]); (left; exact Z0) || (right; reflexivity). }
  destruct C86_case_proof as (_ & grid & _ & _ & _ & _ & ST & _).
  split. { split; [exact ST|]. intros x y [E|[E|[]]]; inversion E; subst; reflexivity. }
  split. { split. 2: { intros x y [E|[E|[]]]; inversion E; subst; reflexivity. }
    split; [reflexivity|]. split. { intros x y [E|[E|[]]]; inversion E; subst; lia. }
    assert (W2 : forall u, (u < 3)%nat -> exists n, walk [(0, 2); (1, 2)]%nat u 2%nat n).
    { intros [|[|[|u]]] Hu; try lia; [exists 1%nat|exists 1%nat|exists 0%nat]; try apply walk_nil; apply (walk_cons _ _ 2%nat); try apply walk_nil; left; cbn; tauto. }
    intros u v Hu Hv. destruct (W2 u Hu) as (n & Wn). destruct (W2 v Hv) as (k & Wk). exists (n + k)%nat.
    apply (L_Graph.walk_app _ _ 2%nat); [exact Wn|]. now apply L_Graph.walk_sym. }
  intros (T & ST' & AL). inversion AL as [|? ? AL1 AL2]. subst. inversion AL2 as [|? ? AL3 _]. subst.
  destruct (proj2 (proj2 ST') 0%nat 1%nat ltac:(lia) ltac:(lia)) as (n & Wk). inversion Wk as [|u v w' k AD _]; subst.
  destruct AD as [I|I]; destruct (tree_neq 3 T ST' _ _ I) as (N & H1 & H2); specialize (AL1 _ _ I); specialize (AL3 _ _ I);
    destruct v as [|[|[|v]]]; try lia; vm_compute in AL1; vm_compute in AL3; discriminate.
Qed.
