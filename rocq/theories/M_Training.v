(** Model of the TreeCat trainer, treecat/training.py:37-60, 119-638.

    Simplifications: floats are reals; int32 counters are unbounded integers;
    [gammaln] is an argument [lg : R -> R]; logging, profiling and the SERIES
    counters are dropped; [prange] is in M_Parallel.v. *)
From Coq Require Import List Arith Bool ZArith QArith Qround Reals.
From Verif Require Import Base Spec_Sum M_Structure M_Rand M_Array M_SampleTree M_EstimateTree M_Util M_Schedule.
Import ListNotations.
Open Scope nat_scope.
Open Scope rprog_scope.

(** treecat/tables.py:11-13. *)
Definition TY_MULTINOMIAL : nat := 0.

(** treecat/tables.py:16-89 [Table]: feature types, ragged index, rows of data. *)
Record table := Tab { tb_types : list nat; tb_ri : list nat; tb_rows : list (list Z) }.
Definition num_rows (tb : table) : nat := length (tb_rows tb).
Definition num_cols (tb : table) : nat := length (tb_types tb).

(** The mutable attributes of a TreeCatTrainer (training.py:148-154, 486-521),
    except the temporaries [_vert_probs], [_feat_probs] and [_meas_probs], which
    [add_row] overwrites before reading. *)
Record tstate := TSt {
  s_tree : tree_structure;
  s_prog : list instr;
  s_added : list nat;                       (* _added_rows, a set *)
  s_asg : nat -> nat -> nat;                (* _assignments [N, V] *)
  s_vert : nat -> nat -> Z;                 (* _vert_ss [V, M] *)
  s_edge : nat -> nat -> nat -> Z;          (* _edge_ss [E, M, M] *)
  s_feat : nat -> nat -> Z;                 (* _feat_ss [R, M] *)
  s_meas : nat -> nat -> Z;                 (* _meas_ss [V, M] *)
  s_eprobs : nat -> nat -> nat -> R;        (* _edge_probs [E, M, M] *)
}.

(** training.py:497-503: Jeffreys priors. *)
Definition vert_prior : R := 1 / 2.
Definition edge_prior (M : nat) : R := 1 / 2 / INR M.
Definition feat_prior (M : nat) : R := 1 / 2 / INR M.
Definition meas_prior (ri : list nat) (M v : nat) : R :=
  (feat_prior M * INR (nth (v + 1) ri 0%nat - nth v ri 0%nat))%R.

(** training.py:302-305: one observation of category [r] (absolute position) of
    feature [v]; the vectors of length M are updated elementwise. *)
Definition cell_draw (v r : nat) (st : (nat -> R) * (nat -> nat -> R) * (nat -> nat -> R)) :=
  let '(message, feat_probs, meas_probs) := st in
  (fun m => message m * feat_probs r m / meas_probs v m,
   set1 feat_probs r (fun m => feat_probs r m + 1),
   set1 meas_probs v (fun m => meas_probs v m + 1))%R.

(** training.py:300-305: [for _ in range(count)]; negative counts do nothing. *)
Definition cell_category (v : nat) (st : (nat -> R) * (nat -> nat -> R) * (nat -> nat -> R)) (rc : nat * Z) :=
  Nat.iter (Z.to_nat (snd rc)) (cell_draw v (fst rc)) st.

(** training.py:288-307 [treecat_add_cell]. *)
Definition treecat_add_cell (feature_type : nat) (ri : list nat) (data_row : list Z) (v : nat)
  (st : (nat -> R) * (nat -> nat -> R) * (nat -> nat -> R)) :=
  if feature_type =? TY_MULTINOMIAL then
    (beg <- get OutOfBounds ri v ;;
     fin <- get OutOfBounds ri (v + 1) ;;
     Ok (fold_left (cell_category v) (combine (seq beg (fin - beg)) (slice data_row beg fin)) st))%res
  else Raise NotImplementedError.

(** training.py:329-360: one instruction of the program.  [V], [E], [M] are the
    shapes of the arrays. *)
Definition add_instr (types ri : list nat) (data_row : list Z) (V E M : nat)
  (vert_probs : nat -> nat -> R) (edge_probs : nat -> nat -> nat -> R)
  (st : (nat -> nat -> R) * (nat -> nat -> R) * (nat -> nat -> R) * (nat -> nat)) (i : instr)
  : rprog ((nat -> nat -> R) * (nat -> nat -> R) * (nat -> nat -> R) * (nat -> nat)) :=
  let '(messages, feat_probs, meas_probs, assignments) := st in
  let '(I op v v2 e) := i in
  _ <~ lift (check (v <? V)) ;;
  let message := messages v in
  match op with
  | OP_UP =>
    ty <~ lift (get OutOfBounds types v) ;;
    ' (message, feat_probs, meas_probs) <~
      lift (treecat_add_cell ty ri data_row v (message, feat_probs, meas_probs)) ;;
    Ret (set1 messages v message, feat_probs, meas_probs, assignments)
  | OP_IN =>
    _ <~ lift (check ((v2 <? V) && (e <? E))) ;;
    let trans := edge_probs e in
    let trans := if v2 <? v then transpose trans else trans in
    let message := fun m => (message m * sumf (seq 0 M) (fun m2 => trans m m2 * (messages v2 m2 / vert_probs v2 m2)))%R in
    let message := fun m => (message m / vert_probs v m)%R in
    let top := rmax (vec M message) in
    let message := fun m => (message m / top)%R in
    Ret (set1 messages v message, feat_probs, meas_probs, assignments)
  | OP_ROOT =>
    Cat (vec M message) (fun m => Ret (messages, feat_probs, meas_probs, set1 assignments v m))
  | OP_OUT =>
    _ <~ lift (check ((v2 <? V) && (e <? E) && (assignments v2 <? M))) ;;
    let trans := edge_probs e in
    let trans := if v <? v2 then transpose trans else trans in
    let message := fun m => (message m * trans (assignments v2) m)%R in
    let message := fun m => (message m / vert_probs v m)%R in
    Cat (vec M message) (fun m => Ret (set1 messages v message, feat_probs, meas_probs, set1 assignments v m))
  | OP_DOWN => Ret st
  end.

(** training.py:363-364 and 394-395. *)
Definition vert_update (V M : nat) (d : Z) (assignments : nat -> nat) (vert_ss : nat -> nat -> Z)
  : result (nat -> nat -> Z) :=
  foldM (fun vert_ss v =>
           let m := assignments v in
           _ <- check (m <? M) ;;
           Ok (set2 vert_ss v m (vert_ss v m + d)%Z)) (seq 0 V) vert_ss.

(** training.py:365-369 and 396-400. *)
Definition edge_update (V E M : nat) (d : Z) (grid : list triple) (assignments : nat -> nat)
  (st : (nat -> nat -> nat -> Z) * (nat -> nat -> nat -> R))
  : result ((nat -> nat -> nat -> Z) * (nat -> nat -> nat -> R)) :=
  foldM (fun '(edge_ss, edge_probs) e =>
           ' (_, v1, v2) <- get OutOfBounds grid e ;;
           _ <- check ((v1 <? V) && (v2 <? V)) ;;
           let m1 := assignments v1 in
           let m2 := assignments v2 in
           _ <- check ((e <? E) && (m1 <? M) && (m2 <? M)) ;;
           Ok (set3 edge_ss e m1 m2 (edge_ss e m1 m2 + d)%Z,
               set3 edge_probs e m1 m2 (edge_probs e m1 m2 + IZR d)%R)) (seq 0 (length grid)) st.

(** [a[beg:end, m] += x[beg:end]]. *)
Definition slice_add (a : nat -> nat -> Z) (beg fin m : nat) (x : nat -> Z) : nat -> nat -> Z :=
  fun r m' => if (beg <=? r) && (r <? fin) && (m' =? m) then (a r m' + x r)%Z else a r m'.

(** training.py:370-377 and 401-408. *)
Definition feat_update (V M : nat) (d : Z) (types ri : list nat) (data_row : list Z) (assignments : nat -> nat)
  (st : (nat -> nat -> Z) * (nat -> nat -> Z)) : result ((nat -> nat -> Z) * (nat -> nat -> Z)) :=
  foldM (fun '(feat_ss, meas_ss) v =>
           let m := assignments v in
           ty <- get OutOfBounds types v ;;
           if ty =? TY_MULTINOMIAL then
             beg <- get OutOfBounds ri v ;;
             fin <- get OutOfBounds ri (v + 1) ;;
             _ <- check (m <? M) ;;
             Ok (slice_add feat_ss beg fin m (fun r => d * nth r data_row 0)%Z,
                 set2 meas_ss v m (meas_ss v m + d * zsum (slice data_row beg fin))%Z)
           else Raise NotImplementedError) (seq 0 V) st.

(** training.py:362-377 with [d = 1], training.py:393-408 with [d = -1]. *)
Definition update_stats (V M : nat) (d : Z) (types ri : list nat) (data_row : list Z)
  (grid : list triple) (assignments : nat -> nat) (s : tstate) : result tstate :=
  vert <- vert_update V M d assignments (s_vert s) ;;
  ' (edge, eprobs) <- edge_update V (V - 1) M d grid assignments (s_edge s, s_eprobs s) ;;
  ' (feat, meas) <- feat_update V M d types ri data_row assignments (s_feat s, s_meas s) ;;
  Ok (TSt (s_tree s) (s_prog s) (s_added s) (s_asg s) vert edge feat meas eprobs).

(** training.py:312-377 [treecat_add_row] and 524-548 [add_row].  The second
    component is the exception seen by the caller, the first one the state it
    leaves behind; exceptions after the first assertion are [Fail]. *)
Definition add_row (tb : table) (M : nat) (s : tstate) (row_id : nat) : rprog (tstate * option exn) :=
  if set_mem row_id (s_added s) then Ret (s, Some AssertionError) else
  let V := num_cols tb in
  let vert_probs := fun v m => (IZR (s_vert s v m) + vert_prior)%R in
  let feat_probs := fun r m => (IZR (s_feat s r m) + feat_prior M)%R in
  let meas_probs := fun v m => (IZR (s_meas s v m) + meas_prior (tb_ri tb) M v)%R in
  data_row <~ lift (get IndexError (tb_rows tb) row_id) ;;
  ' (_, _, _, assignments) <~
    rfold (add_instr (tb_types tb) (tb_ri tb) data_row V (V - 1) M vert_probs (s_eprobs s))
      (s_prog s) (vert_probs, feat_probs, meas_probs, s_asg s row_id) ;;
  let s := TSt (s_tree s) (s_prog s) (set_add row_id (s_added s)) (set1 (s_asg s) row_id assignments)
               (s_vert s) (s_edge s) (s_feat s) (s_meas s) (s_eprobs s) in
  s <~ lift (update_stats V M 1 (tb_types tb) (tb_ri tb) data_row (ts_grid (s_tree s)) assignments s) ;;
  Ret (s, None).

(** training.py:382-408 [treecat_remove_row] and 551-566 [remove_row]. *)
Definition remove_row (tb : table) (M : nat) (s : tstate) (row_id : nat) : result (tstate * option exn) :=
  (if negb (set_mem row_id (s_added s)) then Ok (s, Some AssertionError) else
   let V := num_cols tb in
   added <- set_remove row_id (s_added s) ;;
   data_row <- get IndexError (tb_rows tb) row_id ;;
   let s := TSt (s_tree s) (s_prog s) added (s_asg s) (s_vert s) (s_edge s) (s_feat s) (s_meas s) (s_eprobs s) in
   s <- update_stats V M (-1) (tb_types tb) (tb_ri tb) data_row (ts_grid (s_tree s)) (s_asg s row_id) s ;;
   Ok (s, None))%res.

(** training.py:37-50 [count_pairs]; [rows] are the rows of the assignment
    matrix.  [reshape] raises ValueError if [bincount] is longer than M * M. *)
Definition count_pairs (rows : list (nat -> nat)) (v1 v2 M : nat) : result (nat -> nat -> Z) :=
  (_ <- assert_ (negb (v1 =? v2)) ;;
   let pairs := map (fun a : nat -> nat => a v1 * M + a v2) rows in
   if forallb (fun p => p <? M * M) pairs
   then Ok (fun m1 m2 => Z.of_nat (count_occ Nat.eq_dec pairs (m1 * M + m2)))
   else Raise ValueError)%res.

(** training.py:186-193 and 568-574 [set_edges]. *)
Definition set_edges (M : nat) (s : tstate) (edges : list (nat * nat)) : result (tstate * option exn) :=
  match ts_set_edges (s_tree s) edges with
  | Raise e => Ok (s, Some e)
  | Ok tree =>
    (prog <- make_propagation_program (ts_grid tree) None ;;
     let rows := map (s_asg s) (s_added s) in
     edge <- foldM (fun edge '(e, v1, v2) => c <- count_pairs rows v1 v2 M ;; Ok (set1 edge e c))
               (ts_grid tree) (s_edge s) ;;
     Ok (TSt tree prog (s_added s) (s_asg s) (s_vert s) edge (s_feat s) (s_meas s)
             (fun e m1 m2 => IZR (edge e m1 m2) + edge_prior M)%R, None))%res
  end.

(** training.py:130-154 and 469-521 [__init__]; the assertions on types and
    dtypes always hold. *)
Definition init_trainer (tb : table) (tree_prior : list R) (M : nat) : result tstate :=
  (let V := num_cols tb in
   let K := V * (V - 1) / 2 in
   _ <- assert_ (V <=? 2 ^ 15) ;;
   _ <- assert_ (length tree_prior =? K) ;;
   tree <- ts_init V ;;
   prog <- make_propagation_program (ts_grid tree) None ;;
   _ <- assert_ (M <=? 128) ;;
   Ok (TSt tree prog [] (fun _ _ => 0%nat) (fun _ _ => 0%Z) (fun _ _ _ => 0%Z) (fun _ _ => 0%Z) (fun _ _ => 0%Z)
           (fun _ _ _ => (0 + edge_prior M)%R)))%res.

(** training.py:53-60 [logprob_dc], summed over a list of counts. *)
Definition logprob_dc (lg : R -> R) (counts : list Z) (prior : R) : R :=
  sumf counts (fun c => lg (IZR c + prior)%R).

(** training.py:504-505: the table of gammaln values; reading beyond its N + 1
    entries is undefined behaviour. *)
Definition gammaln_table (lg : R -> R) (N M i : nat) : result R :=
  if i <=? N then Ok (lg (INR i + edge_prior M)%R) else Raise OutOfBounds.

(** training.py:412-420 [treecat_compute_edge_logit]; the argument is the list
    of pairs (assign1[n], assign2[n]). *)
Definition treecat_compute_edge_logit (lg : R -> R) (N M : nat) (assigns : list (nat * nat)) : result R :=
  (counts <- foldM (fun counts '(a1, a2) =>
              _ <- check ((a1 <? M) && (a2 <? M)) ;;
              Ok (set2 counts a1 a2 (counts a1 a2 + 1))) assigns (fun _ _ => 0) ;;
   foldM (fun acc m1 => foldM (fun acc m2 =>
            x <- gammaln_table lg N M (counts m1 m2) ;; Ok (acc + x)%R) (seq 0 M) acc) (seq 0 M) 0%R)%res.

(** training.py:440-452 [treecat_compute_edge_logits_seq]: the logit of column
    [k] of the grid. *)
Definition edge_logit_of (lg : R -> R) (N M V : nat) (rows : list (nat -> nat)) (vert_logits : nat -> R)
  (col : triple) : result R :=
  (let '(_, v1, v2) := col in
   _ <- check ((v1 <? V) && (v2 <? V)) ;;
   x <- treecat_compute_edge_logit lg N M (map (fun a : nat -> nat => (a v1, a v2)) rows) ;;
   Ok (x - vert_logits v1 - vert_logits v2)%R)%res.

Definition compute_edge_logits_seq (lg : R -> R) (N M V : nat) (grid : list triple) (rows : list (nat -> nat))
  (vert_logits : nat -> R) : result (list R) :=
  mapM (edge_logit_of lg N M V rows vert_logits) grid.

(** training.py:577-594 [compute_edge_logits].  Line 584 compares with V, the
    number of features, not with the number of rows. *)
Definition compute_edge_logits (lg : R -> R) (tb : table) (tree_prior : list R) (M : nat) (s : tstate)
  : result (list R) :=
  (let V := num_cols tb in
   let N := num_rows tb in
   let vert_logits := fun v => logprob_dc lg (vec M (s_vert s v)) vert_prior in
   let rows := if length (s_added s) =? V then map (s_asg s) (seq 0 N) else map (s_asg s) (s_added s) in
   grid <- make_complete_graph V ;;
   logits <- compute_edge_logits_seq lg N M V grid rows vert_logits ;;
   Ok (map (fun '(x, p) => x + p)%R (combine logits tree_prior)))%res.

(** training.py:596-612 [logprob]. *)
Definition logprob (lg : R -> R) (tb : table) (M : nat) (s : tstate) : result R :=
  (let V := num_cols tb in
   _ <- assert_ (length (s_added s) =? num_rows tb) ;;
   let vertex_logits := fun v => logprob_dc lg (vec M (s_vert s v)) vert_prior in
   let edges := sumf (ts_grid (s_tree s)) (fun '(e, v1, v2) =>
     logprob_dc lg (concat (vec M (fun m1 => vec M (s_edge s e m1)))) (edge_prior M)
     - vertex_logits v1 - vertex_logits v2)%R in
   let feats := sumf (seq 0 V) (fun v =>
     let beg := nth v (tb_ri tb) 0%nat in let fin := nth (v + 1)%nat (tb_ri tb) 0%nat in
     logprob_dc lg (concat (map (fun r => vec M (s_feat s r)) (seq beg (fin - beg)))) (feat_prior M)
     - logprob_dc lg (vec M (s_meas s v)) (meas_prior (tb_ri tb) M v))%R in
   Ok (sumf (seq 0 V) vertex_logits + edges + feats)%R)%res.

(** training.py:196-213 [TreeTrainer.sample_tree]. *)
Definition trainer_sample_tree (lg : R -> R) (tb : table) (tree_prior : list R) (M : nat) (s : tstate)
  : rprog (list (nat * nat)) :=
  grid <~ lift (make_complete_graph (ts_V (s_tree s))) ;;
  logits <~ lift (compute_edge_logits lg tb tree_prior M s) ;;
  _ <~ lift (assert_ (length logits =? length grid)) ;;
  sample_tree grid (map Some logits) (ts_get_edges (s_tree s)).

(** An exception reported by a trainer method ends the run of [train]. *)
Definition unless_raised (p : rprog (tstate * option exn)) : rprog tstate :=
  ' (s, x) <~ p ;; match x with None => Ret s | Some e => Fail e end.

(** training.py:258-259, 266-267. *)
Definition resample_tree (lg : R -> R) (tb : table) (tree_prior : list R) (M : nat) (s : tstate) : rprog tstate :=
  edges <~ trainer_sample_tree lg tb tree_prior M s ;;
  unless_raised (lift (set_edges M s edges)).

(** training.py:252-261. *)
Definition train_action (lg : R -> R) (tb : table) (tree_prior : list R) (M : nat) (s : tstate) (a : action)
  : rprog tstate :=
  match a with
  | AddRow r => unless_raised (add_row tb M s r)
  | RemoveRow r => unless_raised (lift (remove_row tb M s r))
  | SampleTree => resample_tree lg tb tree_prior M s
  end.

(** training.py:265-270. *)
Definition full_epoch (lg : R -> R) (tb : table) (tree_prior : list R) (M : nat) (s : tstate) : rprog tstate :=
  s <~ resample_tree lg tb tree_prior M s ;;
  rfold (fun s row_id => s <~ unless_raised (lift (remove_row tb M s row_id)) ;;
                         unless_raised (add_row tb M s row_id)) (seq 0 (num_rows tb)) s.

(** The configuration read by the trainer. *)
Record train_config := Cfg {
  c_clusters : nat;            (* model_num_clusters *)
  c_init_epochs : Q;           (* learning_init_epochs *)
  c_full_epochs : nat;         (* learning_full_epochs *)
  c_tree_rate : Q;             (* learning_sample_tree_rate *)
  c_estimate_tree : bool;      (* learning_estimate_tree *)
}.

(** A number of turns after which the schedule is over (theorem C16). *)
Definition sched_fuel (N : nat) (epochs : Q) : nat :=
  2 * Z.to_nat (Qceiling (inject_Z (Z.of_nat N) * epochs)).

(** training.py:231-284 and 614-638 [train], after construction and seeding;
    [mst] stands for scipy's minimum_spanning_tree.  The result is the final
    state (tree, assignments and statistics) and the edge logits. *)
Definition train (lg : R -> R) (mst : list (list R) -> list (nat * nat)) (tb : table) (tree_prior : list R)
  (cfg : train_config) (s : tstate) : rprog (tstate * list R) :=
  let M := c_clusters cfg in
  let N := num_rows tb in
  _ <~ lift (assert_ (length (s_added s) =? 0)) ;;
  Perm N (fun row_ids =>
    schedule <~ lift (make_annealing_schedule (sched_fuel N (c_init_epochs cfg)) row_ids
                        (c_init_epochs cfg) (c_tree_rate cfg)) ;;
    s <~ rfold (train_action lg tb tree_prior M) schedule s ;;
    _ <~ lift (assert_ (length (s_added s) =? N)) ;;
    s <~ rfold (fun s _ => full_epoch lg tb tree_prior M s) (seq 0 (c_full_epochs cfg)) s ;;
    _ <~ lift (assert_ (length (s_added s) =? N)) ;;
    grid <~ lift (make_complete_graph (ts_V (s_tree s))) ;;
    logits <~ lift (compute_edge_logits lg tb tree_prior M s) ;;
    edges <~ lift (estimate_tree mst grid logits) ;;
    s <~ (if c_estimate_tree cfg then unless_raised (lift (set_edges M s edges)) else Ret s) ;;
    Ret (s, logits)).
