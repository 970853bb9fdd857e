(** Model of treecat/serving.py:37-515, TreeCatServer and the helpers.

    Simplifications: float32 arithmetic is real arithmetic; the matrix operations
    of [logprob] and [marginals] act on the N rows of the argument independently,
    and are written for one row; sampled classes are not stored in int8
    arrays, which is exact for at most 128 classes; dtype assertions, logging and
    [gc] (which drops a cache) are left out. *)
From Coq Require Import List Arith Bool ZArith Reals.
From Verif Require Import Base Spec_Sum M_Structure M_Rand M_Array M_EstimateTree M_SampleTree M_Util M_Training.
Import ListNotations.
Open Scope nat_scope.

(** An access to a numpy array from Python code: bad indices raise. *)
Definition index (b : bool) : result unit := if b then Ok tt else Raise IndexError.

(** scipy.stats.entropy (serving.py:11): the entropy of the normalised vector;
    [entr(x) = -x log(x)] with [entr(0) = 0]. *)
Definition entr (x : R) : R := if Req_EM_T x 0 then 0%R else (- (x * ln x))%R.
Definition entropy (pk : list R) : R := sumf (map (fun x => x / rsum pk)%R pk) entr.

(** serving.py:37-50 [correlation], for an M x M matrix. *)
Definition correlation (M : nat) (probs : nat -> nat -> R) : R :=
  let mutual_information :=
    (entropy (vec M (fun j => rsum (vec M (fun i => probs i j)))) +
     entropy (vec M (fun i => rsum (vec M (fun j => probs i j)))) -
     entropy (flat_map (fun i => vec M (probs i)) (seq 0 M)))%R in
  sqrt (1 - exp (-2 * mutual_information)).

(** [np.convolve(a, b)]. *)
Fixpoint vadd (a b : list R) : list R :=
  match a, b with [], b => b | a, [] => a | x :: a, y :: b => (x + y)%R :: vadd a b end.
Fixpoint convolve (a b : list R) : list R :=
  match a with
  | [] => []
  | [x] => map (Rmult x) b
  | x :: a => vadd (map (Rmult x) b) (0%R :: convolve a b)
  end.

(** serving.py:53-70 [multinomial_entropy]. *)
Fixpoint multi_loop (k : nat) (probs multi_probs : list R) : result (list R) :=
  match k with
  | 0 => Ok multi_probs
  | S k => if 2 <? length probs then Raise NotImplementedError
           else multi_loop k probs (convolve multi_probs probs)
  end.
Definition multinomial_entropy (probs : list R) (count : Z) : result R :=
  _ <- assert_ (0 <? count)%Z ;;
  multi_probs <- multi_loop (Z.to_nat count - 1) probs probs ;;
  Ok (entropy multi_probs).

(** The fields of a trained model that the server reads (serving.py:180-227;
    training.py:280-284 and 628-637). *)
Record smodel := SModel {
  d_tree : tree_structure;
  d_ri : list nat;                   (* suffstats.ragged_index *)
  d_vert : nat -> nat -> Z;          (* suffstats.vert_ss [V, M] *)
  d_edge : nat -> nat -> nat -> Z;   (* suffstats.edge_ss [E, M, M] *)
  d_feat : nat -> nat -> Z;          (* suffstats.feat_ss [R, M] *)
  d_M : nat;                         (* config.model_num_clusters *)
  d_logits : list R;                 (* edge_logits *)
}.

(** training.py:614-638: the model made from the final state of the trainer. *)
Definition model_of (tb : table) (M : nat) (s : tstate) (logits : list R) : smodel :=
  SModel (s_tree s) (tb_ri tb) (s_vert s) (s_edge s) (s_feat s) M logits.

Record server := Srv {
  sv_tree : tree_structure;
  sv_ri : list nat;
  sv_M : nat;
  sv_R : nat;
  sv_prog : list instr;              (* _program *)
  sv_vert : nat -> nat -> R;         (* _vert_probs [V, M] *)
  sv_edge : nat -> nat -> nat -> R;  (* _edge_probs [E, M, M] *)
  sv_trans : nat -> nat -> nat -> R; (* _edge_trans [E, M, M] *)
  sv_feat : nat -> nat -> R;         (* _feat_cond [R, M] *)
  sv_logits : list R;
  sv_est : list (nat * nat);         (* _estimated_tree *)
}.
Definition sv_V (s : server) : nat := ts_V (sv_tree s).

(** serving.py:199-205. *)
Definition vert_probs_of (M : nat) (ss : nat -> nat -> Z) : nat -> nat -> R :=
  let p := fun v m => (IZR (ss v m) + 1 / 2)%R in
  fun v m => (p v m / rsum (vec M (p v)))%R.
(** serving.py:206-207. *)
Definition edge_probs_of (M : nat) (ss : nat -> nat -> nat -> Z) : nat -> nat -> nat -> R :=
  let p := fun e m1 m2 => (IZR (ss e m1 m2) + 1 / 2 / INR M)%R in
  fun e m1 m2 => (p e m1 m2 / rsum (flat_map (fun m1 => vec M (p e m1)) (seq 0 M)))%R.

(** serving.py:211-214. *)
Definition edge_trans_of (V : nat) (grid : list triple) (vert : nat -> nat -> R) (edge_probs : nat -> nat -> nat -> R)
  : result (nat -> nat -> nat -> R) :=
  foldM (fun trans '(e, v1, v2) =>
           _ <- index ((e <? V - 1) && (v1 <? V) && (v2 <? V)) ;;
           Ok (set1 trans e (fun m1 m2 => trans e m1 m2 / vert v1 m1 / vert v2 m2)%R)) grid edge_probs.

(** serving.py:217-221; [feat_block] is a view. *)
Definition feat_cond_of (V M : nat) (ri : list nat) (ss : nat -> nat -> Z) : result (nat -> nat -> R) :=
  foldM (fun feat v =>
           beg <- get IndexError ri v ;; fin <- get IndexError ri (v + 1) ;;
           let tot := fun m => rsum (map (fun r => feat r m) (seq beg (fin - beg))) in
           Ok (fun r m => if (beg <=? r) && (r <? fin) then feat r m / tot m else feat r m)%R)
    (seq 0 V) (fun r m => (IZR (ss r m) + 1 / 2 / INR M)%R).

(** serving.py:169-227 [TreeCatServer.__init__]. *)
Definition tree_server (mst : list (list R) -> list (nat * nat)) (model : smodel) : result server :=
  let tree := d_tree model in
  let ri := d_ri model in
  prog <- make_propagation_program (ts_grid tree) None ;;
  let V := ts_V tree in
  let M := d_M model in
  R <- last_index ri ;;
  let vert := vert_probs_of M (d_vert model) in
  let edge_probs := edge_probs_of M (d_edge model) in
  trans <- edge_trans_of V (ts_grid tree) vert edge_probs ;;
  feat <- feat_cond_of V M ri (d_feat model) ;;
  grid <- make_complete_graph V ;;
  est <- estimate_tree mst grid (d_logits model) ;;
  Ok (Srv tree ri M R prog vert edge_probs trans feat (d_logits model) est).

(** serving.py:236-244 [sample_tree]: each sample starts from the previous one. *)
Fixpoint tree_samples (grid : list triple) (logits : list R) (edges : list (nat * nat)) (num_samples : nat)
  : rprog (list (list (nat * nat))) :=
  match num_samples with
  | 0 => Ret []
  | S k =>
    (edges <~ sample_tree grid (map Some logits) edges ;;
     rest <~ tree_samples grid logits edges k ;;
     Ret (edges :: rest))%rp
  end.
Definition server_sample_tree (s : server) (num_samples : nat) : rprog (list (list (nat * nat))) :=
  (grid <~ lift (make_complete_graph (sv_V s)) ;;
   tree_samples grid (sv_logits s) (sv_est s) num_samples)%rp.

(** serving.py:352-359 (and 401-408): multiply [message] by the likelihood of
    the cell of feature [v]. *)
Definition observe (s : server) (row : list Z) (v : nat) (message : nat -> R) : result (nat -> R) :=
  beg <- get IndexError (sv_ri s) v ;; fin <- get IndexError (sv_ri s) (v + 1) ;;
  foldM (fun message r =>
           power <- get IndexError row r ;;
           Ok (fun m => message m * powerRZ (sv_feat s r m) power)%R) (seq beg (fin - beg)) message.

(** [edge_trans[e]], transposed if [b]. *)
Definition oriented (s : server) (e : nat) (b : bool) : nat -> nat -> R :=
  if b then transpose (sv_trans s e) else sv_trans s e.

(** [np.dot(trans, message)]. *)
Definition dot (M : nat) (trans : nat -> nat -> R) (message : nat -> R) : nat -> R :=
  fun m => rsum (vec M (fun m2 => trans m m2 * message m2)%R).

(** serving.py:350-372, one row.  If the program had no OP_ROOT the method would
    return None, on which every arithmetic operation raises TypeError. *)
Fixpoint logprob_loop (s : server) (row : list Z) (prog : list instr) (messages : nat -> nat -> R) (logprob : R) : result R :=
  match prog with
  | [] => Raise TypeError
  | I op v v2 e :: prog =>
    _ <- index (v <? sv_V s) ;;
    let message := messages v in
    match op with
    | OP_UP =>
      message <- observe s row v message ;;
      logprob_loop s row prog (set1 messages v message) logprob
    | OP_IN =>
      _ <- index ((v2 <? sv_V s) && (e <? sv_V s - 1)) ;;
      let trans := oriented s e (v2 <? v) in
      let message := fun m => (message m * dot (sv_M s) trans (messages v2) m)%R in
      let message_sum := rsum (vec (sv_M s) message) in
      logprob_loop s row prog (set1 messages v (fun m => message m / message_sum)%R) (logprob + ln message_sum)%R
    | OP_ROOT => Ok (logprob + ln (rsum (vec (sv_M s) message)))%R
    | _ => logprob_loop s row prog messages logprob
    end
  end.

(** serving.py:323-372 [logprob]. *)
Definition logprob_row (s : server) (row : list Z) : result R :=
  _ <- assert_ (length row =? sv_R s) ;;
  logprob_loop s row (sv_prog s) (sv_vert s) 0.
Definition logprob (s : server) (data : list (list Z)) : result (list R) := mapM (logprob_row s) data.

(** ** sample, serving.py:247-320 *)

(** messages_in [V, M], messages_out [V, N, M], vert_samples [V, N],
    feat_samples [N, R]. *)
Definition sstate := ((nat -> nat -> R) * (nat -> nat -> nat -> R) * (nat -> nat -> nat) * (nat -> nat -> Z))%type.

(** serving.py:312: [vert_samples[v, :] = sample_from_probs2(message)]. *)
Definition draw_classes (M N : nat) (message : nat -> nat -> R) (v : nat) (vert_samples : nat -> nat -> nat)
  : rprog (nat -> nat -> nat) :=
  rfold (fun vs n => Cat (vec M (message n)) (fun m => Ret (set2 vs v n m))) (seq 0 N) vert_samples.

(** serving.py:317-318: [samples_block[range_N, sample_from_probs2(probs)] += 1],
    int8 arithmetic. *)
Definition draw_cells (s : server) (N beg fin : nat) (classes : nat -> nat) (feat_samples : nat -> nat -> Z)
  : rprog (nat -> nat -> Z) :=
  rfold (fun fs n => Cat (map (fun r => sv_feat s r (classes n)) (seq beg (fin - beg)))
                         (fun i => Ret (set2 fs n (beg + i) (int8 (fs n (beg + i) + 1)))))
    (seq 0 N) feat_samples.

(** serving.py:279-287: as [observe], skipping zero counts. *)
Definition observe_nonzero (s : server) (row : list Z) (v : nat) (message : nat -> R) : result (nat -> R) :=
  beg <- get IndexError (sv_ri s) v ;; fin <- get IndexError (sv_ri s) (v + 1) ;;
  foldM (fun message r =>
           power <- get IndexError row r ;;
           Ok (if (power =? 0)%Z then message else fun m => message m * powerRZ (sv_feat s r m) power)%R)
    (seq beg (fin - beg)) message.

(** serving.py:278-318, one instruction. *)
Definition sample_instr (s : server) (N : nat) (counts data : list Z) (st : sstate) (i : instr) : rprog sstate :=
  let '(min, mout, vs, fs) := st in
  let '(I op v v2 e) := i in
  let V := sv_V s in
  let M := sv_M s in
  (_ <~ lift (index (v <? V)) ;;
   match op with
   | OP_UP =>
     message <~ lift (observe_nonzero s data v (min v)) ;;
     Ret (set1 min v message, mout, vs, fs)
   | OP_IN =>
     _ <~ lift (index ((v2 <? V) && (e <? V - 1))) ;;
     let trans := oriented s e (v2 <? v) in
     let message := fun m => (min v m * dot M trans (min v2) m)%R in
     let top := rmax (vec M message) in
     Ret (set1 min v (fun m => message m / top)%R, mout, vs, fs)
   | OP_ROOT => Ret (min, set1 mout v (fun _ => min v), vs, fs)
   | OP_OUT =>
     _ <~ lift (index ((v2 <? V) && (e <? V - 1) && forallb (fun n => vs v2 n <? M) (seq 0 N))) ;;
     let trans := oriented s e (v <? v2) in
     let message := fun n m => (min v m * trans (vs v2 n) m)%R in
     Ret (min, set1 mout v (fun n m => message n m / rmax (vec M (message n)))%R, vs, fs)
   | OP_DOWN =>
     vs <~ draw_classes M N (mout v) v vs ;;
     beg <~ lift (get IndexError (sv_ri s) v) ;;
     fin <~ lift (get IndexError (sv_ri s) (v + 1)) ;;
     count <~ lift (get IndexError counts v) ;;
     _ <~ lift (index (forallb (fun n => vs v n <? M) (seq 0 N))) ;;
     fs <~ rfold (fun fs _ => draw_cells s N beg fin (vs v) fs) (seq 0 (Z.to_nat count)) fs ;;
     Ret (min, mout, vs, fs)
   end)%rp.

(** serving.py:247-320 [sample]. *)
Definition sample (s : server) (N : nat) (counts : list Z) (data : option (list Z)) : rprog (list (list Z)) :=
  let data := match data with None => repeat 0%Z (sv_R s) | Some data => data end in
  (_ <~ lift (assert_ (length data =? sv_R s)) ;;
   _ <~ lift (assert_ (length counts =? sv_V s)) ;;
   ' (_, _, _, feat_samples) <~
     rfold (sample_instr s N counts data) (sv_prog s)
       (sv_vert s, fun v _ m => sv_vert s v m, fun _ _ => 0, fun _ _ => 0%Z) ;;
   Ret (map (fun n => map (feat_samples n) (seq 0 (sv_R s))) (seq 0 N)))%rp.

(** ** marginals, serving.py:375-433, one row *)

(** [junk] is the content of [np.empty_like] (serving.py:396). *)
Definition marginals_instr (s : server) (row : list Z)
  (st : (nat -> nat -> R) * (nat -> nat -> R) * (nat -> R)) (i : instr)
  : result ((nat -> nat -> R) * (nat -> nat -> R) * (nat -> R)) :=
  let '(min, mout, res) := st in
  let '(I op v v2 e) := i in
  let V := sv_V s in
  let M := sv_M s in
  _ <- index (v <? V) ;;
  match op with
  | OP_UP =>
    message <- observe s row v (min v) ;;
    Ok (set1 min v message, set1 mout v message, res)
  | OP_IN =>
    _ <- index ((v2 <? V) && (e <? V - 1)) ;;
    let trans := oriented s e (v2 <? v) in
    let message := fun m => (min v m * dot M trans (min v2) m)%R in
    let top := rmax (vec M message) in
    Ok (set1 min v (fun m => message m / top)%R, mout, res)
  | OP_OUT =>
    _ <- index ((v2 <? V) && (e <? V - 1)) ;;
    let trans := oriented s e (v2 <? v) in
    let from_parent := dot M trans (mout v2) in
    Ok (set1 min v (fun m => min v m * from_parent m)%R, set1 mout v (fun m => mout v m * from_parent m)%R, res)
  | OP_DOWN =>
    beg <- get IndexError (sv_ri s) v ;; fin <- get IndexError (sv_ri s) (v + 1) ;;
    let marginal := fun r => rsum (vec M (fun m => sv_feat s r m * min v m)%R) in
    let tot := rsum (map marginal (seq beg (fin - beg))) in
    Ok (min, mout, fun r => if (beg <=? r) && (r <? fin) then (marginal r / tot)%R else res r)
  | OP_ROOT => Ok st
  end.

Definition marginals_row (s : server) (junk : nat -> nat -> R) (row : list Z) : result (list R) :=
  _ <- assert_ (length row =? sv_R s) ;;
  ' (_, _, res) <- foldM (marginals_instr s row) (sv_prog s) (sv_vert s, junk, fun _ => 0%R) ;;
  Ok (map res (seq 0 (sv_R s))).

(** serving.py:375-433 [marginals]; the n-th row sees its own part of [junk]. *)
Definition marginals (s : server) (junk : nat -> nat -> nat -> R) (data : list (list Z)) : result (list (list R)) :=
  mapM (fun '(n, row) => marginals_row s (junk n) row) (combine (seq 0 (length data)) data).

(** serving.py:118-147 [median], one row, given its marginals.  A negative
    resolution makes [quantize_from_probs2] draw nothing. *)
Definition quantize_blocks (ri : list nat) (counts : list Z) (marg : list R) (res : list Z) : result (list Z) :=
  foldM (fun res v =>
           beg <- get IndexError ri v ;; fin <- get IndexError ri (v + 1) ;;
           count <- get IndexError counts v ;;
           q <- quantize_row (Z.to_nat count) (slice marg beg fin) ;;
           Ok (firstn beg res ++ q ++ skipn fin res)%list) (seq 0 (length ri - 1)) res.

Definition median (s : server) (junk : nat -> nat -> nat -> R) (counts : list Z) (data : list (list Z)) : result (list (list Z)) :=
  _ <- assert_ (forallb (fun row => length row =? sv_R s) data) ;;
  marg <- marginals s junk data ;;
  mapM (fun m => quantize_blocks (sv_ri s) counts m (repeat 0%Z (sv_R s))) marg.

(** serving.py:439-463 [observed_perplexity]. *)
Definition observed_perplexity (s : server) (counts : option (list Z)) : result (list R) :=
  counts <- match counts with
            | Some _ => Ok (repeat 1%Z (sv_V s))
            | None => Raise AttributeError   (* None.shape *)
            end ;;
  _ <- assert_ (length counts =? sv_V s) ;;
  _ <- assert_ (forallb (fun c => 0 <? c)%Z counts) ;;
  mapM (fun v =>
          beg <- get IndexError (sv_ri s) v ;; fin <- get IndexError (sv_ri s) (v + 1) ;;
          let probs := map (fun r => dot (sv_M s) (fun r m => sv_feat s r m) (sv_vert s v) r) (seq beg (fin - beg)) in
          count <- get IndexError counts v ;;
          h <- multinomial_entropy probs count ;;
          Ok (exp h)) (seq 0 (sv_V s)).

(** serving.py:465-479 [latent_perplexity]. *)
Definition latent_perplexity (s : server) : list R :=
  map (fun v => exp (entropy (vec (sv_M s) (sv_vert s v)))) (seq 0 (sv_V s)).

(** serving.py:501-513: one instruction; [messages] is [V, M, M]. *)
Definition correlate_instr (s : server) (messages : nat -> nat -> nat -> R) (i : instr) : result (nat -> nat -> nat -> R) :=
  let '(I op v v2 e) := i in
  match op with
  | OP_ROOT =>
    _ <- index (v <? sv_V s) ;;
    Ok (set1 messages v (fun i j => if i =? j then sv_vert s v i else 0%R))
  | OP_OUT =>
    _ <- index ((v <? sv_V s) && (v2 <? sv_V s) && (e <? sv_V s - 1)) ;;
    let trans := if v2 <? v then transpose (sv_edge s e) else sv_edge s e in
    Ok (set1 messages v (fun i j => rsum (vec (sv_M s) (fun k => trans i k / sv_vert s v2 k * messages v2 k j)%R)))
  | _ => Ok messages
  end.

(** serving.py:482-515 [latent_correlation]; [junk] is the content of
    [np.empty] (serving.py:499). *)
Definition latent_correlation (s : server) (junk : nat -> nat -> nat -> nat -> R) : result (list (list R)) :=
  mapM (fun root =>
          prog <- make_propagation_program (ts_grid (sv_tree s)) (Some root) ;;
          messages <- foldM (correlate_instr s) prog (junk root) ;;
          Ok (map (fun v => correlation (sv_M s) (messages v)) (seq 0 (sv_V s)))) (seq 0 (sv_V s)).
