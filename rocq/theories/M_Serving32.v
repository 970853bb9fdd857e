(** The server's tables and [logprob] in the arithmetic they run in,
    treecat/serving.py:199-221 and 323-372, with float32 arrays.

    Simplifications: as in M_Serving.v, except that floats are now floats; each
    entry of a matrix product, and each sum along an axis, is computed by the same
    function of the two vectors, or of the vector, whatever its position. *)
From Coq Require Import List Arith Bool ZArith.
From Flocq Require Import IEEE754.BinarySingleNaN.
From Verif Require Import Base M_Structure M_Array M_Util M_Training M_Serving M_Float32 M_Train32.
Import ListNotations.
Open Scope nat_scope.

(** The functions of numpy and its C libraries whose result is not specified to
    the last bit: [np.dot], [a.sum()], [a ** n] for integers n, and [np.log]. *)
Record numlib := NumLib {
  l_dot : list f32 -> list f32 -> f32;
  l_sum : list f32 -> f32;
  l_pow : f32 -> Z -> f32;
  l_log : f32 -> f32;
}.

(** serving.py:169-221, the fields that [logprob] reads. *)
Record server32 := Srv32 {
  s3_V : nat;
  s3_ri : list nat;
  s3_M : nat;
  s3_R : nat;
  s3_prog : list instr;              (* _program *)
  s3_vert : nat -> nat -> f32;       (* _vert_probs [V, M] *)
  s3_trans : nat -> nat -> nat -> f32; (* _edge_trans [E, M, M] *)
  s3_feat : nat -> nat -> f32;       (* _feat_cond [R, M] *)
}.

Section Lib.
Variable lib : numlib.

(** [ss.astype(np.float32) + prior]: the Python float is rounded to float32. *)
Definition plus_prior (n : Z) (prior : f64) : f32 := fadd (f32_of n 0) (to32 prior).

(** serving.py:204-205. *)
Definition vert_probs32 (M : nat) (ss : nat -> nat -> Z) : nat -> nat -> f32 :=
  let p := fun v m => plus_prior (ss v m) vert_prior64 in
  fun v m => fdiv (p v m) (l_sum lib (vec M (p v))).
(** serving.py:206-207. *)
Definition edge_probs32 (M : nat) (ss : nat -> nat -> nat -> Z) : nat -> nat -> nat -> f32 :=
  let p := fun e m1 m2 => plus_prior (ss e m1 m2) (prior64 M) in
  fun e m1 m2 => fdiv (p e m1 m2) (l_sum lib (flat_map (fun m1 => vec M (p e m1)) (seq 0 M))).

(** serving.py:211-214: two divisions, each rounded. *)
Definition edge_trans32 (V : nat) (grid : list triple) (vert : nat -> nat -> f32) (edge_probs : nat -> nat -> nat -> f32)
  : result (nat -> nat -> nat -> f32) :=
  foldM (fun trans '(e, v1, v2) =>
           _ <- index ((e <? V - 1) && (v1 <? V) && (v2 <? V)) ;;
           Ok (set1 trans e (fun m1 m2 => fdiv (fdiv (trans e m1 m2) (vert v1 m1)) (vert v2 m2)))) grid edge_probs.

(** serving.py:217-221; [feat_block] is a view. *)
Definition feat_cond32 (V M : nat) (ri : list nat) (ss : nat -> nat -> Z) : result (nat -> nat -> f32) :=
  foldM (fun feat v =>
           beg <- get IndexError ri v ;; fin <- get IndexError ri (v + 1) ;;
           let tot := fun m => l_sum lib (map (fun r => feat r m) (seq beg (fin - beg))) in
           Ok (fun r m => if (beg <=? r) && (r <? fin) then fdiv (feat r m) (tot m) else feat r m))
    (seq 0 V) (fun r m => plus_prior (ss r m) (prior64 M)).

(** serving.py:169-221, without the fields used by other methods. *)
Definition tree_server32 (model : smodel) : result server32 :=
  let tree := d_tree model in
  let ri := d_ri model in
  prog <- make_propagation_program (ts_grid tree) None ;;
  let V := ts_V tree in
  let M := d_M model in
  R <- last_index ri ;;
  let vert := vert_probs32 M (d_vert model) in
  let edge_probs := edge_probs32 M (d_edge model) in
  trans <- edge_trans32 V (ts_grid tree) vert edge_probs ;;
  feat <- feat_cond32 V M ri (d_feat model) ;;
  Ok (Srv32 V ri M R prog vert trans feat).

(** serving.py:352-359. *)
Definition observe32 (s : server32) (row : list Z) (v : nat) (message : nat -> f32) : result (nat -> f32) :=
  beg <- get IndexError (s3_ri s) v ;; fin <- get IndexError (s3_ri s) (v + 1) ;;
  foldM (fun message r =>
           power <- get IndexError row r ;;
           Ok (fun m => fmul (message m) (l_pow lib (s3_feat s r m) power))) (seq beg (fin - beg)) message.

(** serving.py:350-372, one row. *)
Fixpoint logprob_loop32 (s : server32) (row : list Z) (prog : list instr) (messages : nat -> nat -> f32) (logprob : f32) : result f32 :=
  match prog with
  | [] => Raise TypeError
  | I op v v2 e :: prog =>
    _ <- index (v <? s3_V s) ;;
    let message := messages v in
    match op with
    | OP_UP =>
      message <- observe32 s row v message ;;
      logprob_loop32 s row prog (set1 messages v message) logprob
    | OP_IN =>
      _ <- index ((v2 <? s3_V s) && (e <? s3_V s - 1)) ;;
      let trans := if v2 <? v then transpose (s3_trans s e) else s3_trans s e in
      let below := vec (s3_M s) (messages v2) in
      let message := fun m => fmul (message m) (l_dot lib (vec (s3_M s) (trans m)) below) in
      let message_sum := l_sum lib (vec (s3_M s) message) in
      logprob_loop32 s row prog (set1 messages v (fun m => fdiv (message m) message_sum)) (fadd logprob (l_log lib message_sum))
    | OP_ROOT => Ok (fadd logprob (l_log lib (l_sum lib (vec (s3_M s) message))))
    | _ => logprob_loop32 s row prog messages logprob
    end
  end.

(** serving.py:323-372 [logprob], one row. *)
Definition logprob_row32 (s : server32) (row : list Z) : result f32 :=
  _ <- assert_ (length row =? s3_R s) ;;
  logprob_loop32 s row (s3_prog s) (s3_vert s) fzero.

End Lib.
