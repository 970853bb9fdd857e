(** [TreeCatServer.marginals] in the arithmetic it runs in,
    treecat/serving.py:375-433, with float32 arrays.

    Simplifications: as in M_Serving.v and M_Serving32.v, except that floats are
    now floats. *)
From Coq Require Import List Arith Bool ZArith.
From Flocq Require Import IEEE754.BinarySingleNaN.
From Verif Require Import Base M_Structure M_Array M_Util M_Training M_Float32 M_Train32 M_Serving M_Serving32 M_Sample32.
Import ListNotations.
Open Scope nat_scope.

(** messages_in, messages_out and the result (serving.py:394-397). *)
Definition mstate32 := ((nat -> nat -> f32) * (nat -> nat -> f32) * (nat -> f32))%type.

Section Lib.
Variable lib : numlib.

(** serving.py:399-431, one instruction and one row.  [obs] is what OP_UP does to
    a message and [post] what follows a step outward; the code has one [obs] and
    no [post], repaired ones are in M_Repaired10.v. *)
Definition marginals_instr32_with (obs : observe_fun) (post : nat -> (nat -> f32) -> nat -> f32) (s : server32) (row : list Z)
  (st : mstate32) (i : instr) : result mstate32 :=
  let '(min, mout, res) := st in
  let '(I op v v2 e) := i in
  let V := s3_V s in
  let M := s3_M s in
  _ <- index (v <? V) ;;
  match op with
  | OP_UP =>
    message <- obs s row v (min v) ;;
    Ok (set1 min v message, set1 mout v message, res)
  | OP_IN =>
    _ <- index ((v2 <? V) && (e <? V - 1)) ;;
    let trans := if v2 <? v then transpose (s3_trans s e) else s3_trans s e in
    let below := vec M (min v2) in
    let message := fun m => fmul (min v m) (l_dot lib (vec M (trans m)) below) in
    Ok (set1 min v (rescaled M message), mout, res)
  | OP_OUT =>
    _ <- index ((v2 <? V) && (e <? V - 1)) ;;
    let trans := if v2 <? v then transpose (s3_trans s e) else s3_trans s e in
    let above := vec M (mout v2) in
    let from_parent := fun m => l_dot lib (vec M (trans m)) above in
    Ok (set1 min v (post M (fun m => fmul (min v m) (from_parent m))),
        set1 mout v (post M (fun m => fmul (mout v m) (from_parent m))), res)
  | OP_DOWN =>
    beg <- get IndexError (s3_ri s) v ;; fin <- get IndexError (s3_ri s) (v + 1) ;;
    let message := vec M (min v) in
    let marginal := fun r => l_dot lib (vec M (s3_feat s r)) message in
    let tot := l_sum lib (map marginal (seq beg (fin - beg))) in
    Ok (min, mout, fun r => if (beg <=? r) && (r <? fin) then fdiv (marginal r) tot else res r)
  | OP_ROOT => Ok st
  end.

(** serving.py:375-433 [marginals], one row; [junk] is the content of
    [np.empty_like] (serving.py:396). *)
Definition marginals_row32_with (obs : observe_fun) (post : nat -> (nat -> f32) -> nat -> f32) (s : server32) (junk : nat -> nat -> f32) (row : list Z)
  : result (list f32) :=
  _ <- assert_ (length row =? s3_R s) ;;
  ' (_, _, res) <- foldM (marginals_instr32_with obs post s row) (s3_prog s) (s3_vert s, junk, fun _ => fzero) ;;
  Ok (map res (seq 0 (s3_R s))).

(** serving.py:401-408: as [logprob], powers of zero counts included;
    serving.py:421-422: nothing follows a step outward. *)
Definition marginals_row32 := marginals_row32_with (observe32 lib) (fun _ message => message).

End Lib.
