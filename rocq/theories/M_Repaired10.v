(** A repair of [TreeCatServer.marginals]: /repo has no such version. *)
From Coq Require Import List Arith Bool ZArith Reals.
From Flocq Require Import IEEE754.BinarySingleNaN.
From Verif Require Import Base Spec_Sum M_Structure M_Array M_Util M_Training M_Float32 M_Train32 M_Serving M_Serving32 M_Sample32 M_Repaired9 M_Marg32.
Import ListNotations.
Open Scope nat_scope.

(** serving.py:375-433 with [message /= message.max()] after each observation and,
    for both messages, after each step outward (serving.py:408 and 422). *)
Definition repaired_marginals_row32 (lib : numlib) := marginals_row32_with lib repaired_observe_max32 rescaled.

(** ** The same in exact arithmetic *)

(** [message /= message.max()]. *)
Definition rescaledR (M : nat) (message : nat -> R) : nat -> R := fun m => (message m / rmax (vec M message))%R.

(** serving.py:399-431: only OP_UP and OP_OUT differ from [marginals_instr]. *)
Definition repaired_marginals_instr (s : server) (row : list Z)
  (st : (nat -> nat -> R) * (nat -> nat -> R) * (nat -> R)) (i : instr) : result ((nat -> nat -> R) * (nat -> nat -> R) * (nat -> R)) :=
  let '(I op v v2 e) := i in
  match op with
  | OP_UP =>
    let '(min, mout, res) := st in
    _ <- index (v <? sv_V s) ;;
    message <- repaired_observe_max s row v (min v) ;;
    Ok (set1 min v message, set1 mout v message, res)
  | OP_OUT =>
    '(min, mout, res) <- marginals_instr s row st i ;;
    Ok (set1 min v (rescaledR (sv_M s) (min v)), set1 mout v (rescaledR (sv_M s) (mout v)), res)
  | _ => marginals_instr s row st i
  end.

(** serving.py:375-433 with that change. *)
Definition repaired_marginals_row (s : server) (junk : nat -> nat -> R) (row : list Z) : result (list R) :=
  _ <- assert_ (length row =? sv_R s) ;;
  ' (_, _, res) <- foldM (repaired_marginals_instr s row) (sv_prog s) (sv_vert s, junk, fun _ => 0%R) ;;
  Ok (map res (seq 0 (sv_R s))).
