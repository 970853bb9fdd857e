(** A repair of [TreeCatServer.sample]: /repo has no such version. *)
From Coq Require Import List Arith Bool ZArith Reals.
From Flocq Require Import IEEE754.BinarySingleNaN.
From Verif Require Import Base Spec_Sum M_Structure M_Rand M_Array M_Util M_Training M_Float32 M_Train32 M_Serving M_Serving32 M_Sample32.
Import ListNotations.
Open Scope nat_scope.

(** serving.py:280-287 with [message *= feat_cond[r]] once per observation, each
    followed by [message /= message.max()] as after OP_IN at serving.py:295. *)
Definition repaired_observe_max32 : observe_fun := fun s row v message =>
  (beg <- get IndexError (s3_ri s) v ;; fin <- get IndexError (s3_ri s) (v + 1) ;;
   foldM (fun message r =>
            power <- get IndexError row r ;;
            Ok (Nat.iter (Z.to_nat power) (fun message => rescaled (s3_M s) (fun m => fmul (message m) (s3_feat s r m))) message))
     (seq beg (fin - beg)) message)%res.

(** serving.py:247-320 with that change. *)
Definition repaired_sample32 (lib : numlib) := sample32_with lib repaired_observe_max32.

(** ** The same in exact arithmetic *)

(** serving.py:280-287 with that change. *)
Definition repaired_observe_max (s : server) (row : list Z) (v : nat) (message : nat -> R) : result (nat -> R) :=
  (beg <- get IndexError (sv_ri s) v ;; fin <- get IndexError (sv_ri s) (v + 1) ;;
   foldM (fun message r =>
            power <- get IndexError row r ;;
            Ok (Nat.iter (Z.to_nat power)
                  (fun message => let message := fun m => (message m * sv_feat s r m)%R in
                                  fun m => (message m / rmax (vec (sv_M s) message))%R) message))
     (seq beg (fin - beg)) message)%res.

(** serving.py:278-318: only OP_UP differs from [sample_instr]. *)
Definition repaired_sample_instr (s : server) (N : nat) (counts data : list Z) (st : sstate) (i : instr) : rprog sstate :=
  let '(I op v _ _) := i in
  match op with
  | OP_UP =>
    let '(min, mout, vs, fs) := st in
    (_ <~ lift (index (v <? sv_V s)) ;;
     message <~ lift (repaired_observe_max s data v (min v)) ;;
     Ret (set1 min v message, mout, vs, fs))%rp
  | _ => sample_instr s N counts data st i
  end.

(** serving.py:247-320 with that change. *)
Definition repaired_sample (s : server) (N : nat) (counts : list Z) (data : option (list Z)) : rprog (list (list Z)) :=
  let data := match data with None => repeat 0%Z (sv_R s) | Some data => data end in
  (_ <~ lift (assert_ (length data =? sv_R s)) ;;
   _ <~ lift (assert_ (length counts =? sv_V s)) ;;
   ' (_, _, _, feat_samples) <~
     rfold (repaired_sample_instr s N counts data) (sv_prog s)
       (sv_vert s, fun v _ m => sv_vert s v m, fun _ _ => 0, fun _ _ => 0%Z) ;;
   Ret (map (fun n => map (feat_samples n) (seq 0 (sv_R s))) (seq 0 N)))%rp.
