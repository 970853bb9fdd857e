(** A repair of [TreeCatServer.logprob]: /repo has no such version. *)
From Coq Require Import List Arith Bool ZArith Reals.
From Flocq Require Import IEEE754.BinarySingleNaN.
From Verif Require Import Base Spec_Sum M_Structure M_Array M_Util M_Training M_Serving M_Float32 M_Train32 M_Serving32.
Import ListNotations.
Open Scope nat_scope.

Section Lib.
Variable lib : numlib.

(** One observation of category [r] at serving.py:352-359, normalised as
    serving.py:366-368 does after OP_IN: [message *= feat_cond[r]],
    [message_sum = message.sum()], [message /= message_sum],
    [logprob += np.log(message_sum)]. *)
Definition repaired_factor32 (s : server32) (r : nat) (st : (nat -> f32) * f32) : (nat -> f32) * f32 :=
  let '(message, logprob) := st in
  let message := fun m => fmul (message m) (s3_feat s r m) in
  let message_sum := l_sum lib (vec (s3_M s) message) in
  (fun m => fdiv (message m) message_sum, fadd logprob (l_log lib message_sum)).

(** serving.py:352-359 with [message *= feat_cond[r] ** power] done one observation
    at a time. *)
Definition repaired_observe32 (s : server32) (row : list Z) (v : nat) (st : (nat -> f32) * f32) : result ((nat -> f32) * f32) :=
  beg <- get IndexError (s3_ri s) v ;; fin <- get IndexError (s3_ri s) (v + 1) ;;
  foldM (fun st r =>
           power <- get IndexError row r ;;
           Ok (Nat.iter (Z.to_nat power) (repaired_factor32 s r) st)) (seq beg (fin - beg)) st.

(** serving.py:350-372 with that change. *)
Fixpoint repaired_logprob_loop32 (s : server32) (row : list Z) (prog : list instr) (messages : nat -> nat -> f32) (logprob : f32) : result f32 :=
  match prog with
  | [] => Raise TypeError
  | I op v v2 e :: prog =>
    _ <- index (v <? s3_V s) ;;
    let message := messages v in
    match op with
    | OP_UP =>
      ' (message, logprob) <- repaired_observe32 s row v (message, logprob) ;;
      repaired_logprob_loop32 s row prog (set1 messages v message) logprob
    | OP_IN =>
      _ <- index ((v2 <? s3_V s) && (e <? s3_V s - 1)) ;;
      let trans := if v2 <? v then transpose (s3_trans s e) else s3_trans s e in
      let below := vec (s3_M s) (messages v2) in
      let message := fun m => fmul (message m) (l_dot lib (vec (s3_M s) (trans m)) below) in
      let message_sum := l_sum lib (vec (s3_M s) message) in
      repaired_logprob_loop32 s row prog (set1 messages v (fun m => fdiv (message m) message_sum)) (fadd logprob (l_log lib message_sum))
    | OP_ROOT => Ok (fadd logprob (l_log lib (l_sum lib (vec (s3_M s) message))))
    | _ => repaired_logprob_loop32 s row prog messages logprob
    end
  end.

(** serving.py:323-372 with that change. *)
Definition repaired_logprob_row32 (s : server32) (row : list Z) : result f32 :=
  _ <- assert_ (length row =? s3_R s) ;;
  repaired_logprob_loop32 s row (s3_prog s) (s3_vert s) fzero.

End Lib.

(** ** The same in exact arithmetic *)

Definition repaired_factor (s : server) (r : nat) (st : (nat -> R) * R) : (nat -> R) * R :=
  let '(message, logprob) := st in
  let message := fun m => (message m * sv_feat s r m)%R in
  let message_sum := rsum (vec (sv_M s) message) in
  (fun m => (message m / message_sum)%R, (logprob + ln message_sum)%R).

Definition repaired_observe (s : server) (row : list Z) (v : nat) (st : (nat -> R) * R) : result ((nat -> R) * R) :=
  beg <- get IndexError (sv_ri s) v ;; fin <- get IndexError (sv_ri s) (v + 1) ;;
  foldM (fun st r =>
           power <- get IndexError row r ;;
           Ok (Nat.iter (Z.to_nat power) (repaired_factor s r) st)) (seq beg (fin - beg)) st.

(** serving.py:350-372 with that change. *)
Fixpoint repaired_logprob_loop (s : server) (row : list Z) (prog : list instr) (messages : nat -> nat -> R) (logprob : R) : result R :=
  match prog with
  | [] => Raise TypeError
  | I op v v2 e :: prog =>
    _ <- index (v <? sv_V s) ;;
    let message := messages v in
    match op with
    | OP_UP =>
      ' (message, logprob) <- repaired_observe s row v (message, logprob) ;;
      repaired_logprob_loop s row prog (set1 messages v message) logprob
    | OP_IN =>
      _ <- index ((v2 <? sv_V s) && (e <? sv_V s - 1)) ;;
      let trans := oriented s e (v2 <? v) in
      let message := fun m => (message m * dot (sv_M s) trans (messages v2) m)%R in
      let message_sum := rsum (vec (sv_M s) message) in
      repaired_logprob_loop s row prog (set1 messages v (fun m => message m / message_sum)%R) (logprob + ln message_sum)%R
    | OP_ROOT => Ok (logprob + ln (rsum (vec (sv_M s) message)))%R
    | _ => repaired_logprob_loop s row prog messages logprob
    end
  end.

Definition repaired_logprob_row (s : server) (row : list Z) : result R :=
  _ <- assert_ (length row =? sv_R s) ;;
  repaired_logprob_loop s row (sv_prog s) (sv_vert s) 0.
