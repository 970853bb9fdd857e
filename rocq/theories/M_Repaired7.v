(** A repair of [treecat_add_cell]: /repo has no such version. *)
From Coq Require Import List Arith Bool ZArith Reals.
From Flocq Require Import IEEE754.BinarySingleNaN.
From Verif Require Import Base Spec_Sum M_Structure M_Rand M_Array M_Util M_Training M_Float32 M_Train32.
Import ListNotations.
Open Scope nat_scope.

(** training.py:302-305 followed by [message /= message.max()], as treecat_add_row
    does after OP_IN at training.py:349. *)
Definition repaired_draw32 (M v r : nat) (st : (nat -> f32) * (nat -> nat -> f32) * (nat -> nat -> f32)) :=
  let '(message, feat_probs, meas_probs) := cell_draw32 v r st in
  (rescaled M message, feat_probs, meas_probs).

(** training.py:300-305. *)
Definition repaired_category32 (M v : nat) (st : (nat -> f32) * (nat -> nat -> f32) * (nat -> nat -> f32)) (rc : nat * Z) :=
  Nat.iter (Z.to_nat (snd rc)) (repaired_draw32 M v (fst rc)) st.

(** training.py:288-307 [treecat_add_cell] with that change. *)
Definition repaired_add_cell32 (M : nat) : cell_fun := fun feature_type ri data_row v st =>
  if feature_type =? TY_MULTINOMIAL then
    (beg <- get OutOfBounds ri v ;;
     fin <- get OutOfBounds ri (v + 1) ;;
     Ok (fold_left (repaired_category32 M v) (combine (seq beg (fin - beg)) (slice data_row beg fin)) st))%res
  else Raise NotImplementedError.

Definition repaired_add_row32 (dot : list f32 -> list f32 -> f32) (tb : table) (M : nat) :=
  add_row32_with (repaired_add_cell32 M) dot tb M.

(** ** The same in exact arithmetic *)

(** training.py:302-305 followed by [message /= message.max()]. *)
Definition repaired_draw (M v r : nat) (st : (nat -> R) * (nat -> nat -> R) * (nat -> nat -> R)) :=
  let '(message, feat_probs, meas_probs) := cell_draw v r st in
  (fun m => (message m / rmax (vec M message))%R, feat_probs, meas_probs).

Definition repaired_category (M v : nat) (st : (nat -> R) * (nat -> nat -> R) * (nat -> nat -> R)) (rc : nat * Z) :=
  Nat.iter (Z.to_nat (snd rc)) (repaired_draw M v (fst rc)) st.

(** training.py:288-307 [treecat_add_cell] with that change. *)
Definition repaired_add_cell (M feature_type : nat) (ri : list nat) (data_row : list Z) (v : nat)
  (st : (nat -> R) * (nat -> nat -> R) * (nat -> nat -> R)) :=
  if feature_type =? TY_MULTINOMIAL then
    (beg <- get OutOfBounds ri v ;;
     fin <- get OutOfBounds ri (v + 1) ;;
     Ok (fold_left (repaired_category M v) (combine (seq beg (fin - beg)) (slice data_row beg fin)) st))%res
  else Raise NotImplementedError.

Open Scope rprog_scope.

(** training.py:329-360: only OP_UP differs from [add_instr]. *)
Definition repaired_add_instr (types ri : list nat) (data_row : list Z) (V E M : nat)
  (vert_probs : nat -> nat -> R) (edge_probs : nat -> nat -> nat -> R)
  (st : (nat -> nat -> R) * (nat -> nat -> R) * (nat -> nat -> R) * (nat -> nat)) (i : instr)
  : rprog ((nat -> nat -> R) * (nat -> nat -> R) * (nat -> nat -> R) * (nat -> nat)) :=
  let '(I op v _ _) := i in
  match op with
  | OP_UP =>
    let '(messages, feat_probs, meas_probs, assignments) := st in
    _ <~ lift (check (v <? V)) ;;
    ty <~ lift (get OutOfBounds types v) ;;
    ' (message, feat_probs, meas_probs) <~
      lift (repaired_add_cell M ty ri data_row v (messages v, feat_probs, meas_probs)) ;;
    Ret (set1 messages v message, feat_probs, meas_probs, assignments)
  | _ => add_instr types ri data_row V E M vert_probs edge_probs st i
  end.

(** training.py:312-377 [treecat_add_row] and 524-548 [add_row]. *)
Definition repaired_add_row (tb : table) (M : nat) (s : tstate) (row_id : nat) : rprog (tstate * option exn) :=
  if set_mem row_id (s_added s) then Ret (s, Some AssertionError) else
  let V := num_cols tb in
  let vert_probs := fun v m => (IZR (s_vert s v m) + vert_prior)%R in
  let feat_probs := fun r m => (IZR (s_feat s r m) + feat_prior M)%R in
  let meas_probs := fun v m => (IZR (s_meas s v m) + meas_prior (tb_ri tb) M v)%R in
  data_row <~ lift (get IndexError (tb_rows tb) row_id) ;;
  ' (_, _, _, assignments) <~
    rfold (repaired_add_instr (tb_types tb) (tb_ri tb) data_row V (V - 1) M vert_probs (s_eprobs s))
      (s_prog s) (vert_probs, feat_probs, meas_probs, s_asg s row_id) ;;
  let s := TSt (s_tree s) (s_prog s) (set_add row_id (s_added s)) (set1 (s_asg s) row_id assignments)
               (s_vert s) (s_edge s) (s_feat s) (s_meas s) (s_eprobs s) in
  s <~ lift (update_stats V M 1 (tb_types tb) (tb_ri tb) data_row (ts_grid (s_tree s)) assignments s) ;;
  Ret (s, None).
