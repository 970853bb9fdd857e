(** The trainer in the arithmetic it runs in, treecat/training.py:288-408 and
    466-575 and treecat/util.py:78-88, with float32 tables and messages.

    The integer statistics are those of M_Training.v; [np.dot] (BLAS) is an
    argument, because its order of summation is not specified.  Simplifications:
    as in M_Training.v, except that floats are now floats. *)
From Coq Require Import List Arith Bool ZArith.
From Flocq Require Import IEEE754.BinarySingleNaN.
From Verif Require Import Base M_Structure M_Array M_Util M_Training M_Float32.
Import ListNotations.
Open Scope nat_scope.

(** Programs whose draws come from float32 weights. *)
Inductive fprog (A : Type) : Type :=
| FRet (a : A)
| FFail (e : exn)
| FCat (w : list f32) (k : nat -> fprog A).
Arguments FRet {A} a.
Arguments FFail {A} e.
Arguments FCat {A} w k.

Fixpoint fbind {A B} (p : fprog A) (f : A -> fprog B) : fprog B :=
  match p with
  | FRet a => f a
  | FFail e => FFail e
  | FCat w k => FCat w (fun i => fbind (k i) f)
  end.
Definition flift {A} (r : result A) : fprog A := match r with Ok a => FRet a | Raise e => FFail e end.
Fixpoint ffold {A S} (f : S -> A -> fprog S) (l : list A) (s : S) : fprog S :=
  match l with [] => FRet s | a :: t => fbind (f s a) (fun s' => ffold f t s') end.

Declare Scope fprog_scope.
Delimit Scope fprog_scope with fp.
Notation "x <~ c1 ;; c2" := (fbind c1 (fun x => c2))
  (at level 61, c1 at next level, right associativity) : fprog_scope.
Notation "' p <~ c1 ;; c2" := (fbind c1 (fun x => let p := x in c2))
  (at level 61, p pattern, c1 at next level, right associativity) : fprog_scope.
Open Scope fprog_scope.

(** util.py:78-88 [sample_from_probs] on float32 weights: the cumulative sums are
    float32, [np.random.rand()] is the float64 [u], and numba compares as float64. *)
Fixpoint first_below (t : f64) (cdf : list f32) (i : nat) : option nat :=
  match cdf with [] => None | c :: cdf => if dltb t (to64 c) then Some i else first_below t cdf (S i) end.
Definition sample_from_probs32 (u : f64) (w : list f32) : result nat :=
  match w with
  | [] => Raise IndexError
  | _ =>
    let cdf := fcumsum fzero w in
    Ok (match first_below (dmul u (to64 (last cdf fzero))) cdf 0 with Some i => i | None => 0 end)
  end.

(** Running a program on the outputs of the generator. *)
Fixpoint frun {A} (us : list f64) (p : fprog A) {struct p} : result A :=
  match p with
  | FRet a => Ok a
  | FFail e => Raise e
  | FCat w k =>
    match us with
    | [] => Raise OutOfFuel
    | u :: us => (i <- sample_from_probs32 u w ;; frun us (k i))%res
    end
  end.

(** [message /= message.max()] on an array of M entries. *)
Definition rescaled (M : nat) (message : nat -> f32) : nat -> f32 :=
  let row := vec M message in
  let top := match row with [] => fzero | x :: l => fmax x l end in
  fun m => fdiv (nth m row fzero) top.

(** A trainer: the integers of M_Training.v, whose real-valued [s_eprobs] is not
    used here, and the float32 array [_edge_probs]. *)
Record trainer32 := T32 { t_state : tstate; t_eprobs : nat -> nat -> nat -> f32 }.

(** training.py:497-503: the priors are Python floats; [_meas_prior] is a float32
    array, product of the prior, as a float32, and the widths. *)
Definition vert_prior64 : f64 := f64_of 1 (-1).
Definition prior64 (M : nat) : f64 := ddiv (f64_of 1 (-1)) (f64_of (Z.of_nat M) 0).
Definition meas_prior32 (ri : list nat) (M v : nat) : f32 :=
  fmul (to32 (prior64 M)) (f32_of (Z.of_nat (nth (v + 1) ri 0 - nth v ri 0)) 0).

(** [np.add(int32 array, float, out=float32 array)] computes in float64. *)
Definition add_prior (n : Z) (prior : f64) : f32 := to32 (dadd (f64_of n 0) prior).

(** training.py:302-305.  Simplification: [+= 1] rounds once; through float64 it is
    the same, because x + 1 is exact in float64 for a float32 x in [2^-8, 2^22]. *)
Definition cell_draw32 (v r : nat) (st : (nat -> f32) * (nat -> nat -> f32) * (nat -> nat -> f32)) :=
  let '(message, feat_probs, meas_probs) := st in
  (fun m => fdiv (fmul (message m) (feat_probs r m)) (meas_probs v m),
   set1 feat_probs r (fun m => fadd (feat_probs r m) fone),
   set1 meas_probs v (fun m => fadd (meas_probs v m) fone)).

(** training.py:300-305. *)
Definition cell_category32 (v : nat) (st : (nat -> f32) * (nat -> nat -> f32) * (nat -> nat -> f32)) (rc : nat * Z) :=
  Nat.iter (Z.to_nat (snd rc)) (cell_draw32 v (fst rc)) st.

(** training.py:288-307 [treecat_add_cell]. *)
Definition treecat_add_cell32 (feature_type : nat) (ri : list nat) (data_row : list Z) (v : nat)
  (st : (nat -> f32) * (nat -> nat -> f32) * (nat -> nat -> f32)) :=
  if feature_type =? TY_MULTINOMIAL then
    (beg <- get OutOfBounds ri v ;;
     fin <- get OutOfBounds ri (v + 1) ;;
     Ok (fold_left (cell_category32 v) (combine (seq beg (fin - beg)) (slice data_row beg fin)) st))%res
  else Raise NotImplementedError.

(** A version of [treecat_add_cell]; the code has one, and a repaired one is in
    M_Repaired7.v. *)
Definition cell_fun : Type :=
  nat -> list nat -> list Z -> nat -> (nat -> f32) * (nat -> nat -> f32) * (nat -> nat -> f32) ->
  result ((nat -> f32) * (nat -> nat -> f32) * (nat -> nat -> f32)).

(** training.py:329-360. *)
Definition add_instr32_with (cell : cell_fun) (dot : list f32 -> list f32 -> f32) (types ri : list nat) (data_row : list Z) (V E M : nat)
  (vert_probs : nat -> nat -> f32) (edge_probs : nat -> nat -> nat -> f32)
  (st : (nat -> nat -> f32) * (nat -> nat -> f32) * (nat -> nat -> f32) * (nat -> nat)) (i : instr)
  : fprog ((nat -> nat -> f32) * (nat -> nat -> f32) * (nat -> nat -> f32) * (nat -> nat)) :=
  let '(messages, feat_probs, meas_probs, assignments) := st in
  let '(I op v v2 e) := i in
  _ <~ flift (check (v <? V)) ;;
  let message := messages v in
  match op with
  | OP_UP =>
    ty <~ flift (get OutOfBounds types v) ;;
    ' (message, feat_probs, meas_probs) <~
      flift (cell ty ri data_row v (message, feat_probs, meas_probs)) ;;
    FRet (set1 messages v message, feat_probs, meas_probs, assignments)
  | OP_IN =>
    _ <~ flift (check ((v2 <? V) && (e <? E))) ;;
    let trans := edge_probs e in
    let trans := if v2 <? v then transpose trans else trans in
    let below := vec M (fun m2 => fdiv (messages v2 m2) (vert_probs v2 m2)) in
    let message := fun m => fmul (message m) (dot (vec M (trans m)) below) in
    let message := fun m => fdiv (message m) (vert_probs v m) in
    let top := match vec M message with [] => fzero | x :: l => fmax x l end in
    let message := fun m => fdiv (message m) top in
    FRet (set1 messages v message, feat_probs, meas_probs, assignments)
  | OP_ROOT =>
    FCat (vec M message) (fun m => FRet (messages, feat_probs, meas_probs, set1 assignments v m))
  | OP_OUT =>
    _ <~ flift (check ((v2 <? V) && (e <? E) && (assignments v2 <? M))) ;;
    let trans := edge_probs e in
    let trans := if v <? v2 then transpose trans else trans in
    let message := fun m => fmul (message m) (trans (assignments v2) m) in
    let message := fun m => fdiv (message m) (vert_probs v m) in
    FCat (vec M message) (fun m => FRet (set1 messages v message, feat_probs, meas_probs, set1 assignments v m))
  | OP_DOWN => FRet st
  end.

Definition add_instr32 := add_instr32_with treecat_add_cell32.

(** training.py:365-369 and 396-400: [edge_probs[e, m1, m2] += 1] (or [-= 1]), in
    float64. *)
Definition eprobs_update32 (d : Z) (grid : list triple) (assignments : nat -> nat)
  (edge_probs : nat -> nat -> nat -> f32) : nat -> nat -> nat -> f32 :=
  fold_left (fun edge_probs e =>
    match nth_error grid e with
    | Some (_, v1, v2) =>
      let m1 := assignments v1 in
      let m2 := assignments v2 in
      set3 edge_probs e m1 m2 (to32 (dadd (to64 (edge_probs e m1 m2)) (f64_of d 0)))
    | None => edge_probs
    end) (seq 0 (length grid)) edge_probs.

(** training.py:312-377 [treecat_add_row] and 524-548 [add_row]. *)
Definition add_row32_with (cell : cell_fun) (dot : list f32 -> list f32 -> f32) (tb : table) (M : nat) (t : trainer32) (row_id : nat)
  : fprog (trainer32 * option exn) :=
  let s := t_state t in
  if set_mem row_id (s_added s) then FRet (t, Some AssertionError) else
  let V := num_cols tb in
  let vert_probs := fun v m => add_prior (s_vert s v m) vert_prior64 in
  let feat_probs := fun r m => add_prior (s_feat s r m) (prior64 M) in
  let meas_probs := fun v m => add_prior (s_meas s v m) (to64 (meas_prior32 (tb_ri tb) M v)) in
  data_row <~ flift (get IndexError (tb_rows tb) row_id) ;;
  ' (_, _, _, assignments) <~
    ffold (add_instr32_with cell dot (tb_types tb) (tb_ri tb) data_row V (V - 1) M vert_probs (t_eprobs t))
      (s_prog s) (vert_probs, feat_probs, meas_probs, s_asg s row_id) ;;
  let s := TSt (s_tree s) (s_prog s) (set_add row_id (s_added s)) (set1 (s_asg s) row_id assignments)
               (s_vert s) (s_edge s) (s_feat s) (s_meas s) (s_eprobs s) in
  s <~ flift (update_stats V M 1 (tb_types tb) (tb_ri tb) data_row (ts_grid (s_tree s)) assignments s) ;;
  FRet (T32 s (eprobs_update32 1 (ts_grid (s_tree s)) assignments (t_eprobs t)), None).

Definition add_row32 := add_row32_with treecat_add_cell32.

(** training.py:382-408 [treecat_remove_row] and 551-566 [remove_row]. *)
Definition remove_row32 (tb : table) (M : nat) (t : trainer32) (row_id : nat) : result (trainer32 * option exn) :=
  ' (s, x) <- remove_row tb M (t_state t) row_id ;;
  Ok (T32 s (match x with
             | Some _ => t_eprobs t
             | None => eprobs_update32 (-1) (ts_grid (s_tree s)) (s_asg s row_id) (t_eprobs t)
             end), x).

(** training.py:186-193 and 568-574 [set_edges]. *)
Definition set_edges32 (M : nat) (t : trainer32) (edges : list (nat * nat)) : result (trainer32 * option exn) :=
  ' (s, x) <- set_edges M (t_state t) edges ;;
  Ok (T32 s (match x with
             | Some _ => t_eprobs t
             | None => fun e m1 m2 => add_prior (s_edge s e m1 m2) (prior64 M)
             end), x).

(** training.py:469-521 [__init__]. *)
Definition init_trainer32 (tb : table) (tree_prior : list Rdefinitions.R) (M : nat) : result trainer32 :=
  s <- init_trainer tb tree_prior M ;;
  Ok (T32 s (fun e m1 m2 => add_prior (s_edge s e m1 m2) (prior64 M))).
