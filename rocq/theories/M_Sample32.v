(** [TreeCatServer.sample] in the arithmetic it runs in, treecat/serving.py:247-320
    and treecat/util.py:91-105, with float32 arrays.

    Simplifications: as in M_Serving.v and M_Serving32.v, except that floats are
    now floats. *)
From Coq Require Import List Arith Bool ZArith.
From Flocq Require Import IEEE754.BinarySingleNaN.
From Verif Require Import Base M_Structure M_Array M_Util M_Training M_Float32 M_Train32 M_Serving M_Serving32.
Import ListNotations.
Open Scope nat_scope.

(** messages_in, messages_out, vert_samples, feat_samples (serving.py:272-275). *)
Definition sstate32 := ((nat -> nat -> f32) * (nat -> nat -> nat -> f32) * (nat -> nat -> nat) * (nat -> nat -> Z))%type.

(** serving.py:312: [vert_samples[v, :] = sample_from_probs2(message)]; util.py:103-105
    draw one number per row, and compare as [sample_from_probs32] does. *)
Definition draw_classes32 (M N : nat) (message : nat -> nat -> f32) (v : nat) (vert_samples : nat -> nat -> nat)
  : fprog (nat -> nat -> nat) :=
  ffold (fun vs n => FCat (vec M (message n)) (fun m => FRet (set2 vs v n m))) (seq 0 N) vert_samples.

(** serving.py:317-318: [samples_block[range_N, sample_from_probs2(probs)] += 1],
    int8 arithmetic. *)
Definition draw_cells32 (s : server32) (N beg fin : nat) (classes : nat -> nat) (feat_samples : nat -> nat -> Z)
  : fprog (nat -> nat -> Z) :=
  ffold (fun fs n => FCat (map (fun r => s3_feat s r (classes n)) (seq beg (fin - beg)))
                          (fun i => FRet (set2 fs n (beg + i) (int8 (fs n (beg + i) + 1)))))
    (seq 0 N) feat_samples.

(** How OP_UP multiplies the evidence of feature [v] into its message; the code has
    one way, and a repaired one is in M_Repaired9.v. *)
Definition observe_fun : Type := server32 -> list Z -> nat -> (nat -> f32) -> result (nat -> f32).

Section Lib.
Variable lib : numlib.

(** serving.py:280-287. *)
Definition observe_nonzero32 : observe_fun := fun s row v message =>
  (beg <- get IndexError (s3_ri s) v ;; fin <- get IndexError (s3_ri s) (v + 1) ;;
   foldM (fun message r =>
            power <- get IndexError row r ;;
            Ok (if (power =? 0)%Z then message else fun m => fmul (message m) (l_pow lib (s3_feat s r m) power)))
     (seq beg (fin - beg)) message)%res.

(** serving.py:278-318, one instruction. *)
Definition sample_instr32_with (obs : observe_fun) (s : server32) (N : nat) (counts data : list Z) (st : sstate32) (i : instr) : fprog sstate32 :=
  let '(min, mout, vs, fs) := st in
  let '(I op v v2 e) := i in
  let V := s3_V s in
  let M := s3_M s in
  _ <~ flift (index (v <? V)) ;;
  match op with
  | OP_UP =>
    message <~ flift (obs s data v (min v)) ;;
    FRet (set1 min v message, mout, vs, fs)
  | OP_IN =>
    _ <~ flift (index ((v2 <? V) && (e <? V - 1))) ;;
    let trans := if v2 <? v then transpose (s3_trans s e) else s3_trans s e in
    let below := vec M (min v2) in
    let message := fun m => fmul (min v m) (l_dot lib (vec M (trans m)) below) in
    FRet (set1 min v (rescaled M message), mout, vs, fs)
  | OP_ROOT => FRet (min, set1 mout v (fun _ => min v), vs, fs)
  | OP_OUT =>
    _ <~ flift (index ((v2 <? V) && (e <? V - 1) && forallb (fun n => vs v2 n <? M) (seq 0 N))) ;;
    let trans := if v <? v2 then transpose (s3_trans s e) else s3_trans s e in
    FRet (min, set1 mout v (fun n => rescaled M (fun m => fmul (min v m) (trans (vs v2 n) m))), vs, fs)
  | OP_DOWN =>
    vs <~ draw_classes32 M N (mout v) v vs ;;
    beg <~ flift (get IndexError (s3_ri s) v) ;;
    fin <~ flift (get IndexError (s3_ri s) (v + 1)) ;;
    count <~ flift (get IndexError counts v) ;;
    _ <~ flift (index (forallb (fun n => vs v n <? M) (seq 0 N))) ;;
    fs <~ ffold (fun fs _ => draw_cells32 s N beg fin (vs v) fs) (seq 0 (Z.to_nat count)) fs ;;
    FRet (min, mout, vs, fs)
  end.

(** serving.py:247-320 [sample]. *)
Definition sample32_with (obs : observe_fun) (s : server32) (N : nat) (counts : list Z) (data : option (list Z)) : fprog (list (list Z)) :=
  let data := match data with None => repeat 0%Z (s3_R s) | Some data => data end in
  _ <~ flift (assert_ (length data =? s3_R s)) ;;
  _ <~ flift (assert_ (length counts =? s3_V s)) ;;
  ' (_, _, _, feat_samples) <~
    ffold (sample_instr32_with obs s N counts data) (s3_prog s)
      (s3_vert s, fun v _ m => s3_vert s v m, fun _ _ => 0, fun _ _ => 0%Z) ;;
  FRet (map (fun n => map (feat_samples n) (seq 0 (s3_R s))) (seq 0 N)).

Definition sample32 := sample32_with observe_nonzero32.

End Lib.
