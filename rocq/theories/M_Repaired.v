(** What the server would have to do differently: programs that differ from
    those of /repo in the one place where they go wrong. *)
From Coq Require Import List Arith ZArith Reals Bool.
From Verif Require Import Base M_Structure M_Rand M_Array M_Util M_Serving M_EnsembleServer.
Import ListNotations.
Open Scope R_scope.

(** serving.py:375-433 [marginals], one row, with another OP_OUT (lines
    415-422).  What the parent [v2] tells [v] is computed from the parent's
    final message, from which the contribution of [v] itself is divided out, in
    place of from [messages_out[v2]], which lacks the other children of [v2]:
      from_child = np.dot(trans.T, messages_in[v])
      message *= np.dot(trans, messages_in[v2] / from_child)  *)
Definition repaired_marginals_instr (s : server) (row : list Z)
  (st : (nat -> nat -> R) * (nat -> nat -> R) * (nat -> R)) (i : instr)
  : result ((nat -> nat -> R) * (nat -> nat -> R) * (nat -> R)) :=
  let '(I op v v2 e) := i in
  match op with
  | OP_OUT =>
    let '(min, mout, res) := st in
    let M := sv_M s in
    _ <- index (v <? sv_V s)%nat ;;
    _ <- index ((v2 <? sv_V s) && (e <? sv_V s - 1))%nat ;;
    let from_child := dot M (oriented s e (v <? v2)%nat) (min v) in
    let from_parent := dot M (oriented s e (v2 <? v)%nat) (fun m => min v2 m / from_child m) in
    Ok (set1 min v (fun m => min v m * from_parent m), mout, res)
  | _ => marginals_instr s row st i
  end.

Definition repaired_marginals_row (s : server) (junk : nat -> nat -> R) (row : list Z) : result (list R) :=
  _ <- assert_ (length row =? sv_R s)%nat ;;
  ' (_, _, res) <- foldM (repaired_marginals_instr s row) (sv_prog s) (sv_vert s, junk, fun _ => 0) ;;
  Ok (map res (seq 0 (sv_R s))).

(** serving.py:554-564 [EnsembleServer.sample] with other [pvals]: the members
    count by how well they predict the evidence,
      logprobs = [server.logprob(data)[0] for server in self._ensemble]
      pvals = np.exp(logprobs - logsumexp(logprobs))  *)
Definition repaired_ens_sample (es : eserver) (N : nat) (counts data : list Z) : rprog (list (list Z)) :=
  (logprobs <~ lift (mapM (fun s => lp <- logprob s [data] ;; get IndexError lp 0) (es_members es)) ;;
   sub_Ns <~ multinomial N (map (fun lp => exp (lp - logsumexp logprobs)) logprobs) ;;
   parts <~ rmap (fun '(s, sub_N) => sample s sub_N counts (Some data)) (combine (es_members es) sub_Ns) ;;
   shuffled [] N (concat parts))%rp.
