(** [DataServer.median] as it was meant. *)
From Coq Require Import String.
From Coq Require Import List Arith ZArith Reals Bool.
From Verif Require Import Base Spec_Sum M_Structure M_Rand M_Array M_Util M_Serving M_EnsembleServer M_Format M_DataServer M_Repaired.
Import ListNotations.
Open Scope R_scope.

(** serving.py:574-576 [EnsembleServer.marginals], one row, in place of raising
    NotImplementedError: the marginals of the members, each weighed by how well
    it predicts the row. *)
Definition repaired_ens_marginals_row (es : eserver) (junk : nat -> nat -> R) (row : list Z) : result (list R) :=
  logprobs <- mapM (fun s => lp <- logprob s [row] ;; get IndexError lp 0) (es_members es) ;;
  margs <- mapM (fun s => repaired_marginals_row s junk row) (es_members es) ;;
  size <- last_index (es_ri es) ;;
  Ok (map (fun q => sumf (combine logprobs margs) (fun '(lp, marg) => exp (lp - logsumexp logprobs) * nth q marg 0)) (seq 0 size)).

(** serving.py:756-768 [DataServer.median]: of a single dict, a single dict, with
    these marginals. *)
Definition repaired_data_median (d : dserver) (junk : nat -> nat -> R) (evidence : jrow) : result jrow :=
  imported <- import_rows (dv_schema d) (Rows [evidence]) ;;
  row <- get IndexError imported 0 ;;
  marg <- match dv_server d with
          | Single s => repaired_marginals_row s junk row
          | Many es => repaired_ens_marginals_row es junk row
          end ;;
  ncols <- last_index (sc_ri (dv_schema d)) ;;
  ri <- Ok (match dv_server d with Single s => sv_ri s | Many es => es_ri es end) ;;
  data <- quantize_blocks ri (dv_counts d) marg (repeat 0%Z ncols) ;;
  out <- export_rows (dv_schema d) ncols [data] ;;
  get IndexError out 0.
