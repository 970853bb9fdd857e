(** What plotting.py would do once contract_positions were repaired. *)
From Coq Require Import List Arith Reals.
From Verif Require Import Base M_Plot.
Import ListNotations.
Open Scope list_scope.

(** numpy's [np.add.at(a, index, d)]: each addition sees the ones before it. *)
Definition add_at (a : list point) (index : list nat) (d : list point) : result (list point) :=
  foldM (fun a '(i, x) => p <- get IndexError a i ;; put IndexError a i (padd p x)) (combine index d) a.

(** plotting.py:109-136 [contract_positions] with lines 134-135 changed to
      np.add.at(new, tails, stepsize * diff)
      np.subtract.at(new, heads, stepsize * diff)
    and, before line 120,
      if len(edges) == 0:
          return XY.copy()  *)
Definition repaired_contract_positions (XY : list point) (edges : list (nat * nat)) (stepsize : R) : result (list point) :=
  if length edges =? 0 then Ok XY
  else
    let V := length edges + 1 in
    _ <- assert_ (length XY =? V) ;;
    let heads := map fst edges in
    let tails := map snd edges in
    at_heads <- index_get XY heads ;;
    at_tails <- index_get XY tails ;;
    let diff := map (fun '(p, q) => psub p q) (combine at_heads at_tails) in
    let distances := map norm2 diff in
    spacing <- array_min distances ;;
    _ <- assert_ (if Rlt_dec 0 spacing then true else false) ;;
    let diff := map (fun '(p, d) => pscale spacing (pscale (/ d) p)) (combine diff distances) in
    new <- add_at XY tails (map (pscale stepsize) diff) ;;
    add_at new heads (map (fun p => pscale (-1) (pscale stepsize p)) diff).
