(** Model of [sample_tree], treecat/structure.py:364-428.

    Logits are extended reals: [Some x] is the float [x], [None] is [-inf]
    (which a schema's groups section can put into the edge prior).  NaN and
    [+inf] logits are not modelled.  The counters and histograms
    (structure.py:387, 404-405, 416-424) are in M_Profile.v. *)
From Coq Require Import List Reals Arith.
From Verif Require Import Base Spec_Sum M_Structure M_Rand.
Import ListNotations.
Open Scope R_scope.
Open Scope rprog_scope.

(** [valid_probs.max()] (structure.py:410); numpy raises ValueError on an empty array. *)
Definition emax2 (x y : option R) : option R :=
  match x, y with
  | None, y => y
  | x, None => x
  | Some x, Some y => Some (Rmax x y)
  end.
Definition emax (l : list (option R)) : option R := fold_right emax2 None l.

(** [np.exp(valid_probs - max)] for a finite maximum (structure.py:410-411). *)
Definition shift_exp (m : R) (x : option R) : R :=
  match x with None => 0 | Some x => exp (x - m) end.

(** structure.py:409-411.  When all logits are [-inf] every entry is NaN, so the
    total is NaN and the test [total_prob > 0] is false: modelled by [None]. *)
Definition valid_probs (lp : list (option R)) : result (option (list R)) :=
  match lp with
  | [] => Raise ValueError
  | _ => match emax lp with
         | None => Ok None
         | Some m => Ok (Some (map (shift_exp m) lp))
         end
  end.

(** e2k, neighbors, components, valid_edges *)
Definition st_state := (list nat * list (list nat) * list bool * list nat)%type.

(** structure.py:412-416: the choice of the replacement edge. *)
Definition choose_edge (w : option (list R)) (buf : list nat) (k1 : nat) : rprog nat :=
  match w with
  | Some w => if Rlt_dec 0 (rsum w) then Cat w (fun i => lift (get IndexError buf i)) else Ret k1
  | None => Ret k1
  end.

(** structure.py:406-418: the loop body for edge [e]. *)
Definition st_step (grid : list triple) (logits : list (option R)) (st : st_state) (e : nat) : rprog st_state :=
  let '(e2k, nb, comp, buf) := st in
  ' (k1, nb, comp) <~ lift (jit_remove_edge grid e2k nb comp e) ;;
  ' (n, buf) <~ lift (find_valid_edges comp buf) ;;
  lp <~ lift (mapM (get IndexError logits) (firstn n buf)) ;;
  w <~ lift (valid_probs lp) ;;
  k2 <~ choose_edge w buf k1 ;;
  ' (e2k, nb, comp) <~ lift (jit_add_edge grid e2k nb comp e k2) ;;
  Ret (e2k, nb, comp, buf).

(** structure.py:396-400: filling e2k and the adjacency sets. *)
Definition st_init (V : nat) (edges : list (nat * nat)) : result (list nat * list (list nat)) :=
  nb <- foldM (fun nb '(v1, v2) => nb <- jit_row_add nb v1 v2 ;; jit_row_add nb v2 v1)
              edges (repeat (repeat 0%nat V) V) ;;
  Ok (map (fun '(v1, v2) => find_complete_edge v1 v2) edges, nb).

(** structure.py:426: reading back the edges. *)
Definition st_edges (grid : list triple) (e2k : list nat) : result (list (nat * nat)) :=
  es <- mapM (fun k => ' (_, v1, v2) <- get IndexError grid k ;; Ok (v1, v2)) e2k ;;
  Ok (pair_sort es).

(** structure.py:364-428 [sample_tree]. *)
Definition sample_tree (grid : list triple) (logits : list (option R)) (edges : list (nat * nat))
  : rprog (list (nat * nat)) :=
  if (length edges <=? 1)%nat then Ret edges else
  let E := length edges in
  let V := (E + 1)%nat in
  let K := (V * (V - 1) / 2)%nat in
  ' (e2k, nb) <~ lift (st_init V edges) ;;
  Perm E (fun order =>
    ' (e2k, nb, comp, buf) <~ rfold (st_step grid logits) order (e2k, nb, repeat false V, repeat 0%nat K) ;;
    es <~ lift (st_edges grid e2k) ;;
    _ <~ lift (assert_ (length es =? E)%nat) ;;
    Ret es).
