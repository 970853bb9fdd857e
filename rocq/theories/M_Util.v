(** treecat/util.py (the parts not in M_Rand.v). *)
From Coq Require Import List Arith ZArith Reals.
From Verif Require Import Base Spec_Sum.
Import ListNotations.
Open Scope nat_scope.

(** Storing an integer into an int8 array: two's complement wrap-around. *)
Definition int8 (z : Z) : Z := ((z + 128) mod 256 - 128)%Z.

(** [x.argmax()] of a nonempty vector: the first index of a maximal entry. *)
Fixpoint argmax_from (best : R) (ibest i : nat) (l : list R) : nat :=
  match l with
  | [] => ibest
  | x :: t => if Rlt_dec best x then argmax_from x i (S i) t else argmax_from best ibest (S i) t
  end.
Definition argmax (l : list R) : result nat :=
  match l with [] => Raise ValueError | x :: t => Ok (argmax_from x 0 1 t) end.

(** util.py:123-126, one row, [k] remaining iterations. *)
Fixpoint quantize_loop (k resolution : nat) (probs : list R) (result : list Z) : Base.result (list Z) :=
  match k with
  | 0 => Ok result
  | S k =>
    sample <- argmax probs ;;
    c <- get IndexError result sample ;;
    result <- put IndexError result sample (int8 (c + 1)) ;;
    p <- get IndexError probs sample ;;
    probs <- put IndexError probs sample (p - 1 / INR resolution)%R ;;
    quantize_loop k resolution probs result
  end.

(** util.py:108-127 [quantize_from_probs2] on one row; the numpy code treats
    the rows independently.  Real arithmetic instead of floats. *)
Definition quantize_row (resolution : nat) (row : list R) : result (list Z) :=
  let probs := map (fun x => x / rsum row)%R row in
  quantize_loop resolution resolution probs (repeat 0%Z (length row)).

(** util.py:108-127 [quantize_from_probs2]. *)
Definition quantize_from_probs2 (probs : list (list R)) (resolution : nat) : result (list (list Z)) :=
  mapM (quantize_row resolution) probs.

(** util.py:130-145 [make_ragged_index], given the widths of the columns.  The
    int32 storage is modelled by unbounded naturals. *)
Fixpoint make_ragged_index_from (acc : nat) (widths : list nat) : list nat :=
  acc :: match widths with [] => [] | w :: t => make_ragged_index_from (acc + w) t end.
Definition make_ragged_index (widths : list nat) : list nat := make_ragged_index_from 0 widths.

(** [ragged_index[-1]]. *)
Definition last_index (ri : list nat) : result nat :=
  match ri with [] => Raise IndexError | _ => Ok (last ri 0) end.

(** Assigning [x] to the slice [beg:end] of a list, numpy clips the slice. *)
Definition fill_slice {A} (l : list A) (beg fin : nat) (x : A) : list A :=
  firstn beg l ++ repeat x (Nat.min fin (length l) - Nat.min beg (length l)) ++ skipn (Nat.max beg fin) l.

(** util.py:148-167 [make_ragged_mask].  [mask] lists one entry (of any shape)
    per column; [None] marks the uninitialised cells of [np.empty]. *)
Definition make_ragged_mask {A} (ri : list nat) (mask : list A) : result (list (option A)) :=
  let V := length ri - 1 in
  R <- last_index ri ;;
  _ <- assert_ (length mask =? V) ;;
  foldM (fun out v =>
    beg <- get IndexError ri v ;; fin <- get IndexError ri (v + 1) ;;
    m <- get IndexError mask v ;;
    Ok (fill_slice out beg fin (Some m)))
    (seq 0 V) (repeat None R).

Definition zsum (l : list Z) : Z := fold_right Z.add 0%Z l.

(** [data[beg:end]] of a row. *)
Definition slice {A} (l : list A) (beg fin : nat) : list A := firstn (fin - beg) (skipn beg l).

(** util.py:170-190 [count_observations]: one row.  The sum is computed in a
    wide integer and stored as int8. *)
Definition count_row (ri : list nat) (row : list Z) : result (list Z) :=
  mapM (fun v => beg <- get IndexError ri v ;; fin <- get IndexError ri (v + 1) ;;
                 Ok (int8 (zsum (slice row beg fin))))
    (seq 0 (length ri - 1)).

(** util.py:170-190.  [data.shape[1]] is the common row length [ncols]. *)
Definition count_observations (ri : list nat) (ncols : nat) (data : list (list Z)) : result (list (list Z)) :=
  R <- last_index ri ;;
  _ <- assert_ (ncols =? R) ;;
  mapM (count_row ri) data.

(** maximum over axis 0; ValueError on zero rows. *)
Definition zmax2 (a b : list Z) : list Z := map (fun '(x, y) => Z.max x y) (combine a b).
Definition col_max (rows : list (list Z)) : result (list Z) :=
  match rows with [] => Raise ValueError | r :: t => Ok (fold_left zmax2 t r) end.

(** util.py:193-207 [guess_counts]. *)
Definition guess_counts (ri : list nat) (ncols : nat) (data : list (list Z)) : result (list Z) :=
  counts <- count_observations ri ncols data ;; col_max counts.
