(** Model of treecat/plotting.py: contract_positions, plot_chord and
    plot_circular.

    A figure is the list of the things drawn: texts, markers, lines and Bezier
    curves with their coordinates, sizes and opacities.  Simplifications: exact
    real arithmetic; fonts, colours and line widths are left out; what has been
    drawn when an exception is raised is lost; a feature density that is nan makes
    an opacity [None]. *)
From Coq Require Import String Ascii.
From Coq Require Import List Arith Bool ZArith Reals.
From Verif Require Import Base M_Structure M_Rand M_Util M_Training M_Serving M_EnsembleServer M_Format M_DataServer M_EstimateTree.
Import ListNotations.
Open Scope list_scope.
Open Scope nat_scope.

Definition point := (R * R)%type.
Definition padd (p q : point) : point := (fst p + fst q, snd p + snd q)%R.
Definition psub (p q : point) : point := (fst p - fst q, snd p - snd q)%R.
Definition pscale (a : R) (p : point) : point := (a * fst p, a * snd p)%R.
Definition norm2 (p : point) : R := sqrt (fst p * fst p + snd p * snd p).

(** numpy's [a[index] = values] for an array of indices: written one after the other. *)
Definition index_set (a : list point) (index : list nat) (values : list point) : result (list point) :=
  foldM (fun a '(i, x) => put IndexError a i x) (combine index values) a.
(** [a[index]]. *)
Definition index_get {A} (a : list A) (index : list nat) : result (list A) := mapM (get IndexError a) index.
(** [a[index] += d], that is, [a[index] = a[index] + d]. *)
Definition index_add (a : list point) (index : list nat) (d : list point) : result (list point) :=
  old <- index_get a index ;; index_set a index (map (fun '(p, q) => padd p q) (combine old d)).

(** [array.min()]. *)
Definition array_min (l : list R) : result R :=
  match l with [] => Raise ValueError | x :: t => Ok (fold_left Rmin t x) end.

(** plotting.py:109-136 [contract_positions].  The array of no edges that
    plot_circular makes has the shape (0,). *)
Definition contract_positions (XY : list point) (edges : list (nat * nat)) (stepsize : R) : result (list point) :=
  let V := length edges + 1 in
  _ <- assert_ (negb (length edges =? 0)) ;;
  _ <- assert_ (length XY =? V) ;;
  let heads := map fst edges in
  let tails := map snd edges in
  at_heads <- index_get XY heads ;;
  at_tails <- index_get XY tails ;;
  let diff := map (fun '(p, q) => psub p q) (combine at_heads at_tails) in
  let distances := map norm2 diff in
  spacing <- array_min distances ;;
  _ <- assert_ (if Rlt_dec 0 spacing then true else false) ;;
  let diff := map (fun '(p, d) => pscale spacing (pscale (/ d) p)) (combine diff distances) in
  new <- index_add XY tails (map (pscale stepsize) diff) ;;
  index_add new heads (map (fun p => pscale (-1) (pscale stepsize p)) diff).

(** A Bezier curve: its four points and its opacity. *)
Record curve := Curve { cv_begin : point; cv_c1 : point; cv_c2 : point; cv_end : point; cv_alpha : option R }.
(** plotting.py:139-159 [plot_chord]. *)
Definition plot_chord (begin fin : point) (spacing : R) (alpha : option R) : curve :=
  let dist := norm2 (psub begin fin) in
  let f := (1 - 2 / 3 * dist + 1 / 6 * (dist * dist) - spacing)%R in
  Curve begin (pscale f begin) (pscale f fin) fin alpha.

Record text := Text { tx_at : point; tx_name : string; tx_ha : string; tx_va : string; tx_rotation : R; tx_alpha : option R }.
Record marker := Marker { mk_at : point; mk_size : R }.
Record figure := Figure {
  fg_texts : list text;
  fg_observed : list marker;
  fg_latent : list marker;
  fg_spokes : list (point * point);
  fg_tree : list curve;
  fg_sampled : list curve
}.

(** collections.Counter: [counter[k] += 1], in order of insertion. *)
Fixpoint counter_add (c : list ((nat * nat) * nat)) (k : nat * nat) : list ((nat * nat) * nat) :=
  match c with
  | [] => [(k, 1)]
  | (k', n) :: t => if (fst k =? fst k') && (snd k =? snd k') then (k', S n) :: t else (k', n) :: counter_add t k
  end.

(** [order[v]] as an index: None is not one. *)
Definition order_at (order : list (option nat)) (v : nat) : result nat :=
  o <- get IndexError order v ;; match o with Some i => Ok i | None => Raise TypeError end.

(** plotting.py:192 *)
Definition slot_angle (V v : nat) : R := (2 * PI * ((INR v + 1 / 2) / INR V + 1 / 4))%R.

(** plotting.py:205-230, one label. *)
Definition plot_label (V : nat) (angle : R) (xy : point) (name : string) (alpha : option R) : text :=
  let adjust := (PI / INR V)%R in
  let rot := (angle * 360 / (2 * PI))%R in
  let '(x, y) := xy in
  let '(ha, rot, x) := if Rlt_dec 0 x then ("left"%string, rot, (x - adjust)%R) else ("right"%string, (rot - 180)%R, (x + adjust)%R) in
  let '(va, y) := if Rlt_dec 0 y then ("bottom"%string, (y - adjust)%R) else ("top"%string, (y + adjust)%R) in
  Text (106 / 100 * x, 106 / 100 * y)%R name ha va rot alpha.

(** plotting.py:162-254 [plot_circular], up to the sampling of trees, given the
    estimated tree and what the server says about the features. *)
Definition circular_base (iter : nat -> list nat -> list nat) (contract : R) (edges : list (nat * nat)) (names : list string)
  (density : list (option R)) (observed latent : list R) : result (list (option nat) * list point * figure) :=
  '(order, order_inv) <- order_vertices iter edges ;;
  edges <- mapM (fun '(v1, v2) => a <- order_at order v1 ;; b <- order_at order v2 ;; Ok (a, b)) edges ;;
  feature_names <- index_get names order_inv ;;
  feature_density <- index_get density order_inv ;;
  observed <- index_get observed order_inv ;;
  latent <- index_get latent order_inv ;;
  let alphas := map (option_map (fun x => 1 / 4 + 3 / 4 * x)%R) feature_density in
  let V := length feature_names in
  let angle := map (slot_angle V) (seq 0 V) in
  let XY := map (fun a => (cos a, sin a) : point) angle in
  XY <- (if Req_EM_T contract 0 then Ok XY else contract_positions XY edges contract) ;;
  let spacing := (1 / INR V)%R in
  texts <- mapM (fun '(v, name) =>
             xy <- get IndexError XY v ;; a <- get IndexError angle v ;; alpha <- get IndexError alphas v ;;
             Ok (plot_label V a xy name alpha)) (combine (seq 0 V) feature_names) ;;
  let R_obs := (103 / 100)%R in
  let obs := map (fun '(p, s) => Marker (pscale R_obs p) (2 * s)) (combine XY observed) in
  let lat := map (fun '(p, s) => Marker (pscale 1 p) (2 * s)) (combine XY latent) in
  let spokes := map (fun p => (pscale R_obs p, p)) XY in
  chords <- mapM (fun '(v1, v2) => p <- get IndexError XY v1 ;; q <- get IndexError XY v2 ;; Ok (plot_chord p q spacing None)) edges ;;
  Ok (order, XY, Figure texts obs lat spokes chords []).

(** plotting.py:248-254, the sampled edges. *)
Definition circular_samples (order : list (option nat)) (XY : list point) (fig : figure) (tree_samples : nat)
  (samples : list (list (nat * nat))) : result figure :=
  let edge_counts := fold_left (fun c sample => fold_left counter_add sample c) samples [] in
  let spacing := (1 / INR (length XY))%R in
  chords <- mapM (fun '((v1, v2), count) =>
              v1 <- order_at order v1 ;; v2 <- order_at order v2 ;;
              p <- get IndexError XY v1 ;; q <- get IndexError XY v2 ;;
              _ <- (if tree_samples =? 0 then Raise ZeroDivisionError else Ok tt) ;;
              Ok (plot_chord p q spacing (Some (INR count / INR tree_samples)%R))) edge_counts ;;
  Ok (Figure (fg_texts fig) (fg_observed fig) (fg_latent fig) (fg_spokes fig) (fg_tree fig) chords).

(** plotting.py:162-254 [plot_circular]. *)
Definition plot_circular (iter : nat -> list nat -> list nat) (d : dserver) (tree_samples : nat) (contract : R) : rprog figure :=
  (base <~ lift (density <- feature_density d ;;
                 observed <- data_observed_perplexity d ;;
                 latent <- data_latent_perplexity d ;;
                 circular_base iter contract (data_estimate_tree d) (data_feature_names d) density observed latent) ;;
   samples <~ data_sample_tree d tree_samples ;;
   let '(order, XY, fig) := base in
   lift (circular_samples order XY fig tree_samples samples))%rp.
