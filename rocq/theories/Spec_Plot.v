(** What a plot of a tree shows. *)
From Coq Require Import String.
From Coq Require Import List Arith Bool Reals Permutation.
From Verif Require Import M_Plot.
Import ListNotations.
Open Scope list_scope.
Open Scope R_scope.

(** The distance of two points of the plane. *)
Definition apart (p q : point) : R := sqrt ((fst p - fst q) * (fst p - fst q) + (snd p - snd q) * (snd p - snd q)).

(** The [i]th of [V] evenly spaced points of the unit circle, half a step after the top. *)
Definition on_circle (V i : nat) : point :=
  let angle := 2 * PI * (INR i / INR V + 1 / (2 * INR V) + 1 / 4) in (cos angle, sin angle).

(** The vector of length [len] that points from [p] to [q]. *)
Definition toward (len : R) (p q : point) : point :=
  (len * (fst q - fst p) / apart p q, len * (snd q - snd p) / apart p q).

(** The last edge of the list that has the given end. *)
Definition last_with (end_ : nat * nat -> nat) (v : nat) (edges : list (nat * nat)) : option (nat * nat) :=
  find (fun e => (end_ e =? v)%nat) (rev edges).

(** [v] moved by [len] towards the other end of the last edge that has it as
    second end, and by [len] towards the other end of the last edge that has it as
    first end. *)
Definition pulled (len : R) (at_ : nat -> point) (edges : list (nat * nat)) (v : nat) : point :=
  let by_second := match last_with snd v edges with Some e => toward len (at_ v) (at_ (fst e)) | None => (0, 0) end in
  let by_first := match last_with fst v edges with Some e => toward len (at_ v) (at_ (snd e)) | None => (0, 0) end in
  (fst (at_ v) + fst by_second + fst by_first, snd (at_ v) + snd by_second + snd by_first).

(** The pulls on [v]: one by [len] along each of its edges. *)
Definition pulls (len : R) (at_ : nat -> point) (edges : list (nat * nat)) (v : nat) : list point :=
  flat_map (fun '(a, b) => if (a =? v)%nat then [toward len (at_ v) (at_ b)]
                           else if (b =? v)%nat then [toward len (at_ v) (at_ a)] else []) edges.
Definition pulled_by_all (len : R) (at_ : nat -> point) (edges : list (nat * nat)) (v : nat) : point :=
  let ps := pulls len at_ edges v in
  (fst (at_ v) + fold_right Rplus 0 (map fst ps), snd (at_ v) + fold_right Rplus 0 (map snd ps)).

(** [len] is the length of the shortest edge. *)
Definition shortest (XY : list point) (edges : list (nat * nat)) (len : R) : Prop :=
  (exists a b, In (a, b) edges /\ len = apart (nth a XY (0, 0)) (nth b XY (0, 0))) /\
  forall a b, In (a, b) edges -> len <= apart (nth a XY (0, 0)) (nth b XY (0, 0)).

(** The features are on the circle in the order [slots]. *)
Definition arranged (slots : list nat) (at_ : nat -> point) : Prop :=
  forall i v, nth_error slots i = Some v -> at_ v = on_circle (length slots) i.

(** A label beside the point [p]: shifted towards the axes, aligned outwards. *)
Definition labels (V : nat) (p : point) (t : text) : Prop :=
  let shift := PI / INR V in
  (0 < fst p -> tx_ha t = "left"%string /\ fst (tx_at t) = 1.06 * (fst p - shift)) /\
  (fst p <= 0 -> tx_ha t = "right"%string /\ fst (tx_at t) = 1.06 * (fst p + shift)) /\
  (0 < snd p -> tx_va t = "bottom"%string /\ snd (tx_at t) = 1.06 * (snd p - shift)) /\
  (snd p <= 0 -> tx_va t = "top"%string /\ snd (tx_at t) = 1.06 * (snd p + shift)).

(** A label reads along the ray from the centre through [p]: away from the centre
    if its left end is there, towards it if its right end is. *)
Definition radial (p : point) (t : text) : Prop :=
  let a := tx_rotation t * PI / 180 in
  (tx_ha t = "left"%string /\ (cos a, sin a) = p) \/ (tx_ha t = "right"%string /\ (cos a, sin a) = (- fst p, - snd p)).

Definition ends (c : curve) : point * point * option R := (cv_begin c, cv_end c, cv_alpha c).

(** The point at time [t] of the cubic Bezier curve. *)
Definition bezier (c : curve) (t : R) : point :=
  let at_time f := (1 - t) ^ 3 * f (cv_begin c) + 3 * (1 - t) ^ 2 * t * f (cv_c1 c) + 3 * (1 - t) * t ^ 2 * f (cv_c2 c) + t ^ 3 * f (cv_end c) in
  (at_time fst, at_time snd).
Definition in_circle (p : point) : Prop := fst p * fst p + snd p * snd p <= 1.

(** The curve leaves and arrives along the rays from the centre through its ends,
    the closer to the centre the farther its ends are apart. *)
Definition bends (V : nat) (c : curve) : Prop :=
  let d := apart (cv_begin c) (cv_end c) in
  let f := 1 - 2 / 3 * d + 1 / 6 * d ^ 2 - 1 / INR V in
  cv_c1 c = (f * fst (cv_begin c), f * snd (cv_begin c)) /\ cv_c2 c = (f * fst (cv_end c), f * snd (cv_end c)).

Definition has_edge (e : nat * nat) (tree : list (nat * nat)) : bool :=
  existsb (fun f => (fst e =? fst f) && (snd e =? snd f))%nat tree.

(** The figure shows the features at [place], each once, in the order [slots]:
    its name (the fainter the fewer rows observe it, along the ray from the centre)
    and its perplexities; the
    estimated tree as curves between the places; and each edge of a sampled tree
    once, its opacity the fraction of the samples that have it. *)
Record shows (names : list string) (density observed latent : list R) (tree : list (nat * nat)) (samples : list (list (nat * nat)))
             (slots : list nat) (place : nat -> point) (fig : figure) : Prop := {
  sh_slots : Permutation slots (seq 0 (length names));
  sh_names : map tx_name (fg_texts fig) = map (fun v => nth v names EmptyString) slots;
  sh_faint : map tx_alpha (fg_texts fig) = map (fun v => Some (1 / 4 + 3 / 4 * nth v density 0)) slots;
  sh_labels : Forall2 (fun v t => labels (length names) (place v) t) slots (fg_texts fig);
  sh_radial : forall i t, nth_error (fg_texts fig) i = Some t -> radial (on_circle (length names) i) t;
  sh_observed : fg_observed fig = map (fun v => Marker (1.03 * fst (place v), 1.03 * snd (place v)) (2 * nth v observed 0)) slots;
  sh_latent : fg_latent fig = map (fun v => Marker (place v) (2 * nth v latent 0)) slots;
  sh_spokes : fg_spokes fig = map (fun v => ((1.03 * fst (place v), 1.03 * snd (place v)), place v)) slots;
  sh_tree : map ends (fg_tree fig) = map (fun '(a, b) => (place a, place b, None)) tree;
  sh_sampled : exists es, NoDup es /\ (forall e, In e es <-> exists sample, In sample samples /\ In e sample) /\
    map ends (fg_sampled fig) = map (fun e => (place (fst e), place (snd e), Some (INR (length (filter (has_edge e) samples)) / INR (length samples)))) es;
  sh_bends : Forall (bends (length names)) (fg_tree fig ++ fg_sampled fig)
}.

(** A row of a table in which both features are present. *)
Definition both (u v : nat) (row : list bool) : bool := (nth u row false && nth v row false)%bool.
(** The image shows in how many rows each pair of features is present, the
    features in the order [slots]. *)
Definition overlap_shown (V : nat) (rows : list (list bool)) (slots : list nat) (image : list (list R)) : Prop :=
  Permutation slots (seq 0 V) /\ image = map (fun u => map (fun v => sqrt (INR (length (filter (both u v) rows)))) slots) slots.
