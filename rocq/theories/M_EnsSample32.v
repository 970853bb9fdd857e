(** EnsembleServer.sample and sample_tree with float32 weights, treecat/serving.py:543-564.

    Simplifications: as in M_EnsembleServer.v; the members sample with real numbers
    (M_Serving32 and M_Sample32 have their float32 versions). *)
From Coq Require Import List Arith Bool ZArith Reals.
From Flocq Require Import IEEE754.BinarySingleNaN.
From Verif Require Import Base Spec_Sum M_Structure M_Rand M_Serving M_EnsembleServer M_Float32 M_Train32.
Import ListNotations.
Open Scope nat_scope.

(** serving.py:545 and 557: [np.ones(size, dtype=np.float32) / size]. *)
Definition weights32 (size : nat) : list f32 := map (fun _ => fdiv fone (f32_of (Z.of_nat size) 0)) (seq 0 size).

(** [np.random.multinomial(n, pvals)] of a float32 array: it raises if the float64 Kahan sum of all
    but the last is above 1 + 1e-12; the last outcome has the rest of the probability.
    The binomial draws inside have exact probabilities here. *)
Definition multinomial32 (kahan : list R -> R) (n : nat) (pvals : list f32) : rprog (list nat) :=
  let head := map (@B2R 24 128) (removelast pvals) in
  if Rlt_dec (1 + / 10 ^ 12)%R (kahan head) then Fail ValueError
  else multinomial n (head ++ [(1 - rsum head)%R]).

(** serving.py:544-546 and 556-558. *)
Definition split_samples32 (kahan : list R -> R) (es : eserver) (n : nat) : rprog (list nat) :=
  multinomial32 kahan n (weights32 (length (es_members es))).

(** serving.py:543-552 [sample_tree]. *)
Definition ens_sample_tree32 (kahan : list R -> R) (es : eserver) (num_samples : nat) : rprog (list (list (nat * nat))) :=
  (sub_nums <~ split_samples32 kahan es num_samples ;;
   parts <~ rmap (fun '(s, sub_num) => server_sample_tree s sub_num) (combine (es_members es) sub_nums) ;;
   shuffled [] num_samples (concat parts))%rp.

(** serving.py:554-564 [sample]. *)
Definition ens_sample32 (kahan : list R -> R) (es : eserver) (N : nat) (counts : list Z) (data : option (list Z)) : rprog (list (list Z)) :=
  (sub_Ns <~ split_samples32 kahan es N ;;
   parts <~ rmap (fun '(s, sub_N) => sample s sub_N counts data) (combine (es_members es) sub_Ns) ;;
   shuffled [] N (concat parts))%rp.
