(** Model of treecat/serving.py:518-633, EnsembleServer.

    Simplifications: as in M_Serving.v; arrays of different lengths are never
    added (numpy would broadcast an array of length one, which cannot arise from
    models of one table). *)
From Coq Require Import List Arith Bool ZArith Reals.
From Verif Require Import Base Spec_Sum M_Structure M_Rand M_EstimateTree M_Util M_Training M_Serving.
Import ListNotations.
Open Scope nat_scope.

Record eserver := ESrv {
  es_ri : list nat;                  (* _ragged_index *)
  es_members : list server;          (* _ensemble *)
  es_logits : list R;                (* _edge_logits *)
  es_est : list (nat * nat);         (* _estimated_tree *)
}.

(** [a += b] for arrays. *)
Definition add_arrays (a b : list R) : result (list R) :=
  if length a =? length b then Ok (map (fun '(x, y) => x + y)%R (combine a b)) else Raise ValueError.

(** serving.py:528-531, 596-600, 612-616, 629-633: the first array, [+=] the
    others, [/=] the number of arrays. *)
Definition average (arrays : list (list R)) : result (list R) :=
  match arrays with
  | [] => Raise IndexError
  | a :: rest => sum <- foldM add_arrays rest a ;; Ok (map (fun x => x / INR (length arrays))%R sum)
  end.

(** serving.py:521-534 [EnsembleServer.__init__]. *)
Definition ensemble_server (mst : list (list R) -> list (nat * nat)) (ensemble : list smodel) : result eserver :=
  match ensemble with
  | [] => Raise AssertionError
  | m0 :: _ =>
    members <- mapM (tree_server mst) ensemble ;;
    edge_logits <- average (map sv_logits members) ;;
    s0 <- get IndexError members 0 ;;
    grid <- make_complete_graph (sv_V s0) ;;
    est <- estimate_tree mst grid edge_logits ;;
    Ok (ESrv (d_ri m0) members edge_logits est)
  end.

(** [np.random.multinomial(n, pvals)]: the numbers of times that each of the
    outcomes comes up in [n] draws. *)
Definition multinomial (n : nat) (pvals : list R) : rprog (list nat) :=
  rfold (fun nums _ => Cat pvals (fun i => Ret (upd nums i (S (nth i nums 0))))) (seq 0 n) (repeat 0 (length pvals)).

(** serving.py:544-546 and 556-558. *)
Definition split_samples (es : eserver) (n : nat) : rprog (list nat) :=
  let size := length (es_members es) in
  multinomial n (map (fun _ => (1 / INR size)%R) (seq 0 size)).

(** [np.random.shuffle(samples)], then [assert len(samples) == n]. *)
Definition shuffled {A} (d : A) (n : nat) (samples : list A) : rprog (list A) :=
  Perm (length samples) (fun s =>
    _ <~ lift (assert_ (length samples =? n)) ;;
    Ret (map (fun i => nth i samples d) s))%rp.

(** serving.py:543-552 [sample_tree]. *)
Definition ens_sample_tree (es : eserver) (num_samples : nat) : rprog (list (list (nat * nat))) :=
  (sub_nums <~ split_samples es num_samples ;;
   parts <~ rmap (fun '(s, sub_num) => server_sample_tree s sub_num) (combine (es_members es) sub_nums) ;;
   shuffled [] num_samples (concat parts))%rp.

(** serving.py:554-564 [sample]. *)
Definition ens_sample (es : eserver) (N : nat) (counts : list Z) (data : option (list Z)) : rprog (list (list Z)) :=
  (sub_Ns <~ split_samples es N ;;
   parts <~ rmap (fun '(s, sub_N) => sample s sub_N counts data) (combine (es_members es) sub_Ns) ;;
   shuffled [] N (concat parts))%rp.

(** [scipy.misc.logsumexp] of finite numbers (serving.py:10). *)
Definition logsumexp (a : list R) : R := (ln (sumf a (fun x => exp (x - rmax a))) + rmax a)%R.

(** serving.py:566-572 [logprob]. *)
Definition ens_logprob (es : eserver) (data : list (list Z)) : result (list R) :=
  logprobs <- mapM (fun s => logprob s data) (es_members es) ;;
  let N := length data in
  _ <- assert_ (forallb (fun lp => length lp =? N) logprobs) ;;
  Ok (map (fun n => logsumexp (map (fun lp => nth n lp 0%R) logprobs) - ln (INR (length (es_members es))))%R (seq 0 N)).

(** serving.py:574-576 [marginals] and 578-580 [mode]. *)
Definition ens_marginals (es : eserver) (data : list (list Z)) : result (list (list R)) := Raise NotImplementedError.
Definition ens_mode (es : eserver) (counts : list Z) (data : list (list Z)) : result (list (list Z)) := Raise NotImplementedError.

(** serving.py:118-147 [median], inherited from ServerBase. *)
Definition ens_median (es : eserver) (counts : list Z) (data : list (list Z)) : result (list (list Z)) :=
  R <- last_index (es_ri es) ;;
  _ <- assert_ (forallb (fun row => length row =? R) data) ;;
  marg <- ens_marginals es data ;;
  mapM (fun m => quantize_blocks (es_ri es) counts m (repeat 0%Z R)) marg.

(** serving.py:582-600 [observed_perplexity]. *)
Definition ens_observed_perplexity (es : eserver) (counts : option (list Z)) : result (list R) :=
  arrays <- mapM (fun s => observed_perplexity s counts) (es_members es) ;; average arrays.

(** serving.py:602-616 [latent_perplexity]. *)
Definition ens_latent_perplexity (es : eserver) : result (list R) :=
  average (map latent_perplexity (es_members es)).

(** serving.py:618-633 [latent_correlation]: the [V, V] arrays are averaged row
    by row.  Member [k] sees its own part of [junk]. *)
Definition ens_latent_correlation (es : eserver) (junk : nat -> nat -> nat -> nat -> nat -> R) : result (list (list R)) :=
  arrays <- mapM (fun '(k, s) => latent_correlation s (junk k)) (combine (seq 0 (length (es_members es))) (es_members es)) ;;
  s0 <- get IndexError (es_members es) 0 ;;
  mapM (fun v => rows <- mapM (fun a => get IndexError a v) arrays ;; average rows) (seq 0 (sv_V s0)).
