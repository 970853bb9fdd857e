(** Property C79: the commands of profile.py. *)
From Coq Require Import String.
From Coq Require Import List Arith ZArith QArith Reals Permutation.
From Verif Require Import Base Spec_MST M_Structure M_Rand M_Util M_Config M_Training M_Ensemble M_Serving M_Generate M_Validate M_Workflow M_Main M_Commands
  Spec_Ensemble Spec_Serving Spec_Validate Spec_Commands.
From Verif Require M_Cache Spec_Cache L_Estimate L_Ensemble L_Validate2 L_Commands.
Import ListNotations.
Open Scope list_scope.
Open Scope nat_scope.

(** C79: unless a process was killed while it wrote a file, profile.py train trains one
    model of as many clusters as asked for, on a dataset of as many rows and columns
    as asked for. *)
Theorem C79_train_runs : forall g lg mst,
  draws_legally g -> mst_contract mst ->
  forall threads workers events st draws,
  counts_fit draws ->
  (forall i, (0 <= i < 4)%Z -> (exists x, np_seed g i = Ok x) /\ (exists x, jit_seed g i = Ok x)) ->
  forall h rows cols epochs clusters parallel tool,
  Spec_Cache.writes_finish h -> map snd events = [0] ->
  (1 <= cols <= 2 ^ 15)%Z -> (1 <= epochs)%Z -> (1 <= clusters <= 128)%Z -> In tool tools ->
  exists b tb m sm, Spec_Cache.near (M_Cache.Args rows cols 4 1) b /\ dataset_of draws b = Ok tb /\
    profile_train g lg mst threads workers events st draws (M_Cache.run h) rows cols epochs clusters parallel tool = Ret [m] /\
    server_model tb m = Ok sm /\ consistent (repeat 4 (Z.to_nat cols)) (Z.to_nat cols) (Z.to_nat clusters) (Z.to_nat rows) sm.
Proof. exact L_Commands.train_runs. Qed.
Print Assumptions C79_train_runs.

(** C79: and profile.py serve never raises: whatever is drawn, the server returns as many
    samples as there are rows, each with one observation of every feature, their log
    probabilities, their medians, and correlations from 0 to 1. *)
Theorem C79_serve_runs : forall g lg mst,
  draws_legally g -> mst_contract mst ->
  forall st draws, counts_fit draws ->
  forall junk junk4,
  (forall i, (0 <= i < 4)%Z -> (exists x, np_seed g i = Ok x) /\ (exists x, jit_seed g i = Ok x)) ->
  forall h rows cols cats tool,
  Spec_Cache.writes_finish h -> (1 <= cols <= 2 ^ 15)%Z -> (1 <= cats)%Z -> In tool tools ->
  let V := Z.to_nat cols in let ws := repeat (Z.to_nat cats) V in
  always (fun '(samples, lps, med, corr) =>
      length samples = Z.to_nat rows /\ (forall x, In x samples -> legal_row ws (repeat 1%Z V) x) /\
      length lps = Z.to_nat rows /\
      length med = Z.to_nat rows /\ (forall x, In x med -> legal_row ws (repeat 1%Z V) x) /\
      length corr = V /\ forall u v, u < V -> v < V -> (0 <= nth v (nth u corr []) 0 < 1)%R)
    (profile_serve g lg mst st draws junk junk4 (M_Cache.run h) rows cols cats tool).
Proof. exact L_Commands.serve_runs. Qed.
Print Assumptions C79_serve_runs.

(** C79: and profile.py eval, in whatever order its four models are trained, scores all
    of them. *)
Theorem C79_eval_runs : forall g lg mst,
  draws_legally g -> mst_contract mst ->
  forall st draws, counts_fit draws ->
  forall randint junk,
  (forall i, (0 <= i < 4)%Z -> (exists x, np_seed g i = Ok x) /\ (exists x, jit_seed g i = Ok x)) ->
  forall h order rows cols cats tool,
  Spec_Cache.writes_finish h -> rng_contract randint -> Permutation order (seq 0 4) ->
  (1 <= rows)%Z -> (1 <= cols <= 2 ^ 15)%Z -> In tool tools ->
  exists table result,
    profile_eval g lg mst st draws randint junk (M_Cache.run h) order rows cols cats tool = Ret (table, result) /\
    length table = 4 /\ length result = 4 /\ forall c r, In (c, r) result -> exists scores, r = Some scores.
Proof. exact L_Commands.eval_runs. Qed.
Print Assumptions C79_eval_runs.

(** C79: an unknown tool is refused with ValueError, after the files have been
    generated. *)
Theorem C79_unknown_tools_are_refused : forall g lg mst,
  draws_legally g -> mst_contract mst ->
  forall threads workers events st draws, counts_fit draws ->
  forall randint junk junk4,
  (forall i, (0 <= i < 4)%Z -> (exists x, np_seed g i = Ok x) /\ (exists x, jit_seed g i = Ok x)) ->
  forall h order rows cols cats epochs clusters parallel tool,
  Spec_Cache.writes_finish h -> ~ In tool tools ->
  profile_train g lg mst threads workers events st draws (M_Cache.run h) rows cols epochs clusters parallel tool = Fail ValueError /\
  profile_serve g lg mst st draws junk junk4 (M_Cache.run h) rows cols cats tool = Fail ValueError /\
  (rng_contract randint -> Permutation order (seq 0 4) -> (1 <= rows)%Z -> (1 <= cols <= 2 ^ 15)%Z ->
   profile_eval g lg mst st draws randint junk (M_Cache.run h) order rows cols cats tool = Fail ValueError).
Proof. exact L_Commands.bad_tool. Qed.
Print Assumptions C79_unknown_tools_are_refused.

(** C79: if the first process that generates the dataset is killed while it writes, train
    and eval fail, whatever is generated later, until the files are cleaned. *)
Theorem C79_after_a_killed_write_they_fail : forall g lg mst threads workers events st draws randint junk h order rows cols cats epochs clusters parallel tool,
  Spec_Cache.never_cleaned h -> In tool tools ->
  let s := M_Cache.run (M_Cache.GenData (M_Cache.Args rows cols 4 1) M_Cache.Writing :: h) in
  profile_train g lg mst threads workers events st draws s rows cols epochs clusters parallel tool = Fail EOFError /\
  profile_eval g lg mst st draws randint junk s order rows cols cats tool = Fail EOFError.
Proof. exact L_Commands.torn_commands. Qed.
Print Assumptions C79_after_a_killed_write_they_fail.

(** C79: and if the first process that generates the dataset or the model is killed while it writes
    either file, serve fails until the files are cleaned. *)
Theorem C79_after_a_killed_write_serve_fails : forall g lg mst st draws junk junk4 h rows cols cats tool e,
  let a := M_Cache.Args rows cols cats 1 in
  In e [M_Cache.GenData a M_Cache.Writing; M_Cache.GenModel a M_Cache.Writing M_Cache.NoCrash; M_Cache.GenModel a M_Cache.NoCrash M_Cache.Writing] ->
  Spec_Cache.never_cleaned h -> In tool tools ->
  profile_serve g lg mst st draws junk junk4 (M_Cache.run (e :: h)) rows cols cats tool = Fail EOFError.
Proof. exact L_Commands.torn_serve. Qed.
Print Assumptions C79_after_a_killed_write_serve_fails.

(** C79: profile.py eval does not use the number of categories it is given. *)
Theorem C79_eval_ignores_the_number_of_categories : forall g lg mst st draws randint junk s order rows cols tool cats cats',
  profile_eval g lg mst st draws randint junk s order rows cols cats tool = profile_eval g lg mst st draws randint junk s order rows cols cats' tool.
Proof. exact L_Commands.cats_unused. Qed.
Print Assumptions C79_eval_ignores_the_number_of_categories.

(** The commands with their defaults, after other calls, one of which was killed before
    it wrote. *)
Example C79_case :
  draws_legally L_Ensemble.half_gen /\ mst_contract L_Estimate.naive_mst /\ rng_contract L_Validate2.ex_rng /\
  counts_fit L_Commands.one_each /\
  (forall i, (0 <= i < 4)%Z -> (exists x, np_seed L_Ensemble.half_gen i = Ok x) /\ (exists x, jit_seed L_Ensemble.half_gen i = Ok x)) /\
  Spec_Cache.writes_finish [M_Cache.GenData (M_Cache.Args 100 100 4 1) M_Cache.NoCrash; M_Cache.GenModel (M_Cache.Args 20 30 2 1) M_Cache.Generating M_Cache.NoCrash] /\
  In "timers"%string tools /\ ~ In "gprof"%string tools.
Proof. exact L_Commands.commands_case. Qed.
