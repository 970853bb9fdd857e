(** treecat/tables.py and the generators of treecat/generate.py. *)
From Coq Require Import List Arith ZArith Bool Reals.
From Verif Require Import Base M_Structure M_Util M_Array M_Rand M_SampleTree M_Training M_Serving.
Import ListNotations.
Open Scope nat_scope.

(** tables.py:19-68 [Table.__init__] for a two-dimensional array with [ncols]
    columns.  [feature_types] and the ragged index are arrays of one dimension;
    the categorical data, which nothing reads, are omitted. *)
Definition make_table (types ri : list nat) (ncols : nat) (rows : list (list Z)) : result table :=
  (_ <- assert_ (length ri =? 1 + length types) ;;
   R <- last_index ri ;;
   _ <- assert_ (ncols =? R) ;;
   Ok (Tab types ri (map (map int8) rows)))%res.

(** generate.py:38 and 113: [np.arange(0, C * (V + 1), C)]. *)
Definition arange (C V : nat) : result (list nat) :=
  if C =? 0 then Raise ZeroDivisionError else Ok (map (fun i => i * C) (seq 0 (V + 1))).

(** generate.py:28-58 [generate_dataset]; [draw v n] is the vector that
    [np.random.multinomial] returns for column [v] of row [n], whose total is
    Poisson.  The result is the table (the schema holds the same ragged index and
    zeros).  Assigning to an int8 array wraps. *)
Definition generate_dataset (draw : nat -> nat -> list Z) (N V C : nat) : result table :=
  (ri <- arange C V ;;
   data <- foldM (fun data v =>
             beg <- get IndexError ri v ;; fin <- get IndexError ri (v + 1) ;;
             foldM (fun data n =>
               row <- get IndexError data n ;;
               let x := map int8 (draw v n) in
               if length x =? fin - beg then put IndexError data n (firstn beg row ++ x ++ skipn fin row)
               else Raise ValueError) (seq 0 N) data)
             (seq 0 V) (repeat (repeat 0%Z (V * C)) N) ;;
   make_table (repeat TY_MULTINOMIAL V) ri (V * C) data)%res.

(** generate.py:79-87 [generate_tree]; [logits] are the [np.random.random]
    numbers. *)
Definition generate_tree (logits : list R) (V : nat) : rprog tree_structure :=
  (tree <~ lift (ts_init V) ;;
   grid <~ lift (make_complete_graph V) ;;
   edges <~ rfold (fun edges _ => sample_tree grid (map Some logits) edges) (seq 0 10) (ts_get_edges tree) ;;
   lift (ts_set_edges tree edges))%rp.

(** [np.eye(M)]. *)
Definition eye (i j : nat) : Z := if i =? j then 1%Z else 0%Z.

(** generate.py:90-151 [generate_clean_dataset]: the model whose samples are
    returned. *)
Definition clean_model (tree : tree_structure) (C : nat) : result smodel :=
  (let V := ts_V tree in
   let M := C in
   ri <- arange C V ;;
   let vert_ss := fun _ _ : nat => 1%Z in
   let edge_ss := fold_left (fun (ss : nat -> nat -> nat -> Z) '(e, _, _) => fun e' i j => if e' =? e then (1 * eye i j)%Z else ss e' i j)
                    (ts_grid tree) (fun _ _ _ => 0%Z) in
   feat_ss <- foldM (fun (ss : nat -> nat -> Z) v =>
                beg <- get IndexError ri v ;; fin <- get IndexError ri (v + 1) ;;
                Ok (fun r m => if (beg <=? r) && (r <? fin) then (100 * eye (r - beg) m)%Z else ss r m))
                (seq 0 V) (fun _ _ => 0%Z) ;;
   Ok (SModel tree ri vert_ss edge_ss feat_ss M (repeat 0%R (V * (V - 1) / 2))))%res.

Definition generate_clean_dataset (mst : list (list R) -> list (nat * nat)) (tree : tree_structure) (N C : nat) : rprog table :=
  (model <~ lift (clean_model tree C) ;;
   server <~ lift (tree_server mst model) ;;
   data <~ sample server N (repeat 1%Z (ts_V tree)) None ;;
   lift (make_table (repeat TY_MULTINOMIAL (ts_V tree)) (d_ri model) (ts_V tree * C) data))%rp.

(** generate.py:154-200 [generate_fake_model]; [asg n v] are the classes drawn by
    [np.random.choice(M, size=(N, V))] and [tb] is the table of the dataset.  A
    block of the table that reaches beyond the V * C rows of [feat_ss] does not
    fit the assignment (it would if it were one wide and outside, which numpy
    broadcasts; this is taken to raise, too).  [meas_ss], which no server reads,
    is omitted. *)
Definition fake_model (tree : tree_structure) (asg : nat -> nat -> nat) (tb : table) (N V C M : nat) (logits : list R) : result smodel :=
  (let rows := map asg (seq 0 N) in
   vert_ss <- foldM (fun (ss : nat -> nat -> Z) v =>
                let column := map (fun a : nat -> nat => a v) rows in
                if forallb (fun m => m <? M) column
                then Ok (fun v' m => if v' =? v then Z.of_nat (count_occ Nat.eq_dec column m) else ss v' m)
                else Raise ValueError)
                (seq 0 V) (fun _ _ => 0%Z) ;;
   edge_ss <- foldM (fun (ss : nat -> nat -> nat -> Z) '(e, v1, v2) =>
                let pairs := map (fun a : nat -> nat => a v1 * M + a v2) rows in
                if forallb (fun p => p <? M * M) pairs
                then Ok (fun e' m1 m2 => if e' =? e then Z.of_nat (count_occ Nat.eq_dec pairs (m1 * M + m2)) else ss e' m1 m2)
                else Raise ValueError)
                (ts_grid tree) (fun _ _ _ => 0%Z) ;;
   feat_ss <- foldM (fun (ss : nat -> nat -> Z) v =>
                beg <- get IndexError (tb_ri tb) v ;; fin <- get IndexError (tb_ri tb) (v + 1) ;;
                foldM (fun ss n =>
                  row <- get IndexError (tb_rows tb) n ;;
                  _ <- index (asg n v <? M) ;;
                  _ <- (if fin <=? V * C then Ok tt else Raise ValueError) ;;
                  Ok (slice_add ss beg fin (asg n v) (fun r => nth r row 0%Z))) (seq 0 N) ss)
                (seq 0 V) (fun _ _ => 0%Z) ;;
   Ok (SModel tree (tb_ri tb) vert_ss edge_ss feat_ss M logits))%res.

(** generate.py:154-200: with the tree of [generate_tree]. *)
Definition generate_fake_model (tree_logits : list R) (asg : nat -> nat -> nat) (tb : table) (N V C M : nat) (logits : list R) : rprog smodel :=
  (tree <~ generate_tree tree_logits V ;;
   lift (fake_model tree asg tb N V C M logits))%rp.

(** generate.py:203-215 [generate_fake_ensemble]: three models of one dataset;
    [seeds] are the random numbers drawn for each of them. *)
Definition generate_fake_ensemble (draw : nat -> nat -> list Z) (seeds : list (list R * (nat -> nat -> nat) * list R)) (N V C M : nat) : rprog (list smodel) :=
  (tb <~ lift (generate_dataset draw N V C) ;;
   rfold (fun ensemble '(tree_logits, asg, logits) =>
            model <~ generate_fake_model tree_logits asg tb N V C M logits ;;
            Ret (ensemble ++ [model])) seeds [])%rp.
