(** Model of treecat/structure.py, the deterministic parts.

    Conventions.  Vertex, edge and array indices are natural numbers (the code
    stores them as int32 or int16; the theorems bound them).  A 3 x K numpy
    grid is the list of its K columns [(k, v1, v2)]. *)
From Coq Require Import String Ascii.
From Coq Require Import List Arith Bool.
From Verif Require Import Base.
Import ListNotations.

Notation triple := (nat * nat * nat)%type.

(** structure.py:86-91 [find_complete_edge].  On naturals [v2 * (v2 - 1)] is 0
    for [v2 = 0], as in Python. *)
Definition find_complete_edge (v1 v2 : nat) : nat :=
  let '(v1, v2) := if v2 <? v1 then (v2, v1) else (v1, v2) in
  v1 + v2 * (v2 - 1) / 2.

(** The iteration order of the double loop structure.py:111-112 (and 355-356):
    [for v2 in range(V): for v1 in range(v2)]. *)
Definition pair_loop (V : nat) : list (nat * nat) :=
  flat_map (fun v2 => map (fun v1 => (v1, v2)) (seq 0 v2)) (seq 0 V).

(** structure.py:94-115 [make_complete_graph]. *)
Definition make_complete_graph (V : nat) : result (list triple) :=
  let K := V * (V - 1) / 2 in
  '(k, grid) <- foldM (fun '(k, grid) '(v1, v2) =>
                   grid' <- put IndexError grid k (k, v1, v2) ;;
                   Ok (k + 1, grid'))
                 (pair_loop V) (0, repeat (0, 0, 0) K) ;;
  Ok grid.

(** [tuple(sorted(edge))] of structure.py:130. *)
Definition sort_pair (e : nat * nat) : nat * nat :=
  if snd e <? fst e then (snd e, fst e) else e.

(** Python's order on pairs of ints. *)
Definition pair_leb (p q : nat * nat) : bool :=
  (fst p <? fst q) || ((fst p =? fst q) && (snd p <=? snd q)).

Fixpoint pair_insert (p : nat * nat) (l : list (nat * nat)) : list (nat * nat) :=
  match l with
  | [] => [p]
  | q :: t => if pair_leb p q then p :: q :: t else q :: pair_insert p t
  end.

(** [edges.sort()] / [sorted(edges)].  Python's sort on a total order of pairs;
    any sorting algorithm returns the same list. *)
Fixpoint pair_sort (l : list (nat * nat)) : list (nat * nat) :=
  match l with [] => [] | p :: t => pair_insert p (pair_sort t) end.

(** [enumerate] giving the columns [e, v1, v2] of structure.py:134-135. *)
Fixpoint number_from (e : nat) (l : list (nat * nat)) : list triple :=
  match l with [] => [] | (v1, v2) :: t => (e, v1, v2) :: number_from (S e) t end.

(** structure.py:118-136 [make_tree].  The isinstance assertion (edges are
    tuples) is a typing matter here. *)
Definition make_tree (edges : list (nat * nat)) : list triple :=
  number_from 0 (pair_sort (map sort_pair edges)).

(** structure.py:25-83 [TreeStructure]: the number of vertices and the grid.
    The lazily cached complete grid and the constant vertex array are omitted. *)
Record tree_structure := TS { ts_V : nat; ts_grid : list triple }.

(** structure.py:40-47 [set_edges].  [_num_edges = V - 1] is an integer that is
    -1 for [V = 0]; the comparison is written additively. *)
Definition ts_set_edges (t : tree_structure) (edges : list (nat * nat)) : result tree_structure :=
  _ <- assert_ (length edges + 1 =? ts_V t) ;;
  Ok (TS (ts_V t) (make_tree edges)).

(** structure.py:28-34 [__init__]: the initial tree is the path. *)
Definition ts_init (V : nat) : result tree_structure :=
  ts_set_edges (TS V []) (map (fun v => (v, v + 1)) (seq 0 (V - 1))).

(** structure.py:49-55 [get_edges]. *)
Definition ts_get_edges (t : tree_structure) : list (nat * nat) :=
  map (fun '(e, v1, v2) => (v1, v2)) (ts_grid t).

Definition triple_eqb (a b : triple) : bool :=
  let '(a1, a2, a3) := a in let '(b1, b2, b3) := b in
  (a1 =? b1) && (a2 =? b2) && (a3 =? b3).

Fixpoint grid_eqb (g h : list triple) : bool :=
  match g, h with
  | [], [] => true
  | a :: g, b :: h => triple_eqb a b && grid_eqb g h
  | _, _ => false
  end.

(** structure.py:36-38 [__eq__].  The grids of two structures with the same
    number of vertices have the same shape, so numpy compares elementwise. *)
Definition ts_eq (t u : tree_structure) : bool :=
  (ts_V t =? ts_V u) && grid_eqb (ts_grid t) (ts_grid u).

(** The loop [neighbors[v1].add(v2); neighbors[v2].add(v1)] over grid columns,
    structure.py:150-153, 226-230. *)
Definition add_neighbor (nb : list (list nat)) (v1 v2 : nat) : result (list (list nat)) :=
  s <- get IndexError nb v1 ;; put IndexError nb v1 (set_add v2 s).

Definition build_neighbors (V : nat) (edges : list (nat * nat)) : result (list (list nat)) :=
  foldM (fun nb '(v1, v2) =>
           nb <- add_neighbor nb v1 v2 ;;
           add_neighbor nb v2 v1) edges (repeat [] V).

Definition grid_edges (grid : list triple) : list (nat * nat) :=
  map (fun '(e, v1, v2) => (v1, v2)) grid.

(** structure.py:160-163, the body of the inner loop. *)
Definition center_visit (v : nat) (st : list (list nat) * list nat) (v2 : nat)
  : result (list (list nat) * list nat) :=
  let '(nb, queue) := st in
  s <- get IndexError nb v2 ;;
  s' <- set_remove v s ;;
  nb' <- put IndexError nb v2 s' ;;
  Ok (nb', if length s' =? 1 then queue ++ [v2] else queue).

(** structure.py:158-164, the while loop; [last] is the loop variable [v] kept
    after the loop. *)
Fixpoint center_loop (fuel : nat) (nb : list (list nat)) (queue : list nat) (last : nat)
  : result nat :=
  match fuel with
  | 0 => Raise OutOfFuel
  | S fuel =>
    match queue with
    | [] => Ok last
    | v :: queue =>
      ns <- get IndexError nb v ;;
      '(nb', queue') <- foldM (center_visit v) (rev ns) (nb, queue) ;;
      center_loop fuel nb' queue' v
    end
  end.

(** structure.py:139-164 [find_center_of_tree].  [V = 1 + E] vertices, so the
    variable [v] is bound to 0 before the while loop. *)
Definition find_center_of_tree (grid : list triple) : result nat :=
  let V := 1 + length grid in
  nb <- build_neighbors V (grid_edges grid) ;;
  let queue := filter (fun v => length (nth v nb []) <=? 1) (rev (seq 0 V)) in
  center_loop (V + 1) nb queue 0.

(** structure.py:167-172, the op codes. *)
Inductive opcode : Set := OP_UP | OP_IN | OP_ROOT | OP_OUT | OP_DOWN.
Definition op_number (o : opcode) : nat :=
  match o with OP_UP => 0 | OP_IN => 1 | OP_ROOT => 2 | OP_OUT => 3 | OP_DOWN => 4 end.

(** One row [ op_code | vertex | relative_vertex | relative_edge ]; unset
    operands are 0. *)
Record instr := I { i_op : opcode; i_v : nat; i_rel : nat; i_edge : nat }.

(** edge_dict of structure.py:227-232, as an association list, later
    assignments first. *)
Fixpoint edge_dict (grid : list triple) (acc : list ((nat * nat) * nat)) :=
  match grid with
  | [] => acc
  | (e, v1, v2) :: t => edge_dict t (((v2, v1), e) :: ((v1, v2), e) :: acc)
  end.

Fixpoint dict_get (d : list ((nat * nat) * nat)) (a b : nat) : result nat :=
  match d with
  | [] => Raise KeyError
  | ((x, y), e) :: t => if (x =? a) && (y =? b) then Ok e else dict_get t a b
  end.

Definition is_parent (parent : option nat) (v : nat) : bool :=
  match parent with Some p => v =? p | None => false end.

(** children of a vertex: structure.py:241-243 and 245-247. *)
Definition children_of (ns : list nat) (parent : option nat) : list nat :=
  filter (fun v2 => negb (is_parent parent v2)) ns.

Notation nested := (list (nat * option nat * list nat)).

(** structure.py:238-247: the BFS producing [nested_program]; both loops over
    [sorted(neighbors[v])] are merged since they compute the same list. *)
Fixpoint bfs (fuel : nat) (nb : list (list nat)) (queue : list (nat * option nat))
  : result nested :=
  match fuel with
  | 0 => Raise OutOfFuel
  | S fuel =>
    match queue with
    | [] => Ok []
    | (v, parent) :: queue =>
      ns <- get IndexError nb v ;;
      let cs := children_of ns parent in
      rest <- bfs fuel nb (queue ++ map (fun c => (c, Some v)) cs) ;;
      Ok ((v, parent, cs) :: rest)
    end
  end.

(** structure.py:252-257, instructions for one vertex on the way in. *)
Definition emit_in (d : list ((nat * nat) * nat)) (x : nat * option nat * list nat)
  : result (list instr) :=
  let '(v, _, cs) := x in
  ins <- mapM (fun c => e <- dict_get d v c ;; Ok (I OP_IN v c e)) cs ;;
  Ok (I OP_UP v 0 0 :: ins).

(** structure.py:260-265, instructions for one vertex on the way out. *)
Definition emit_out (d : list ((nat * nat) * nat)) (x : nat * option nat * list nat)
  : result (list instr) :=
  let '(v, parent, _) := x in
  match parent with
  | None => Ok [I OP_DOWN v 0 0]
  | Some p => e <- dict_get d v p ;; Ok [I OP_OUT v p e; I OP_DOWN v 0 0]
  end.

(** structure.py:222-268 after the root is known.  Writing row [pos] beyond the
    preallocated V+E+1+E+V rows raises IndexError and having written fewer
    fails the assertion of line 266; the model collects the rows first and
    checks their number afterwards. *)
Definition make_program_rooted (grid : list triple) (root : nat) : result (list instr) :=
  let E := length grid in
  let V := 1 + E in
  nb <- build_neighbors V (grid_edges grid) ;;
  let d := edge_dict grid [] in
  np <- bfs (V + 1) nb [(root, None)] ;;
  ins <- mapM (emit_in d) (rev np) ;;
  outs <- mapM (emit_out d) np ;;
  let program := concat ins ++ [I OP_ROOT root 0 0] ++ concat outs in
  let size := V + E + 1 + E + V in
  if size <? length program then Raise IndexError
  else _ <- assert_ (length program =? size) ;; Ok program.

(** structure.py:175-268 [make_propagation_program]. *)
Definition make_propagation_program (grid : list triple) (root : option nat)
  : result (list instr) :=
  r <- match root with Some r => Ok r | None => find_center_of_tree grid end ;;
  make_program_rooted grid r.

(** ** jit sets: [ size | item[1] | ... | item[size] | unused ... ] *)

(** structure.py:276-284 [jit_set_add]. *)
Definition jit_set_add (a : list nat) (item : nat) : result (list nat) :=
  s <- get OutOfBounds a 0 ;;
  let size := s + 1 in
  a <- put OutOfBounds a 0 size ;;
  put OutOfBounds a size item.

(** structure.py:287-292 [jit_set_pop]. *)
Definition jit_set_pop (a : list nat) : result (nat * list nat) :=
  size <- get OutOfBounds a 0 ;;
  a' <- put OutOfBounds a 0 (size - 1) ;;
  x <- get OutOfBounds a' size ;;
  Ok (x, a').

(** structure.py:301-303, the search loop. *)
Fixpoint jit_find (fuel pos : nat) (a : list nat) (item : nat) : result nat :=
  match fuel with
  | 0 => Raise OutOfBounds
  | S fuel => x <- get OutOfBounds a pos ;;
              if x =? item then Ok pos else jit_find fuel (pos + 1) a item
  end.

(** structure.py:295-307 [jit_set_remove].  The search either finds the item or
    runs off the array, so the array length is enough fuel. *)
Definition jit_set_remove (a : list nat) (item : nat) : result (list nat) :=
  pos <- jit_find (length a) 1 a item ;;
  size <- get OutOfBounds a 0 ;;
  a <- (if negb (pos =? size) then
          x <- get OutOfBounds a size ;; put OutOfBounds a pos x
        else Ok a) ;;
  put OutOfBounds a 0 (size - 1).

Definition jit_row_add (nb : list (list nat)) (v item : nat) : result (list (list nat)) :=
  row <- get OutOfBounds nb v ;; row' <- jit_set_add row item ;; put OutOfBounds nb v row'.

Definition jit_row_remove (nb : list (list nat)) (v item : nat) : result (list (list nat)) :=
  row <- get OutOfBounds nb v ;; row' <- jit_set_remove row item ;; put OutOfBounds nb v row'.

(** structure.py:322-325: pushing the unmarked neighbors of the popped vertex. *)
Definition dfs_push (nb : list (list nat)) (comp : list bool) (v1 : nat)
  (stack : list nat) (i : nat) : result (list nat) :=
  row <- get OutOfBounds nb v1 ;;
  v2 <- get OutOfBounds row (i + 1) ;;
  c <- get OutOfBounds comp v2 ;;
  if negb c then jit_set_add stack v2 else Ok stack.

(** structure.py:319-325: the DFS marking one component. *)
Fixpoint dfs_loop (fuel : nat) (nb : list (list nat)) (stack : list nat) (comp : list bool)
  : result (list bool) :=
  match fuel with
  | 0 => Raise OutOfFuel
  | S fuel =>
    size <- get OutOfBounds stack 0 ;;
    if size =? 0 then Ok comp else
      '(v1, stack) <- jit_set_pop stack ;;
      comp <- put OutOfBounds comp v1 true ;;
      row <- get OutOfBounds nb v1 ;;
      n <- get OutOfBounds row 0 ;;
      stack <- foldM (dfs_push nb comp v1) (seq 0 n) stack ;;
      dfs_loop fuel nb stack comp
  end.

(** structure.py:310-326 [jit_remove_edge]; returns the edge id, the updated
    neighbor sets and the marked component. *)
Definition jit_remove_edge (grid : list triple) (e2k : list nat) (nb : list (list nat))
  (comp : list bool) (e : nat) : result (nat * list (list nat) * list bool) :=
  k <- get OutOfBounds e2k e ;;
  '(_, v1, v2) <- get OutOfBounds grid k ;;
  nb <- jit_row_remove nb v1 v2 ;;
  nb <- jit_row_remove nb v2 v1 ;;
  stack <- jit_set_add (repeat 0 (length nb)) v1 ;;
  comp <- dfs_loop (length nb + 1) nb stack comp ;;
  Ok (k, nb, comp).

(** structure.py:329-336 [jit_add_edge]. *)
Definition jit_add_edge (grid : list triple) (e2k : list nat) (nb : list (list nat))
  (comp : list bool) (e k : nat) : result (list nat * list (list nat) * list bool) :=
  e2k <- put OutOfBounds e2k e k ;;
  '(_, v1, v2) <- get OutOfBounds grid k ;;
  nb <- jit_row_add nb v1 v2 ;;
  nb <- jit_row_add nb v2 v1 ;;
  Ok (e2k, nb, map (fun _ => false) comp).

(** structure.py:355-360: one iteration of the candidate scan; the buffer is
    [valid_edges] and [fin] the variable [end]. *)
Definition valid_step (comp : list bool) (st : nat * nat * list nat) (p : nat * nat)
  : result (nat * nat * list nat) :=
  let '(k, fin, buf) := st in
  let '(v1, v2) := p in
  c2 <- get OutOfBounds comp v2 ;;
  c1 <- get OutOfBounds comp v1 ;;
  if xorb c2 c1 then
    buf <- put OutOfBounds buf fin k ;; Ok (k + 1, fin + 1, buf)
  else Ok (k + 1, fin, buf).

(** structure.py:339-361 [find_valid_edges]; returns the number found and the
    buffer, whose prefix holds them.  The uninitialised buffer is zeros. *)
Definition find_valid_edges (comp : list bool) (buf : list nat) : result (nat * list nat) :=
  '(_, fin, buf) <- foldM (valid_step comp) (pair_loop (length comp)) (0, 0, buf) ;;
  Ok (fin, buf).

(** ** triangular_to_square *)

(** [V = int(round(0.5 + (0.25 + 2 * K)**0.5))], structure.py:443.  With
    s = sqrt(1 + 8K), the argument is (1 + s) / 2, never a half-integer because
    1 + 8K is odd, so rounding is floor((2 + s) / 2) = (2 + isqrt(1 + 8K)) / 2. *)
Definition triangle_dim (K : nat) : nat := (2 + Nat.sqrt (1 + 8 * K)) / 2.

Definition put2 {A} (m : list (list A)) (i j : nat) (x : A) : result (list (list A)) :=
  row <- get IndexError m i ;; row' <- put IndexError row j x ;; put IndexError m i row'.

(** structure.py:431-448 [triangular_to_square]; numpy's fancy assignment
    writes the entries in order. *)
Definition triangular_to_square {A} (zero : A) (grid : list triple) (triangle : list A)
  : result (list (list A)) :=
  let K := length triangle in
  _ <- assert_ (length grid =? K) ;;
  let V := triangle_dim K in
  _ <- assert_ (K =? V * (V - 1) / 2) ;;
  let square := repeat (repeat zero V) V in
  square <- foldM (fun m '((_, v1, v2), x) => put2 m v1 v2 x) (combine grid triangle) square ;;
  foldM (fun m '((_, v1, v2), x) => put2 m v2 v1 x) (combine grid triangle) square.

(** ** print_tree *)

(** [neighbors = defaultdict(set)] of structure.py:491-494, as a total function. *)
Fixpoint dd_neighbors (edges : list (nat * nat)) (v : nat) : list nat :=
  match edges with
  | [] => []
  | (v1, v2) :: t =>
    let s := dd_neighbors t v in
    let s := if v =? v1 then set_add v2 s else s in
    if v =? v2 then set_add v1 s else s
  end.

(** structure.py:498-508.  [stack] has its top first.  Each iteration pushes an
    unseen neighbor (the largest) or pops. *)
Fixpoint print_loop (fuel : nat) (nbr : nat -> list nat) (stack seen : list nat)
  (lines : list (nat * nat)) : result (list (nat * nat)) :=
  match fuel with
  | 0 => Raise OutOfFuel
  | S fuel =>
    match stack with
    | [] => Ok lines
    | v :: below =>
      match filter (fun n => negb (set_mem n seen)) (rev (nbr v)) with
      | n :: _ => print_loop fuel nbr (n :: stack) (n :: seen) lines
      | [] => print_loop fuel nbr below seen (lines ++ [(length below, v)])
      end
    end
  end.

Fixpoint str_index (l : list string) (s : string) : result nat :=
  match l with
  | [] => Raise ValueError
  | x :: t => if String.eqb x s then Ok 0 else i <- str_index t s ;; Ok (S i)
  end.

(** structure.py:487-509: the list of (indentation level, name). *)
Definition print_tree_lines (edges : list (nat * nat)) (feature_names : list string)
  (root : option string) : result (list (nat * string)) :=
  _ <- assert_ (length feature_names =? 1 + length edges) ;;
  root <- match root with
          | Some r => Ok r
          | None => c <- find_center_of_tree (make_tree edges) ;; get IndexError feature_names c
          end ;;
  _ <- assert_ (existsb (String.eqb root) feature_names) ;;
  r <- str_index feature_names root ;;
  lines <- print_loop (2 * length feature_names + 1) (dd_neighbors edges) [r] [r] [] ;;
  lines <- mapM (fun '(d, v) => n <- get IndexError feature_names v ;; Ok (d, n)) lines ;;
  Ok (rev lines).

Fixpoint indent (d : nat) : string :=
  match d with 0 => EmptyString | S d => String " " (String " " (indent d)) end.

Definition newline : string := String (ascii_of_nat 10) EmptyString.

(** structure.py:476-510 [print_tree]. *)
Definition print_tree (edges : list (nat * nat)) (feature_names : list string)
  (root : option string) : result string :=
  lines <- print_tree_lines edges feature_names root ;;
  Ok (String.concat newline (map (fun '(d, n) => append (indent d) n) lines)).

(** ** order_vertices *)

(** Stable insertion sort by length: [parts.sort(key=lambda x: len(x[1]))]. *)
Fixpoint parts_insert (p : nat * list nat) (l : list (nat * list nat)) :=
  match l with
  | [] => [p]
  | q :: t => if length (snd p) <=? length (snd q) then p :: q :: t else q :: parts_insert p t
  end.
Fixpoint parts_sort (l : list (nat * list nat)) :=
  match l with [] => [] | p :: t => parts_insert p (parts_sort t) end.

Fixpoint list_index (l : list nat) (x : nat) : result nat :=
  match l with
  | [] => Raise ValueError
  | y :: t => if y =? x then Ok 0 else i <- list_index t x ;; Ok (S i)
  end.

(** structure.py:553-562.  [midpoint = (len(part) - 1) / 2] is a real
    division; the comparisons are doubled.  [part.reverse()] also reverses the
    list stored in [orders[v2]], which is not read again (v2's only later reader
    is v itself), so the model reverses a copy. *)
Definition pack_part (st : list nat * list nat) (p : nat * list nat) : result (list nat * list nat) :=
  let '(lhs, rhs) := st in
  let '(v2, part) := p in
  i <- list_index part v2 ;;
  if length lhs <? length rhs then
    let part := if 2 * i + 1 <? length part then rev part else part in
    Ok (part ++ lhs, rhs)
  else
    let part := if length part <? 2 * i + 1 then rev part else part in
    Ok (lhs, rhs ++ part).

(** [[(v2, orders[v2]) for v2 in neighbors[v] if orders[v2] is not None]]. *)
Fixpoint gather_parts (orders : list (option (list nat))) (ns : list nat)
  : result (list (nat * list nat)) :=
  match ns with
  | [] => Ok []
  | v2 :: t =>
    o <- get IndexError orders v2 ;;
    rest <- gather_parts orders t ;;
    Ok (match o with Some p => (v2, p) :: rest | None => rest end)
  end.

(** structure.py:540-545: the first unseen neighbor in iteration order. *)
Fixpoint first_unseen (seen : list bool) (ns : list nat) : result (option nat) :=
  match ns with
  | [] => Ok None
  | v2 :: t => s <- get IndexError seen v2 ;; if s then first_unseen seen t else Ok (Some v2)
  end.

(** structure.py:537-564.  [iter v] is the order in which Python iterates over
    the set [neighbors[v]], which is arbitrary. *)
Fixpoint order_loop (fuel : nat) (iter : nat -> list nat) (stack : list nat)
  (seen : list bool) (orders : list (option (list nat)))
  : result (list (option (list nat))) :=
  match fuel with
  | 0 => Raise OutOfFuel
  | S fuel =>
    match stack with
    | [] => Ok orders
    | v :: below =>
      u <- first_unseen seen (iter v) ;;
      match u with
      | Some v2 =>
        seen <- put IndexError seen v2 true ;;
        order_loop fuel iter (v2 :: stack) seen orders
      | None =>
        parts <- gather_parts orders (iter v) ;;
        '(lhs, rhs) <- foldM pack_part (parts_sort parts) ([], []) ;;
        orders <- put IndexError orders v (Some (lhs ++ [v] ++ rhs)) ;;
        order_loop fuel iter below seen orders
      end
    end
  end.

(** structure.py:567-569: inverting the permutation.  Missing entries are None. *)
Fixpoint invert (order_inv : list nat) (i : nat) (order : list (option nat))
  : result (list (option nat)) :=
  match order_inv with
  | [] => Ok order
  | v2 :: t => order <- put IndexError order v2 (Some i) ;; invert t (S i) order
  end.

(** structure.py:513-570 [order_vertices].  [iter v s] is the iteration order
    of the set [s = neighbors[v]]. *)
Definition order_vertices (iter : nat -> list nat -> list nat) (edges : list (nat * nat))
  : result (list (option nat) * list nat) :=
  let grid := make_tree edges in
  root <- find_center_of_tree grid ;;
  let V := length edges + 1 in
  nb <- build_neighbors V edges ;;
  seen <- put IndexError (repeat false V) root true ;;
  orders <- order_loop (2 * V + 1) (fun v => iter v (nth v nb [])) [root] seen (repeat None V) ;;
  o <- get IndexError orders root ;;
  match o with
  | None => Raise TypeError
  | Some order_inv =>
    order <- invert order_inv 0 (repeat None V) ;;
    Ok (order, order_inv)
  end.
