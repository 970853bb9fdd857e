(** Model of treecat/plotting.py: plot_feature_overlap, nx_plot_tree and
    add_panning_to_svg.  layout_tree is in M_Layout.v. *)
From Coq Require Import String Ascii.
From Coq Require Import List Arith Bool Reals.
From Verif Require Import Base M_Structure M_EstimateTree M_Serving M_EnsembleServer M_DataServer M_Plot.
Import ListNotations.
Open Scope list_scope.
Open Scope nat_scope.

(** plotting.py:25-58 [plot_feature_overlap], up to the matrix that is shown.
    [rows] says which cells of the data frame are present ([df == df], nan is not
    equal to itself); [V] is the number of columns.  [mst] stands for scipy's
    minimum_spanning_tree, [leaves] for pdist, complete and leaves_list together,
    [junk] for the contents of np.empty, [iter] for the iteration order of sets.
    Counts of float32 ones are taken to be exact. *)
Definition overlap_count (rows : list (list bool)) (u v : nat) : nat :=
  list_sum (map (fun row => (if nth u row false then 1 else 0) * (if nth v row false then 1 else 0)) rows).
Definition plot_feature_overlap (mst : list (list R) -> list (nat * nat)) (leaves : list (list R) -> result (list nat)) (junk : nat -> R)
  (iter : nat -> list nat -> list nat) (V : nat) (rows : list (list bool)) (method : string) : result (list (list R)) :=
  let overlap := map (fun u => map (fun v => INR (overlap_count rows u v)) (seq 0 V)) (seq 0 V) in
  order_inv <-
    (if String.eqb method "tree" then
       grid <- make_complete_graph V ;;
       weights <- foldM (fun weights '(k, v1, v2) =>
                    row <- get IndexError overlap v1 ;; x <- get IndexError row v2 ;; put IndexError weights k x)
                  grid (map junk (seq 0 (length grid))) ;;
       edges <- estimate_tree mst grid weights ;;
       '(_, order_inv) <- order_vertices iter edges ;; Ok order_inv
     else if String.eqb method "cluster" then leaves overlap
     else Raise ValueError) ;;
  overlap <- index_get overlap order_inv ;;
  overlap <- mapM (fun row => index_get row order_inv) overlap ;;
  _ <- assert_ ((length overlap =? V) && forallb (fun row => length row =? V) overlap) ;;
  Ok (map (map sqrt) overlap).

(** plotting.py:83-106 [nx_plot_tree], up to what is drawn: the nodes with their
    sizes and the edges.  Equal names would make one node. *)
Fixpoint add_node (nodes : list string) (name : string) : list string :=
  match nodes with [] => [name] | n :: t => if String.eqb n name then n :: t else n :: add_node t name end.
Definition nx_plot_tree (d : dserver) (node_size : R) : result (list (string * R) * list (string * string)) :=
  let edges := data_estimate_tree d in
  perplexity <- data_latent_perplexity d ;;
  let feature_names := data_feature_names d in
  let V := 1 + length edges in
  let label := fun v => nth v feature_names EmptyString in
  let nodes := fold_left add_node (map label (seq 0 V)) [] in
  let named := map (fun '(a, b) => (label a, label b)) edges in
  top <- (match perplexity with [] => Raise ValueError | x :: t => Ok (fold_left Rmax t x) end) ;;
  let sizes := map (fun p => node_size * p / top)%R perplexity in
  _ <- (if length sizes =? length nodes then Ok tt else Raise ValueError) ;;
  Ok (combine nodes sizes, named).

(** ** add_panning_to_svg *)
Definition LF : ascii := "010"%char.
(** [list(f)]: the lines of a file with their newlines.  Carriage returns are left alone. *)
Fixpoint file_lines (s : string) : list string :=
  match s with
  | EmptyString => []
  | String c s =>
    if Ascii.eqb c LF then String c EmptyString :: file_lines s
    else match file_lines s with [] => [String c EmptyString] | l :: t => String c l :: t end
  end.
(** [re.search] for a word without special characters. *)
Fixpoint occurs (word s : string) : bool :=
  prefix word s || match s with EmptyString => false | String _ s => occurs word s end.

Definition newline : string := String LF EmptyString.
Definition svg_header : string := ("<svg height=""100%"" width=""100%"" version=""1.1"" xmlns=""http://www.w3.org/2000/svg"" xmlns:xlink=""http://www.w3.org/1999/xlink"">" ++ newline)%string.
Definition script_open : string := ("<script type=""text/ecmascript""><![CDATA[" ++ newline)%string.
Definition script_close : string := ("]]></script>" ++ newline)%string.
Definition group_open : string := ("<g id=""viewport"" transform=""scale(1,1) translate(0,0)"">" ++ newline)%string.
Definition group_close : string := ("</g>" ++ newline)%string.

(** plotting.py:268-285. *)
Definition panned (svgpan : string) (source_lines : list string) : result (list string) :=
  foldM (fun destin_lines line =>
    if occurs "SVGPan library" line then Raise ValueError
    else if prefix "<svg " line then Ok (destin_lines ++ [svg_header; script_open; svgpan; script_close; group_open])
    else if prefix "</svg>" line then Ok (destin_lines ++ [group_close; line])
    else Ok (destin_lines ++ [line]))
  source_lines [].

(** The files that there are, and their contents. *)
Definition files := string -> option string.
Definition set_file (fs : files) (path content : string) : files := fun p => if String.eqb p path then Some content else fs p.
Definition append_file (fs : files) (path content : string) : files :=
  set_file fs path (match fs path with Some old => old ++ content | None => content end)%string.
(** The files after each write. *)
Fixpoint write_lines (fs : files) (path : string) (lines : list string) : list files :=
  match lines with [] => [] | l :: t => let fs := append_file fs path l in fs :: write_lines fs path t end.

(** plotting.py:257-288 [add_panning_to_svg]: its outcome and what the files are
    from then on, state after state; a crash can leave any of them.  Each line is
    taken to be written at once. *)
Definition add_panning_to_svg (svgpan : string) (fs : files) (source : string) (destin : option string) : result unit * list files :=
  let destin := match destin with None => source | Some d => d end in
  match fs source with
  | None => (Raise OSError, [fs])
  | Some content =>
    match panned svgpan (file_lines content) with
    | Raise e => (Raise e, [fs])
    | Ok destin_lines =>
      let opened := set_file fs destin EmptyString in
      (Ok tt, fs :: opened :: write_lines opened destin destin_lines)
    end
  end.
