(** Model of src/datastructures/ and of the graph type of src/parser.rs. *)
From Coq Require Import Arith Bool List.
From Verif Require Import Num Base.
Import ListNotations.

Section Data.
Context {N : Num}.

(** parser.rs:167-173 *)
Record edge := mkEdge { e_to : nat; e_cost : C N }.

(** parser.rs:46-51, 131-137: a graph is the list of its vertices, a vertex the list of its
    outgoing edges.  (The wrapper structs [Graph] and [Vertex] are dropped.) *)
Definition graph := list (list edge).

(** parser.rs:78-82; [Iterator::sum] adds from the left starting with zero.  (Recent Rust
    versions start from -0.0 instead, which differs only for empty sums of no edges.) *)
Definition csum (l : list (C N)) : C N := fold_left cadd l c0.
Definition directed_edge_weight (g : graph) : C N :=
  csum (map (fun v => csum (map e_cost v)) g).

(** parser.rs:90-92 *)
Definition undirected_edge_weight (g : graph) : C N := chalf (directed_edge_weight g).

(** parser.rs:96-110; the [debug_assert]s coincide with the index panics. *)
Definition add_undirected_edge (g : graph) (from to : nat) (cost : C N) : res graph :=
  g <- modify_res g from (fun v => v ++ [mkEdge to cost]) ;;
  modify_res g to (fun v => v ++ [mkEdge from cost]).

(** parser.rs:113-121 *)
Definition vertex_degree (g : graph) (v : nat) : res nat :=
  es <- nth_res g v ;; Ok (length es).

(** datastructures/nalgebra.rs:10: a square nalgebra [DMatrix], stored column by column:
    cell (row, col) is at offset [col * dim + row].  Non-square matrices, which the type
    admits but no function of the crate builds, are not modelled. *)
Record namatrix := mkNA { na_dim : nat; na_data : list (C N) }.

(** nalgebra.rs:93-95 with nalgebra's bounds check *)
Definition na_get (m : namatrix) (row col : nat) : res (C N) :=
  if (row <? na_dim m) && (col <? na_dim m)
  then nth_res (na_data m) (col * na_dim m + row) else Panic.

(** nalgebra.rs:97-99 *)
Definition na_set (m : namatrix) (row col : nat) (cost : C N) : res namatrix :=
  if (row <? na_dim m) && (col <? na_dim m)
  then d <- modify_res (na_data m) (col * na_dim m + row) (fun _ => cost) ;;
       Ok (mkNA (na_dim m) d)
  else Panic.

(** nalgebra.rs:84-88: infinity everywhere, zero on the diagonal *)
Definition na_from_dim (dim : nat) : namatrix :=
  mkNA dim (map (fun k => if k / dim =? k mod dim then c0 else cinf) (seq 0 (dim * dim))).

(** [graph.row(i)] as used in mst.rs:161 and one_tree.rs:44: the cells (i, 0), (i, 1), ...;
    panics when [i] is out of range *)
Definition na_row (m : namatrix) (i : nat) : res (list (C N)) :=
  if i <? na_dim m then mapM (fun j => na_get m i j) (seq 0 (na_dim m)) else Panic.

(** datastructures/mod.rs:12-71: what the solvers use of the trait [AdjacencyMatrix] *)
Record adj := mkAdj { a_dim : nat; a_get : nat -> nat -> res (C N) }.

Definition na_adj (m : namatrix) : adj := mkAdj (na_dim m) (na_get m).

(** datastructures/vecmatrix.rs:6-7, 44-64 *)
Definition vecmatrix := list (list (C N)).
Definition vm_get (m : vecmatrix) (row col : nat) : res (C N) :=
  r <- nth_res m row ;; nth_res r col.
Definition vm_set (m : vecmatrix) (row col : nat) (cost : C N) : res vecmatrix :=
  r <- nth_res m row ;; r' <- modify_res r col (fun _ => cost) ;; Ok (upd m row r').
Definition vm_adj (m : vecmatrix) : adj := mkAdj (length m) (vm_get m).
Definition vm_from_dim (dim : nat) : vecmatrix :=
  map (fun i => map (fun j => if i =? j then c0 else cinf) (seq 0 dim)) (seq 0 dim).

(** nalgebra.rs:63-75 *)
Definition na_from_graph (g : graph) : res namatrix :=
  foldM (fun m i =>
           es <- nth_res g i ;;
           foldM (fun m e => na_set m i (e_to e) (e_cost e)) es m)
        (seq 0 (length g)) (na_from_dim (length g)).

(** vecmatrix.rs:9-23: starts from infinity everywhere (also on the diagonal) and writes
    both directions *)
Definition vm_from_graph (g : graph) : res vecmatrix :=
  let n := length g in
  foldM (fun m i =>
           es <- nth_res g i ;;
           foldM (fun m e => m <- vm_set m i (e_to e) (e_cost e) ;;
                             vm_set m (e_to e) i (e_cost e)) es m)
        (seq 0 n) (repeat (repeat cinf n) n).

(** nalgebra.rs:102-117 *)
Definition na_from_adj (a : adj) : res namatrix :=
  foldM (fun m i =>
           foldM (fun m j => v <- a_get a i j ;; na_set m i j v) (seq 0 (a_dim a)) m)
        (seq 0 (a_dim a)) (na_from_dim (a_dim a)).

(** datastructures/mod.rs:26-38 *)
Definition evaluate_path (a : adj) (path : list nat) : res (C N) :=
  let n := length path in
  if n <=? 1 then Ok c0
  else foldM (fun acc from =>
                x <- nth_res path from ;;
                y <- nth_res path (from + 1) ;;
                cost <- a_get a x y ;;
                Ok (cadd acc cost))
             (seq 0 (n - 1)) c0.

(** datastructures/mod.rs:42-49 *)
Definition evaluate_circle (a : adj) (path : list nat) : res (C N) :=
  if length path <=? 1 then Ok c0
  else
    l <- last_res path ;;
    f <- first_res path ;;
    last_edge <- a_get a l f ;;
    path_cost <- evaluate_path a path ;;
    Ok (cadd path_cost last_edge).

(** datastructures/mod.rs:53-70; the early [return false] is the boolean accumulator, after which
    no cell is read. *)
Definition is_metric (a : adj) : res bool :=
  foldM (fun ok i =>
    foldM (fun ok j =>
      if ok : bool then
        direct <- a_get a i j ;;
        foldM (fun (ok : bool) k =>
          if ok then
            x <- a_get a i k ;;
            y <- a_get a k j ;;
            Ok (negb (clt (cadd (cadd x y) ceps) direct))
          else Ok false) (seq 0 (a_dim a)) true
      else Ok false)
      (seq i (a_dim a - i)) ok)
    (seq 0 (a_dim a)) true.

End Data.

Arguments edge : clear implicits.
Arguments graph : clear implicits.
Arguments namatrix : clear implicits.
Arguments vecmatrix : clear implicits.
Arguments adj : clear implicits.

(** datastructures/mod.rs:78 *)
Definition solution (N : Num) : Type := (C N * list nat)%type.
