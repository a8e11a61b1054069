(** The vocabulary in which the properties are stated.  Independent of the model. *)
From Coq Require Import ZArith Bool List Permutation Lia.
Import ListNotations.
Local Open Scope Z_scope.

(** A closed tour through the vertices [0 .. n-1], written without repeating the start. *)
Definition is_tour (n : nat) (p : list nat) : Prop := Permutation p (seq 0 n).

(** Cost of walking along a list of vertices. *)
Fixpoint path_cost (w : nat -> nat -> Z) (p : list nat) : Z :=
  match p with
  | a :: ((b :: _) as t) => w a b + path_cost w t
  | _ => 0
  end.

(** Cost of the closed tour: walk along it and return from the last to the first vertex. *)
Definition tour_cost (w : nat -> nat -> Z) (p : list nat) : Z :=
  match p with
  | [] => 0
  | a :: _ => path_cost w p + w (last p a) a
  end.

(** [c] and [p] are an optimal solution of the instance [w] on [n] vertices. *)
Definition is_optimal (w : nat -> nat -> Z) (n : nat) (c : Z) (p : list nat) : Prop :=
  is_tour n p /\ tour_cost w p = c /\ forall q, is_tour n q -> c <= tour_cost w q.

(** Classes of instances (conditions only on the vertices below [n]). *)
Definition symmetric (w : nat -> nat -> Z) (n : nat) : Prop :=
  forall i j, (i < n)%nat -> (j < n)%nat -> w i j = w j i.
Definition nonneg (w : nat -> nat -> Z) (n : nat) : Prop :=
  forall i j, (i < n)%nat -> (j < n)%nat -> 0 <= w i j.
Definition triangle (w : nat -> nat -> Z) (n : nat) : Prop :=
  forall i j k, (i < n)%nat -> (j < n)%nat -> (k < n)%nat -> w i j <= w i k + w k j.
Definition bounded (w : nat -> nat -> Z) (n : nat) (W : Z) : Prop :=
  forall i j, (i < n)%nat -> (j < n)%nat -> Z.abs (w i j) <= W.
(** The triangle inequality with a slack of [d], as for rounded distances *)
Definition triangle_up_to (w : nat -> nat -> Z) (n : nat) (d : Z) : Prop :=
  forall i j k, (i < n)%nat -> (j < n)%nat -> (k < n)%nat -> w i j <= w i k + w k j + d.

(** Sum of the weights of a list of edges. *)
Definition edges_cost (w : nat -> nat -> Z) (E : list (nat * nat)) : Z :=
  fold_right (fun e acc => w (fst e) (snd e) + acc) 0 E.

(** [a] and [b] are joined by a walk along edges of [E] (in either direction). *)
Inductive joined (E : list (nat * nat)) : nat -> nat -> Prop :=
| joined_refl : forall a, joined E a a
| joined_step : forall a b c, joined E a b -> (In (b, c) E \/ In (c, b) E) -> joined E a c.

(** [E] is a spanning tree of the vertex set [V]: its edges lie in [V], it joins any two
    vertices of [V], and it has one edge less than [V] has vertices. *)
Definition spanning_tree (V : list nat) (E : list (nat * nat)) : Prop :=
  (forall a b, In (a, b) E -> In a V /\ In b V) /\
  (forall a b, In a V -> In b V -> joined E a b) /\
  S (length E) = length V.

(** Every vertex of [V] is an endpoint of exactly one pair of [M], and the endpoints are in
    [V] and distinct. *)
Definition endpoints (M : list (nat * nat)) : list nat :=
  flat_map (fun e => [fst e; snd e]) M.
Definition perfect_matching (V : list nat) (M : list (nat * nat)) : Prop :=
  Permutation (endpoints M) V.

(** The vertices [0 .. n-1] that are not excluded. *)
Definition free_vertices (n : nat) (excluded : list nat) : list nat :=
  filter (fun v => negb (existsb (Nat.eqb v) excluded)) (seq 0 n).

(** The edges of [T] at vertex [v]: for each its other endpoint and the edge itself. *)
Definition incident (T : list (nat * nat)) (v : nat) : list (nat * (nat * nat)) :=
  flat_map (fun e => (if (snd e =? v)%nat then [(fst e, e)] else []) ++
                     (if (fst e =? v)%nat then [(snd e, e)] else [])) T.

(** Strict lexicographic order on lists of equal length. *)
Inductive lex : list nat -> list nat -> Prop :=
| lex_head : forall a b p q, (a < b)%nat -> lex (a :: p) (b :: q)
| lex_tail : forall a p q, lex p q -> lex (a :: p) (a :: q).

(** The number written by digits in base [b], most significant digit first. *)
Definition number (b : nat) (digits : list nat) : nat :=
  fold_left (fun acc d => (acc * b + d)%nat) digits 0%nat.

(** A 1-tree at [s]: a spanning tree of the other vertices and two different edges at [s]. *)
Definition one_tree_at (n s : nat) (E : list (nat * nat)) : Prop :=
  exists T a b, E = T ++ [(s, a); (s, b)] /\ spanning_tree (free_vertices n [s]) T /\
    (a < n)%nat /\ (b < n)%nat /\ a <> s /\ b <> s /\ a <> b.

(** Every step of [p] goes to a vertex of least cost among those not visited before it. *)
Definition greedy_tour (w : nat -> nat -> Z) (n : nat) (p : list nat) : Prop :=
  forall k v, (S k < length p)%nat -> (v < n)%nat -> ~ In v (firstn (S k) p) ->
    w (nth k p 0%nat) (nth (S k) p 0%nat) <= w (nth k p 0%nat) v.

(** How often the walk [p] goes from [i] to [j] or from [j] to [i] (a loop counts twice: it
    takes up two places at its vertex). *)
Fixpoint traversals (p : list nat) (i j : nat) : nat :=
  match p with
  | a :: ((b :: _) as t) =>
    ((if (a =? i) && (b =? j) then 1 else 0) + (if (a =? j) && (b =? i) then 1 else 0) + traversals t i j)%nat
  | _ => 0%nat
  end.

(** The degree of [v] in the multigraph on [0 .. n-1] with [G i j] edges between [i] and [j]
    (for a loop: two for each). *)
Definition degree (n : nat) (G : nat -> nat -> nat) (v : nat) : nat := list_sum (map (G v) (seq 0 n)).

(** Every vertex is reached from 0 along edges of the multigraph. *)
Inductive reached (n : nat) (G : nat -> nat -> nat) : nat -> Prop :=
| reached_0 : reached n G 0
| reached_step : forall u v, reached n G u -> (v < n)%nat -> G u v <> 0%nat -> reached n G v.
Definition connected (n : nat) (G : nat -> nat -> nat) : Prop := forall v, (v < n)%nat -> reached n G v.

(** How many of the listed edges join [i] and [j] (a loop counts twice). *)
Definition copies (E : list (nat * nat)) (i j : nat) : nat :=
  list_sum (map (fun e => ((if (fst e =? i) && (snd e =? j) then 1 else 0) + (if (fst e =? j) && (snd e =? i) then 1 else 0))%nat) E).

(** Some pair is listed twice (in either order). *)
Definition repeated_pair (M : list (nat * nat)) : Prop :=
  exists A e B f D, M = A ++ e :: B ++ f :: D /\ (f = e \/ f = (snd e, fst e)).
