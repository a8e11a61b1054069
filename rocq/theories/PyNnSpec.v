(** What a nearest-neighbour tour is when ties are broken by the numbers of the vertices. *)
From Coq Require Import ZArith List.

(** every step of [p] goes to a nearest vertex among those not visited before, the one with the smallest number if there are
    several *)
Definition first_nearest (w : nat -> nat -> Z) (n : nat) (p : list nat) : Prop :=
  forall k v, S k < length p -> v < n -> ~ In v (firstn (S k) p) ->
    (w (nth k p 0%nat) (nth (S k) p 0%nat) < w (nth k p 0%nat) v)%Z \/
    w (nth k p 0) (nth (S k) p 0) = w (nth k p 0) v /\ nth (S k) p 0 <= v.
