(** Tours and trees of an instance with charges. *)
From Coq Require Import ZArith Arith Bool List Permutation Lia.
From Verif Require Import Spec SpecFacts ChargeSpec RenameSpec RenameProofs BoundsProofs.
Import ListNotations.
Local Open Scope Z_scope.

Lemma total_perm t p q : Permutation p q -> total t p = total t q.
Proof. induction 1; cbn [total fold_right] in *; unfold total in *; lia. Qed.

Lemma path_charged w o i p : forall a, path_cost (charged w o i) (a :: p) = path_cost w (a :: p) + total o (a :: p) - o (last (a :: p) a) + total i p.
Proof.
  induction p as [|b p IH]; intros a; [cbn; lia|]. change (path_cost (charged w o i) (a :: b :: p)) with (charged w o i a b + path_cost (charged w o i) (b :: p)).
  rewrite IH. assert (E : last (a :: b :: p) a = last (b :: p) b).
  { cbn [last]. destruct p as [|c p]; [reflexivity|]. change (last (c :: p) a = last (c :: p) b). clear. revert c. induction p as [|d p IH]; intros c; [reflexivity|]. exact (IH d). }
  rewrite E. change (path_cost w (a :: b :: p)) with (w a b + path_cost w (b :: p)). unfold charged, total. cbn [fold_right]. lia.
Qed.

Lemma tour_charged n w o i p : is_tour n p -> tour_cost (charged w o i) p = tour_cost w p + charges n o i.
Proof.
  intros Hp. unfold charges. rewrite <- !(total_perm _ _ _ Hp). destruct p as [|a p]; [reflexivity|]. unfold tour_cost. rewrite path_charged.
  unfold charged. unfold total. cbn [fold_right]. lia.
Qed.

Lemma optimal_charged n w o i c c' p q : is_optimal w n c p -> is_optimal (charged w o i) n c' q -> c' = c + charges n o i /\ is_optimal w n c q.
Proof.
  intros (Hp & Ep & Mp) (Hq & Eq & Mq). pose proof (Mp q Hq) as H1. pose proof (Mq p Hp) as H2. rewrite (tour_charged n) in Eq, H2 by assumption.
  assert (E : c' = c + charges n o i) by lia. split; [exact E|]. split; [exact Hq|]. split; [lia|exact Mp].
Qed.

Lemma edges_surcharged w d E : edges_cost (surcharged w d) E = edges_cost w E + d * Z.of_nat (length E).
Proof. induction E as [|[a b] E IH]; [cbn; lia|]. cbn [edges_cost fold_right length] in *. unfold edges_cost in IH. rewrite IH. unfold surcharged at 1. cbn [fst snd]. lia. Qed.

Lemma tree_surcharged w d V T T' : spanning_tree V T -> (forall U, spanning_tree V U -> edges_cost w T <= edges_cost w U) ->
  spanning_tree V T' -> (forall U, spanning_tree V U -> edges_cost (surcharged w d) T' <= edges_cost (surcharged w d) U) ->
  edges_cost (surcharged w d) T' = edges_cost w T + d * (Z.of_nat (length V) - 1).
Proof.
  intros HT MT HT' MT'. specialize (MT T' HT'). specialize (MT' T HT). destruct HT as (_ & _ & L), HT' as (_ & _ & L').
  rewrite !edges_surcharged in *. assert (E : length T = length T') by lia. rewrite E in *. nia.
Qed.

Lemma one_tree_surcharged n w d c c' : one_tree_value n w c -> one_tree_value n (surcharged w d) c' -> c' = c + d * Z.of_nat n.
Proof.
  intros [(s & F & Hs & HF & EF & MF) A] [(s' & F' & Hs' & HF' & EF' & MF') A'].
  assert (L : forall s F, (s < n)%nat -> one_tree_at n s F -> Z.of_nat (length F) = Z.of_nat n).
  { intros r E Hr (T & a & b & -> & (_ & _ & HL) & _). pose proof (free_length n r Hr) as Hf. rewrite app_length. cbn [length]. lia. }
  destruct (A' s Hs) as (G & HG & Hle). destruct (A s' Hs') as (G' & HG' & Hle').
  specialize (MF G HG). specialize (MF' G' HG'). rewrite edges_surcharged, (L _ _ Hs HG) in Hle. rewrite edges_surcharged, (L _ _ Hs' HG') in MF'. lia.
Qed.

Lemma greedy_surcharged n w d p : greedy_tour (surcharged w d) n p <-> greedy_tour w n p.
Proof. split; intros H k v H1 H2 H3; specialize (H k v H1 H2 H3); unfold surcharged in *; lia. Qed.
