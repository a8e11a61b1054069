(** Property C74: the factor two of the pruned solvers is the best possible. *)
From Coq Require Import ZArith Arith Bool List Permutation Lia.
From Verif Require Import Num NumB64 Base Spec SpecFacts Data Exact Threaded Mpi Cli Instances PermProofs BoundsProofs TightProofs
  PropExact PropCli.
Import ListNotations.

(** The distances of a metric: from a city to itself 0, both ways the same, with the triangle
    inequality. *)
Definition metric (w : nat -> nat -> Z) (n : nat) : Prop :=
  symmetric w n /\ nonneg w n /\ triangle w n /\ forall i, i < n -> w i i = 0%Z.

(** No tour is cheaper than its number of steps. *)
Lemma far_metric n : metric (far n) n.
Proof.
  split; [intros i j _ _; apply far_sym|]. split; [intros i j _ _; apply far_bounds|]. split; [intros i j k _ _ _; apply far_triangle|].
  intros i _. apply far_diag.
Qed.
Lemma far_least n q : 2 <= n -> is_tour n q -> (Z.of_nat n <= tour_cost (far n) q)%Z.
Proof.
  intros Hn Hq. pose proof (tour_NoDup n q Hq) as Hnd. pose proof (tour_length n q Hq) as Hl. destruct q as [|a [|b q]]; [cbn in Hl; lia|cbn in Hl; lia|].
  rewrite tour_cost_closed, <- Hl. apply far_walk; [assumption|discriminate|]. change (last (a :: b :: q) a) with (last (b :: q) a). intros E.
  inversion Hnd as [|? ? Ha _]. subst. apply Ha. rewrite <- E at 1. apply last_In. discriminate.
Qed.

(** For every even number of cities from 8 on: on some metric whose optimum is 2h, V5 answers a
    tour of cost 4h - 6, and so does V6 when no two prefixes have the same hash. *)
Theorem C74_tight : forall h, 4 <= h -> exists w p, metric w (2 * h) /\ is_tour (2 * h) p /\
  (exists q, is_tour (2 * h) q /\ tour_cost w q = (2 * Z.of_nat h)%Z) /\ (forall q, is_tour (2 * h) q -> (2 * Z.of_nat h <= tour_cost w q)%Z) /\
  tour_cost w p = (4 * Z.of_nat h - 6)%Z /\
  fifth_improved_solver (int_matrix (2 * h) w) = Ok (Fin (4 * Z.of_nat h - 6)%Z, p) /\
  forall hash, (forall p q, NoDup p -> Forall (fun i => i < 2 * h) p -> NoDup q -> Forall (fun i => i < 2 * h) q -> hash p = hash q -> p = q) ->
    sixth_improved_solver_with hash (int_matrix (2 * h) w) = Ok (Fin (4 * Z.of_nat h - 6)%Z, p).
Proof.
  intros h Hh. set (n := 2 * h). exists (far n), (seq 0 n). split; [apply far_metric|]. split; [apply Permutation_refl|].
  split; [exists (zigzag h); split; [apply zigzag_tour|apply zigzag_cost; lia]|]. split; [intros q Hq; pose proof (far_least n q ltac:(lia) Hq); lia|].
  split; [rewrite far_first by lia; lia|].
  assert (E : fifth_improved_solver (int_matrix n (far n)) = Ok (Fin (4 * Z.of_nat h - 6)%Z, seq 0 n)).
  { pose proof (far_fifth (EZ_exact (6 * (Z.of_nat n + 1))) EZ_ord (int_matrix n (far n)) (matrix_of_wf n _)) as H.
    replace (4 * Z.of_nat h - 6)%Z with (2 * Z.of_nat n - 6)%Z by lia. apply H; [cbn; lia|apply (emb_represents (EZ_exact _) n (far n))|cbn; lia]. }
  split; [exact E|]. intros hash Hi. rewrite C08_sixth_equals_fifth by exact Hi. exact E.
Qed.
Print Assumptions C74_tight.

(** The same with doubles, in every unit 2^e in which the numbers are exact. *)
Theorem C74_tight_f64 : forall e h, (-1074 <= e <= 970)%Z -> 4 <= h -> (6 * (2 * Z.of_nat h + 1) <= 2 ^ 53)%Z -> exists w p,
  metric w (2 * h) /\ bounded w (2 * h) 2 /\ is_tour (2 * h) p /\
  (exists q, is_tour (2 * h) q /\ tour_cost w q = (2 * Z.of_nat h)%Z) /\ (forall q, is_tour (2 * h) q -> (2 * Z.of_nat h <= tour_cost w q)%Z) /\
  tour_cost w p = (4 * Z.of_nat h - 6)%Z /\
  fifth_improved_solver (f64_matrix e (2 * h) w) = Ok (b64_inj e (4 * Z.of_nat h - 6), p).
Proof.
  intros e h He Hh HB. set (n := 2 * h). exists (far n), (seq 0 n). split; [apply far_metric|].
  split; [intros i j _ _; pose proof (far_bounds n i j); lia|]. split; [apply Permutation_refl|].
  split; [exists (zigzag h); split; [apply zigzag_tour|apply zigzag_cost; lia]|]. split; [intros q Hq; pose proof (far_least n q ltac:(lia) Hq); lia|].
  split; [rewrite far_first by lia; lia|].
  replace (4 * Z.of_nat h - 6)%Z with (2 * Z.of_nat n - 6)%Z by lia.
  pose proof (far_fifth (B64_exact e He) B64_ord (f64_matrix e n (far n)) (matrix_of_wf n _)) as H.
  apply H; [cbn [na_dim f64_matrix matrix_of]; lia|apply (emb_represents (B64_exact e He) n (far n))|cbn [na_dim f64_matrix matrix_of]; lia].
Qed.
Print Assumptions C74_tight_f64.

(** No factor a/b below two is guaranteed: some document with a metric makes the command print,
    with one thread or with as many threads as cities, a tour dearer than a/b times another. *)
Theorem C74_no_better_factor : forall a b, (0 <= a < 2 * b)%Z -> exists g n w p c q,
  document (N := EZ) Fin g n w /\ metric w n /\ is_tour n p /\ tour_cost w p = c /\ is_tour n q /\ (a * tour_cost w q < b * c)%Z /\
  (forall wd, only_outcome wd (ExactCmd V5 SingleThreaded) g (mkOut [[BestCost (Fin c : C EZ); BestPermutation p]] Done)) /\
  (forall wd v, n <= w_threads wd -> only_outcome wd (ExactCmd v MultiThreaded) g (mkOut [[BestCost (Fin c : C EZ); BestPermutation p]] Done)).
Proof.
  intros a b Hab. set (h := Z.to_nat (3 * b + 4)). assert (Hh : Z.of_nat h = (3 * b + 4)%Z) by lia.
  destruct (C74_tight h ltac:(lia)) as (w & p & Hm & Hp & (q & Hq & Eq) & _ & Ec & E5 & _). set (n := 2 * h) in *.
  assert (Hd : document (N := EZ) Fin (table_graph n w) n w) by (apply table_document; apply Hm).
  exists (table_graph n w), n, w, p, (4 * Z.of_nat h - 6)%Z, q. split; [exact Hd|]. split; [exact Hm|]. split; [exact Hp|]. split; [exact Ec|]. split; [exact Hq|].
  split; [rewrite Eq, Hh; nia|]. split.
  - intros wd o'. cbn [run]. unfold exact_run. rewrite (int_document _ _ _ Hd). unfold exact_solved. cbn [exact_solver]. rewrite E5. cbn [bind].
    split; [intros (rs & -> & ->); reflexivity|]. intros ->. eexists. split; reflexivity.
  - intros wd v Ht o'. cbn [run]. unfold exact_run. rewrite (int_document _ _ _ Hd). unfold exact_solved, threaded_result. change (na_dim (int_matrix n w)) with n.
    apply Nat.leb_le in Ht. rewrite Ht, E5. split.
    + intros (rs & [(s & Hs & ->)|[H _]] & ->); [|discriminate]. injection Hs as <-. reflexivity.
    + intros ->. eexists. split; [left; eexists; split; reflexivity|]. reflexivity.
Qed.
Print Assumptions C74_no_better_factor.

(** Eight cities: the optimum is 8, the printed cost 10. *)
Example C74_applies : metric (far 8) 8 /\ tour_cost (far 8) (zigzag 4) = 8%Z /\ zigzag 4 = [0;2;4;6;1;3;5;7] /\
  fifth_improved_solver (int_matrix 8 (far 8)) = Ok (Fin 10%Z, [0;1;2;3;4;5;6;7]).
Proof. split; [apply far_metric|]. split; [reflexivity|]. split; [reflexivity|]. vm_compute. reflexivity. Qed.
