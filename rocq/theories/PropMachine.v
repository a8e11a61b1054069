(** C63: the work splits do not overflow on machine integers.  See Machine.v. *)
From Coq Require Import ZArith Arith Bool List Lia.
From Verif Require Import Num Base Exact Threaded Nn DigitsProofs Machine MachineProofs.
Import ListNotations.

(** In a debug and in a release build, worker [k] of [n] gets the same prefixes as with unbounded
    integers (about which C11 to C17 speak), as long as the number of keys fits a [usize] ... *)
Theorem C63_same_prefixes : forall build prefix_length dim n k, (Z.of_nat prefix_length < 2 ^ 32)%Z ->
  (Z.of_nat dim ^ Z.of_nat prefix_length < 2 ^ 64)%Z -> k < n ->
  m_split_up_b_ary_number_into_n_chunks build prefix_length (Z.of_nat dim) (Z.of_nat n) (Z.of_nat k) =
    on_machine (fun '(lo, hi) => (words lo, words hi)) (split_up_b_ary_number_into_n_chunks prefix_length dim n k) /\
  m_chunk_prefixes build (S (dim ^ prefix_length)) prefix_length (Z.of_nat dim) (Z.of_nat n) (Z.of_nat k) =
    on_machine (map words) (chunk_prefixes prefix_length dim n k).
Proof.
  intros b digits dim n k Hd Hp Hk. pose proof (m_split_ok b digits dim n k Hd Hp Hk) as E. split; [exact E|].
  unfold m_chunk_prefixes, chunk_prefixes. rewrite E. destruct (le_lt_dec (dim ^ digits) n) as [Hl|Hl].
  - rewrite split_panics by (left; exact Hl). reflexivity.
  - rewrite split_spec by lia. cbn [on_machine bind].
    assert (Hb : 1 <= dim) by (destruct dim; [destruct digits; simpl in Hl; lia|lia]).
    apply m_walk_ok; [exact Hb| |apply (convert_ok dim Hb)].
    assert (1 <= digits) by (destruct digits; [simpl in Hl; lia|lia]). rewrite <- of_nat_pow in Hp.
    assert (dim <= dim ^ digits) by (rewrite <- (Nat.pow_1_r dim) at 1; apply Nat.pow_le_mono_r; lia). lia.
Qed.
Print Assumptions C63_same_prefixes.

(** ... which for the prefixes of three cities the solvers use is the case up to 2642245 cities. *)
Theorem C63_three_cities : forall build dim n k, (Z.of_nat dim <= 2642245)%Z -> k < n ->
  m_chunk_prefixes build (S (dim ^ 3)) 3 (Z.of_nat dim) (Z.of_nat n) (Z.of_nat k) = on_machine (map words) (chunk_prefixes 3 dim n k).
Proof.
  intros b dim n k Hd Hk. apply C63_same_prefixes; [lia| |exact Hk].
  apply (Z.le_lt_trans _ (2642245 ^ 3)); [|reflexivity]. change (Z.of_nat 3) with 3%Z. apply Z.pow_le_mono_l. lia.
Qed.
Print Assumptions C63_three_cities.

(** The counter of the root of the dynamic solver never overflows. *)
Theorem C63_next_value : forall build dim d, 1 <= dim -> (Z.of_nat dim < 2 ^ 64)%Z -> Forall (fun x => x < dim) d ->
  m_get_next_value build (words d) (Z.of_nat dim) = Ok (option_map words (get_next_value d dim)).
Proof. intros b dim d Hb Hm Hd. apply m_get_next_value_ok; assumption. Qed.
Print Assumptions C63_next_value.

(** The start nodes of the ranks in the nearest-neighbour heuristic, with 32-bit arithmetic: the same
    as with unbounded integers for every number of cities that fits an [i32]; more cities panic. *)
Theorem C63_start_nodes : forall build dim size rank, (Z.of_nat size < 2 ^ 31)%Z -> rank < size ->
  ((Z.of_nat dim < 2 ^ 31)%Z ->
    exists lo hi, m_nn_chunk build (Z.of_nat dim) (Z.of_nat size) (Z.of_nat rank) = Ok (Z.of_nat lo, Z.of_nat hi) /\
      nn_chunk dim size rank = seq lo (hi - lo)) /\
  ((2 ^ 31 <= Z.of_nat dim)%Z -> m_nn_chunk build (Z.of_nat dim) (Z.of_nat size) (Z.of_nat rank) = Panic).
Proof.
  intros b dim size rank Hs Hr. split; intros Hn.
  - apply m_nn_chunk_ok; assumption.
  - unfold m_nn_chunk. destruct (Z.ltb_spec (Z.of_nat dim) (2 ^ 31)); [lia|reflexivity].
Qed.
Print Assumptions C63_start_nodes.

(** The bound is sharp.  A debug build panics when there are too many keys; a release build goes on
    with wrong chunks: of two workers with 2642246 cities, the last one stops at city 0. *)
Theorem C63_debug_overflow_panics : forall prefix_length dim n k, (Z.of_nat prefix_length < 2 ^ 32)%Z ->
  (2 ^ 64 <= Z.of_nat dim ^ Z.of_nat prefix_length)%Z ->
  m_split_up_b_ary_number_into_n_chunks Debug prefix_length (Z.of_nat dim) (Z.of_nat n) (Z.of_nat k) = Panic.
Proof.
  intros digits dim n k Hd Hp. unfold m_split_up_b_ary_number_into_n_chunks. rewrite Z.mod_small by lia.
  rewrite u_pow_over by (try exact Hp; lia). reflexivity.
Qed.
Print Assumptions C63_debug_overflow_panics.

Theorem C63_release_overflow_refuted : exists dim n lo hi, (dim = 2642245 + 1)%Z /\
  m_split_up_b_ary_number_into_n_chunks Release 3 dim n (n - 1) = Ok (lo, hi) /\ nth 0 hi 1%Z = 0%Z.
Proof.
  exists 2642246%Z, 2%Z, [0; 199638; 868712]%Z, [0; 399276; 1737423]%Z.
  split; [reflexivity|]. split; [vm_compute; reflexivity|reflexivity].
Qed.
Print Assumptions C63_release_overflow_refuted.

(** With 2642245 cities the second of two workers goes up to the last city. *)
Example C63_applies :
  m_split_up_b_ary_number_into_n_chunks Debug 3 2642245 2 1 = Ok ([1321122; 1321122; 1321122]%Z, [2642244; 2642244; 2642243]%Z) /\
  m_chunk_prefixes Release 28 3 3 2 1 = Ok [[1; 2; 0]; [2; 0; 1]; [2; 1; 0]]%Z /\ chunk_prefixes 3 3 2 1 = Ok [[1; 2; 0]; [2; 0; 1]; [2; 1; 0]] /\
  m_nn_chunk Debug 2147483647 10 9 = Ok (1932735276, 2147483647)%Z.
Proof. repeat split; vm_compute; reflexivity. Qed.
