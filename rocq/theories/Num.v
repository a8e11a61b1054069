(** Arithmetic used by the model.

    The Rust code computes with [f64].  The model is parametrised by a record [Num]
    giving the operations the code uses; [EZ] (below) and [B64] (NumB64.v) are the two
    instances. *)
From Coq Require Import ZArith Bool List Lia ZifyBool.
Import ListNotations.
Local Open Scope Z_scope.

(** The operations of [f64] that the modelled code uses.
    [C]     : the carrier ([f64]);
    [c0]    : [0.0];  [cinf] : [f64::INFINITY];  [cneg1] : [-1.0];
    [ceps]  : [1e-10] (datastructures/mod.rs:61);
    [cadd], [csub] : [+], [-];  [chalf x] : [x * 0.5] (parser.rs:91);
    [clt], [cle], [ceq] : [<], [<=], [==] (all false when an argument is NaN). *)
Record Num := mkNum {
  C : Type;
  c0 : C;
  cinf : C;
  cneg1 : C;
  ceps : C;
  cadd : C -> C -> C;
  csub : C -> C -> C;
  chalf : C -> C;
  clt : C -> C -> bool;
  cle : C -> C -> bool;
  ceq : C -> C -> bool
}.

Arguments c0 {_}.
Arguments cinf {_}.
Arguments cneg1 {_}.
Arguments ceps {_}.
Arguments cadd {_} _ _.
Arguments csub {_} _ _.
Arguments chalf {_} _.
Arguments clt {_} _ _.
Arguments cle {_} _ _.
Arguments ceq {_} _ _.

(** [f64::is_nan] *)
Definition cnan {N : Num} (x : C N) : bool := negb (ceq x x).

(** [OrderedFloat]'s total order: numbers as usual, NaN greater than everything and equal
    to itself (crate ordered-float, used in mst.rs, nearest_neighbour.rs, matching.rs).
    [olt x y] is [OrderedFloat(x) < OrderedFloat(y)]. *)
Definition olt {N : Num} (x y : C N) : bool :=
  if cnan x then false else if cnan y then true else clt x y.

(** [x.partial_cmp(&y)]: [None] when an argument is NaN. *)
Definition cpartial_cmp {N : Num} (x y : C N) : option comparison :=
  if clt x y then Some Lt else if clt y x then Some Gt else if ceq x y then Some Eq else None.

(** Order laws of IEEE comparison: a total preorder on the non-NaN values with infinity
    at the top; comparisons with NaN are false. *)
Record NumOrd (N : Num) := mkNumOrd {
  ord_refl : forall x : C N, cle x x = negb (cnan x);
  ord_nan_l : forall x y : C N, cle x y = true -> cnan x = false;
  ord_nan_r : forall x y : C N, cle x y = true -> cnan y = false;
  ord_total : forall x y : C N, cnan x = false -> cnan y = false ->
              cle x y = true \/ cle y x = true;
  ord_trans : forall x y z : C N, cle x y = true -> cle y z = true -> cle x z = true;
  ord_lt : forall x y : C N, clt x y = cle x y && negb (cle y x);
  ord_eq : forall x y : C N, ceq x y = cle x y && cle y x;
  ord_inf : forall x : C N, cnan x = false -> cle x cinf = true;
  ord_0 : clt (c0 : C N) cinf = true;
  ord_neg1 : clt (cneg1 : C N) c0 = true
}.

(** Exact embedding of the integers of absolute value at most [B]. *)
Record Exact (N : Num) (B : Z) := mkExact {
  inj : Z -> C N;
  inj_0 : c0 = inj 0;
  inj_add : forall a b, Z.abs a <= B -> Z.abs b <= B -> Z.abs (a + b) <= B ->
            cadd (inj a) (inj b) = inj (a + b);
  inj_sub : forall a b, Z.abs a <= B -> Z.abs b <= B -> Z.abs (a - b) <= B ->
            csub (inj a) (inj b) = inj (a - b);
  inj_half : forall a, Z.abs (2 * a) <= B -> chalf (inj (2 * a)) = inj a;
  inj_lt : forall a b, Z.abs a <= B -> Z.abs b <= B -> clt (inj a) (inj b) = (a <? b);
  inj_le : forall a b, Z.abs a <= B -> Z.abs b <= B -> cle (inj a) (inj b) = (a <=? b);
  inj_eq : forall a b, Z.abs a <= B -> Z.abs b <= B -> ceq (inj a) (inj b) = (a =? b);
  inj_lt_inf : forall a, Z.abs a <= B -> clt (inj a) cinf = true;
  inj_le_inf : forall a, Z.abs a <= B -> cle (inj a) cinf = true;
  inj_eq_inf : forall a, Z.abs a <= B -> ceq (inj a) cinf = false;
  inf_lt_inj : forall a, Z.abs a <= B -> clt cinf (inj a) = false;
  inf_le_inj : forall a, Z.abs a <= B -> cle cinf (inj a) = false;
  inf_lt_inf : clt (cinf : C N) cinf = false;
  inf_le_inf : cle (cinf : C N) cinf = true;
  inf_eq_inf : ceq (cinf : C N) cinf = true;
  inf_add_inj : forall a, Z.abs a <= B -> cadd cinf (inj a) = cinf;
  inj_add_inf : forall a, Z.abs a <= B -> cadd (inj a) cinf = cinf
}.

Arguments inj {_ _} _ _.

(** ** The exact instance *)

(** Extended integers; the unit is arbitrary (think of 2^-1075, in which every finite
    double and half of it is an integer). *)
Inductive ez := Fin (z : Z) | PInf | NInf | NaN.

Definition ez_add (x y : ez) : ez :=
  match x, y with
  | Fin a, Fin b => Fin (a + b)
  | NaN, _ | _, NaN => NaN
  | PInf, NInf | NInf, PInf => NaN
  | PInf, _ | _, PInf => PInf
  | NInf, _ | _, NInf => NInf
  end.

Definition ez_opp (x : ez) : ez :=
  match x with Fin a => Fin (- a) | PInf => NInf | NInf => PInf | NaN => NaN end.

Definition ez_sub (x y : ez) : ez := ez_add x (ez_opp y).

(** Halving is exact on even numbers only; the theorems use it on even numbers only. *)
Definition ez_half (x : ez) : ez :=
  match x with Fin a => Fin (a / 2) | _ => x end.

Definition ez_lt (x y : ez) : bool :=
  match x, y with
  | Fin a, Fin b => a <? b
  | NaN, _ | _, NaN => false
  | NInf, NInf => false
  | NInf, _ => true
  | _, NInf => false
  | PInf, _ => false
  | Fin _, PInf => true
  end.

Definition ez_eq (x y : ez) : bool :=
  match x, y with
  | Fin a, Fin b => a =? b
  | PInf, PInf => true
  | NInf, NInf => true
  | _, _ => false
  end.

Definition ez_le (x y : ez) : bool := ez_lt x y || ez_eq x y.

(** [ceps] is taken to be 0: exact arithmetic needs no tolerance. *)
Definition EZ : Num :=
  mkNum ez (Fin 0) PInf (Fin (-1)) (Fin 0) ez_add ez_sub ez_half ez_lt ez_le ez_eq.

Definition EZ_exact (B : Z) : Exact EZ B.
Proof.
  refine (mkExact EZ B Fin _ _ _ _ _ _ _ _ _ _ _ _ _ _ _ _ _); simpl; intros;
    try reflexivity; unfold ez_le, ez_half; simpl; try lia.
  - change (Fin ((2 * a) / 2) = Fin a). f_equal. rewrite Z.mul_comm. apply Z.div_mul. lia.
Defined.

Lemma EZ_ord : NumOrd EZ.
Proof.
  constructor; simpl; unfold cnan, ez_le; simpl.
  - intros [x| | |]; simpl; try reflexivity; lia.
  - intros [x| | |] [y| | |]; simpl; try reflexivity; try congruence; lia.
  - intros [x| | |] [y| | |]; simpl; try reflexivity; try congruence; lia.
  - intros [x| | |] [y| | |]; simpl; try tauto; try congruence; lia.
  - intros [x| | |] [y| | |] [z| | |]; simpl; try tauto; try congruence; lia.
  - intros [x| | |] [y| | |]; simpl; try reflexivity; lia.
  - intros [x| | |] [y| | |]; simpl; try reflexivity; lia.
  - intros [x| | |]; simpl; try reflexivity; lia.
  - reflexivity.
  - reflexivity.
Qed.
