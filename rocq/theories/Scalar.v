(** * Scalars: the operations of [T: RealField + SubsetOf<f64>] used by the crate.

    The class carries operations only, no laws: every definition of the model is
    parametric in it, so that a theorem which assumes no law holds bit for bit
    for floating point.  Laws, where needed, are separate predicates below,
    proved for the instances in [ScalarR.v] (exact reals) and [ScalarF.v]
    (IEEE-754 binary32/binary64). *)
From Coq Require Import QArith Bool.

Class Scalar (T : Type) := {
  szero : T;                      (* T::zero() *)
  sone : T;                       (* T::one() *)
  sadd : T -> T -> T;             (* + *)
  ssub : T -> T -> T;             (* binary - *)
  smul : T -> T -> T;             (* * *)
  sdiv : T -> T -> T;             (* / *)
  sneg : T -> T;                  (* unary - *)
  sle : T -> T -> bool;           (* <= *)
  slt : T -> T -> bool;           (* <  *)
  seqb : T -> T -> bool;          (* == *)
  ssin : T -> T;                  (* sin *)
  scos : T -> T;                  (* cos *)
  satan2 : T -> T -> T;           (* y.atan2(x) = satan2 y x *)
  ssqrt : T -> T;                 (* sqrt *)
  sabs : T -> T;                  (* abs *)
  sofQ : Q -> T;                  (* na::convert of a decimal literal *)
}.

(** [a >= b] and [a > b] of PartialOrd, expressed by [<=]/[<] with the operands
    swapped (the IEEE comparisons are symmetric in this sense). *)
Definition sge {T} `{Scalar T} (a b : T) : bool := sle b a.
Definition sgt {T} `{Scalar T} (a b : T) : bool := slt b a.

Definition stwo {T} `{Scalar T} : T := sadd sone sone.

(** "is a number": not NaN.  IEEE [x <= x] is false exactly for NaN. *)
Definition snum {T} `{Scalar T} (x : T) : Prop := sle x x = true.

(** Laws of the comparisons that hold both for the reals and for IEEE floats
    with NaN. *)
Class OrdLaws (T : Type) `{Scalar T} : Prop := {
  sle_num : forall x y : T, sle x y = true -> snum x /\ snum y;
  slt_not_sle : forall x y : T, snum x -> snum y -> slt x y = negb (sle y x);
  slt_num : forall x y : T, slt x y = true -> snum x /\ snum y;
  szero_num : snum (szero : T);
}.
