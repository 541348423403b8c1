(** * Specification vocabulary for the rounding errors of the LU solve *)
From Coq Require Import String Reals ZArith Lra Floats.SpecFloat.
From Flocq Require Import Core.
From stdpp Require Import gmap.
From Verif Require Import Scalar ScalarF Geometry Joint Link Prog NodeM ChainM FuncsM IkM SpecFloatErr SpecStep SpecLin.
Local Open Scope R_scope.

(** the sum of the absolute values *)
Fixpoint norm1 (x : list R) : R := match x with [] => 0 | y :: x => Rabs y + norm1 x end.
(** no entry is larger than [e] *)
Definition all_le (e : R) (x : list R) : Prop := Forall (fun y => Rabs y <= e) x.
(** the entries of the float matrix [m] are finite and [J] has their values *)
Definition mat_val (prec emax : Z) (m : mat spec_float) (J : mat R) : Prop :=
  m_rows m = m_rows J /\ Forall2 (Forall2 (val prec emax)) (m_cols m) (m_cols J).
Definition list_val (prec emax : Z) (x : list spec_float) (r : list R) : Prop := Forall2 (val prec emax) x r.
Definition entries_le (a : R) (J : mat R) : Prop := Forall (all_le a) (m_cols J).
(** the matrix moves every vector: it is regular, and [lam] measures how far from singular *)
Definition expands (lam : R) (J : mat R) : Prop :=
  forall x e, length x = length (m_cols J) -> 0 <= e -> all_le e (act J x) -> lam * norm1 x <= e.
(** the system is far from overflowing the format *)
Definition fits_lu (prec emax : Z) (n : nat) (a be : R) : Prop :=
  tiny emax <= a /\ tiny emax <= be /\ 3 ^ n * a <= bpow radix2 (emax - 2) /\ 3 ^ n * be <= bpow radix2 (emax - 2) /\ 8 * INR n * unit_roundoff prec <= 1.
(** and so is its solution *)
Definition fits_answer (emax : Z) (n : nat) (a be lam : R) : Prop :=
  2 * tiny emax <= lam /\
  8 * (3 ^ n * be + 3 ^ n * a * (24 * (3 ^ n * be) / lam + tiny emax)) <= bpow radix2 (emax - 2) * Rmin 1 lam.
