(** * Specification vocabulary: IEEE data as real numbers, with rounding *)
From Coq Require Import Reals ZArith Floats.SpecFloat.
From Flocq Require Import Core.
From Verif Require Import SpecValues.
Local Open Scope R_scope.

(** [x] is a finite number of the format with value [r] *)
Definition val (prec emax : Z) (x : spec_float) (r : R) : Prop :=
  valid_binary prec emax x = true /\ sf_value x = Some (Fin r).
(** half the distance from 1 to the next number: the relative error of one operation *)
Definition unit_roundoff (prec : Z) : R := bpow radix2 (- prec).
(** the smallest normal number *)
Definition tiny (emax : Z) : R := bpow radix2 (2 - emax).
