(** * Specification vocabulary: convergence of the solver in floating point *)
From Coq Require Import Reals ZArith Floats.SpecFloat.
From stdpp Require Import gmap.
From Verif Require Import Scalar ScalarF Geometry Joint Link Prog NodeM IkM SpecValues SpecFloatErr SpecGeom.
Local Open Scope R_scope.

(** no rotation is constrained *)
Definition position_only (c : constraints) : Prop := rotation_x c = false /\ rotation_y c = false /\ rotation_z c = false.
(** if the joint at [a] has limits, they and its position are finite, and the position is at
    least [r] inside *)
Definition room (prec emax : Z) (h : gmap nat (node spec_float)) (r : R) (a : nat) : Prop :=
  forall n lim, h !! a = Some n -> j_limits (n_joint n) = Some lim ->
    exists lo hi p, val prec emax (rmin lim) lo /\ val prec emax (rmax lim) hi /\ val prec emax (j_position (n_joint n)) p /\ lo <= p - r /\ p + r <= hi.
