(** * Specification vocabulary: computed Jacobians against ideal ones *)
From Coq Require Import Reals ZArith Floats.SpecFloat.
From Flocq Require Import Core.
From stdpp Require Import gmap.
From Verif Require Import ScalarF Geometry Joint SpecValues SpecFloatErr SpecGeom SpecReach SpecAcc.
Local Open Scope R_scope.

Section JacAcc.
  Context (prec emax : Z).
  (** the float column [x] is finite; its upper half has the value [v], its lower half [w] *)
  Definition column_val (x : list spec_float) (v w : vec3 R) : Prop :=
    Forall2 (val prec emax) x [vx v; vy v; vz v; vx w; vy w; vz w].
  (** the Jacobian of the arm is far from overflowing the format *)
  Definition fits_jacobian (a d : R) (js : list (joint R)) : Prop :=
    60 * growth prec a d ^ (16 * S (length js)) * (reach emax js + 1) <= bpow radix2 emax.
  (** the velocity [v] and the turning rate [w] equal [v0] and [w0] up to the accumulated error *)
  Definition rates_close (a d : R) (js : list (joint R)) (v w v0 w0 : vec3 R) : Prop :=
    dist v v0 <= (growth prec a d ^ (16 * S (length js)) - 1) * (2 * reach emax js + 1) /\
    dist w w0 <= growth prec a d ^ (8 * S (length js)) - 1.
End JacAcc.
