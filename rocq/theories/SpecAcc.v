(** * Specification vocabulary: computed poses against ideal ones *)
From Coq Require Import Reals ZArith Floats.SpecFloat.
From Flocq Require Import Core.
From stdpp Require Import gmap.
From Verif Require Import ScalarF Geometry Joint Link Prog NodeM SpecValues SpecFloatErr SpecGeom SpecReach.
Local Open Scope R_scope.

Section Acc.
  Context (prec emax : Z).

  (** finite vectors, quaternions and poses of floats, and their values *)
  Definition vval (x : vec3 spec_float) (r : vec3 R) : Prop :=
    val prec emax (vx x) (vx r) /\ val prec emax (vy x) (vy r) /\ val prec emax (vz x) (vz r).
  Definition qval (x : quat spec_float) (r : quat R) : Prop :=
    val prec emax (qi x) (qi r) /\ val prec emax (qj x) (qj r) /\ val prec emax (qk x) (qk r) /\ val prec emax (qw x) (qw r).
  Definition ival (x : iso spec_float) (r : iso R) : Prop := vval (tr x) (tr r) /\ qval (rt x) (rt r).
  (** distance of two quaternions *)
  Definition qdist (a b : quat R) : R :=
    R_sqrt.sqrt ((qi a - qi b) * (qi a - qi b) + (qj a - qj b) * (qj a - qj b) +
                 (qk a - qk b) * (qk a - qk b) + (qw a - qw b) * (qw a - qw b)).

  (** a libm whose sine and cosine are right up to [d] *)
  Definition libm_within (d : R) (L : libm) : Prop := forall x r, val prec emax x r ->
    (exists s, val prec emax (lm_sin L x) s /\ Rabs (s - sin r) <= d) /\
    (exists c, val prec emax (lm_cos L x) c /\ Rabs (c - cos r) <= d).

  (** the float axis [x] is the unit vector [a] up to [d]; likewise a rotation *)
  Definition near_axis (d : R) (x : vec3 spec_float) (a : vec3 R) : Prop :=
    unit_axis a /\ exists r, vval x r /\ dist r a <= d.
  Definition near_quat (d : R) (x : quat spec_float) (q : quat R) : Prop :=
    unit_quat q /\ exists r, qval x r /\ qdist r q <= d.
  Definition near_type (d : R) (x : joint_type spec_float) (ty : joint_type R) : Prop :=
    match x, ty with
    | Fixed, Fixed => True
    | Rotational x, Rotational a | Linear x, Linear a => near_axis d x a
    | _, _ => False
    end.
  (** the float joint [x] stands for the ideal joint [j]: same kind, same position,
      same offset; axis and rotation up to [d] *)
  Definition stands_for (d : R) (x : joint spec_float) (j : joint R) : Prop :=
    near_type d (j_type x) (j_type j) /\ val prec emax (j_position x) (j_position j) /\
    vval (tr (j_origin x)) (tr (j_origin j)) /\ near_quat d (rt (j_origin x)) (rt (j_origin j)).

  (** growth of the relative error per joint: axis and origin rotation are right up to
      [a], sine and cosine up to [d], and three products of poses are rounded *)
  Definition growth (a d : R) : R := (1 + a) ^ 2 * (1 + d) ^ 2 * (1 + 32 * unit_roundoff prec) ^ 3.
  (** lengths below this are lost to underflow *)
  Definition lost : R := 32 * tiny emax.
  (** the length of an arm, and a little for each joint *)
  Definition reach (js : list (joint R)) : R := total (map span js) + INR (length js) * lost.
  (** the arm is far from overflowing the format *)
  Definition fits (a d : R) (js : list (joint R)) : Prop :=
    60 * growth a d ^ (8 * length js) * (reach js + 1) <= bpow radix2 emax.
  (** the float pose [x] is finite and equals the pose [w] up to the accumulated error *)
  Definition close (a d : R) (js : list (joint R)) (x : iso spec_float) (w : iso R) : Prop :=
    exists r, ival x r /\ qdist (rt r) (rt w) <= growth a d ^ length js - 1 /\
      dist (tr r) (tr w) <= (growth a d ^ (8 * length js) - 1) * reach js.
End Acc.

(** two heaps of the same shape whose joints correspond *)
Definition stand_for (prec emax : Z) (d : R) (hf : gmap nat (node spec_float)) (hr : gmap nat (node R)) : Prop :=
  forall a, match hf !! a, hr !! a with
            | Some x, Some y => n_parent x = n_parent y /\ stands_for prec emax d (n_joint x) (n_joint y)
            | None, None => True
            | _, _ => False
            end.
