(** * Specification vocabulary: where a solved arm really is *)
From Coq Require Import Reals ZArith Floats.SpecFloat.
From stdpp Require Import gmap.
From Verif Require Import ScalarF Geometry Joint Link Prog NodeM IkM SpecValues SpecFloatErr SpecGeom SpecReach SpecAcc.
Local Open Scope R_scope.

(** the part of [a - b] in the constrained directions *)
Definition only_constrained (c : constraints) (a b : vec3 R) : vec3 R :=
  V3 (if position_x c then vx a - vx b else 0) (if position_y c then vy a - vy b else 0) (if position_z c then vz a - vz b else 0).
(** all three directions of rotation are constrained *)
Definition fully_oriented (c : constraints) : Prop :=
  rotation_x c = true /\ rotation_y c = true /\ rotation_z c = true.
(** the angle of the rotation that takes [p] to [q] (unit quaternions; both signs of a
    quaternion stand for the same rotation) *)
Definition angle_between (p q : quat R) : R :=
  2 * acos (Rabs (qi p * qi q + qj p * qj q + qk p * qk q + qw p * qw q)).

Section Solved.
  Context (prec emax : Z).
  (** a libm whose atan2 is right up to [d] in the first quadrant *)
  Definition atan2_within (d : R) (L : libm) : Prop := forall x y r p,
    0 < r -> 0 <= p <= PI / 2 -> val prec emax y (r * sin p) -> val prec emax x (r * cos p) ->
    exists s, val prec emax (lm_atan2 L y x) s /\ Rabs (s - p) <= d.
  (** numbers whose square is lost to underflow, with a margin of the format's precision *)
  Definition faint : R := R_sqrt.sqrt (tiny emax / unit_roundoff prec).
End Solved.
