(** * Specification vocabulary for single joints *)
From Coq Require Import String.
From Verif Require Import Scalar Geometry Joint.

Section SpecJoint.
  Context {T : Type} `{Sc : Scalar T}.

  (** the joint can move *)
  Definition movable (j : joint T) : Prop := j_type j <> Fixed.

  (** [p] lies in the joint's limits, both bounds included *)
  Definition within_limits (j : joint T) (p : T) : Prop :=
    forall r, j_limits j = Some r -> sle (rmin r) p = true /\ sle p (rmax r) = true.

  (** [set_joint_position(p)] is to be accepted *)
  Definition admissible (j : joint T) (p : T) : Prop := movable j /\ within_limits j p.

  (** [j'] is [j] at position [p], with both caches forgotten *)
  Definition moved_to (j : joint T) (p : T) (j' : joint T) : Prop :=
    j_position j' = p /\
    j_wt_cache j' = None /\ j_wv_cache j' = None /\
    j_name j' = j_name j /\ j_type j' = j_type j /\ j_velocity j' = j_velocity j /\
    j_limits j' = j_limits j /\ j_origin j' = j_origin j.

  (** limits, if any, are ordered *)
  Definition limits_wf (j : joint T) : Prop :=
    forall r, j_limits j = Some r -> sle (rmin r) (rmax r) = true.

  (** a movable joint is inside its limits *)
  Definition inside (j : joint T) : Prop := movable j -> within_limits j (j_position j).
End SpecJoint.
