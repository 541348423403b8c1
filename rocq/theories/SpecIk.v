(** * Specification vocabulary for the inverse kinematics solver *)
From Coq Require Import String.
From stdpp Require Import gmap.
From Verif Require Import Scalar Geometry Joint Link Prog NodeM ChainM FuncsM IkM SpecJoint SpecNode SpecChain.

Section SpecIk.
  Context {T : Type} `{Sc : Scalar T}.
  Implicit Types (h : gmap nat (node T)).

  (** a coordinate that is not constrained counts as zero *)
  Definition keep (b : bool) (x : T) : T := if b then x else szero.
  (** the difference of the positions, restricted to the constrained coordinates *)
  Definition position_error (c : constraints) (target w : iso T) : vec3 T :=
    V3 (keep (position_x c) (ssub (vx (tr target)) (vx (tr w))))
       (keep (position_y c) (ssub (vy (tr target)) (vy (tr w))))
       (keep (position_z c) (ssub (vz (tr target)) (vz (tr w)))).
  (** the rotation vector taking [w]'s orientation to the target's, likewise *)
  Definition rotation_error (c : constraints) (target w : iso T) : vec3 T :=
    let d := qscaled_axis (qmul (rt target) (qconj (rt w))) in
    V3 (keep (rotation_x c) (vx d)) (keep (rotation_y c) (vy d)) (keep (rotation_z c) (vz d)).
  (** [w] is within the solver's tolerances of the target *)
  Definition on_target (s : solver T) (c : constraints) (target w : iso T) : Prop :=
    slt (vnorm (position_error c target w)) (allowable_target_distance s) = true /\
    slt (vnorm (rotation_error c target w)) (allowable_target_angle s) = true.

  (** [n'] is [n] up to the two caches of its joint *)
  Definition same_but_caches (n n' : node T) : Prop :=
    j_name (n_joint n') = j_name (n_joint n) /\ j_type (n_joint n') = j_type (n_joint n) /\
    j_position (n_joint n') = j_position (n_joint n) /\ j_velocity (n_joint n') = j_velocity (n_joint n) /\
    j_limits (n_joint n') = j_limits (n_joint n) /\ j_origin (n_joint n') = j_origin (n_joint n) /\
    n_parent n' = n_parent n /\ n_children n' = n_children n /\
    n_mimic_parent n' = n_mimic_parent n /\ n_mimic_children n' = n_mimic_children n /\
    n_mimic n' = n_mimic n /\ n_link n' = n_link n.
  (** [n'] is [n] up to the position and the caches of its joint *)
  Definition same_but_position (n n' : node T) : Prop :=
    j_name (n_joint n') = j_name (n_joint n) /\ j_type (n_joint n') = j_type (n_joint n) /\
    j_velocity (n_joint n') = j_velocity (n_joint n) /\
    j_limits (n_joint n') = j_limits (n_joint n) /\ j_origin (n_joint n') = j_origin (n_joint n) /\
    n_parent n' = n_parent n /\ n_children n' = n_children n /\
    n_mimic_parent n' = n_mimic_parent n /\ n_mimic_children n' = n_mimic_children n /\
    n_mimic n' = n_mimic n /\ n_link n' = n_link n.
  (** the same nodes exist, each related by [R] *)
  Definition heaps (R : node T -> node T -> Prop) h h' : Prop :=
    forall a, match h !! a, h' !! a with
              | Some n, Some n' => R n n'
              | None, None => True
              | _, _ => False
              end.
  (** only positions and caches of the listed joints changed, and caches *)
  Definition only_moved (l : list nat) h h' : Prop :=
    heaps same_but_position h h' /\
    forall a n n', a ∉ l -> h !! a = Some n -> h' !! a = Some n' -> same_but_caches n n'.

  (** the limits of these joints are ordered, as [Range::new] guarantees *)
  Definition limits_ok h (l : list nat) : Prop :=
    forall a n, a ∈ l -> h !! a = Some n -> limits_wf (n_joint n).
  (** these joints are inside their limits *)
  Definition inside_limits h (l : list nat) : Prop :=
    forall a n, a ∈ l -> h !! a = Some n -> within_limits (n_joint n) (j_position (n_joint n)).
  (** clamping the current position of each of these joints would not move it:
      it is inside its limits (or has none) *)
  Definition rest h (l : list nat) : Prop :=
    forall a n r, a ∈ l -> h !! a = Some n -> j_limits (n_joint n) = Some r ->
      clamp r (j_position (n_joint n)) = j_position (n_joint n).
End SpecIk.

(** the linear solvers return one entry per column of the matrix *)
Definition sized {T} (la : linalg T) : Prop :=
  (forall m b x, lu_solve la m b = Some x -> length x = length (m_cols m)) /\
  (forall m b x, svd_solve la m b = Some x -> length x = length (m_cols m)).
