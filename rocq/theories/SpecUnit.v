(** * Specification vocabulary for measuring lengths in another unit *)
From Coq Require Import String Reals.
From stdpp Require Import gmap.
From Verif Require Import Scalar ScalarR Geometry Joint Link Prog NodeM ChainM FuncsM IkM SpecNode SpecGeom SpecIk.
Local Open Scope R_scope.

(** A length [x] in the one unit is [k * x] in the other; angles are the same. *)
Definition rescaled (k : R) (w : iso R) : iso R := Iso (times k (tr w)) (rt w).
(** the position of a linear joint is a length, that of a rotational joint an angle *)
Definition unit_of (k : R) (ty : joint_type R) : R := match ty with Linear _ => k | _ => 1 end.
Definition same_joint (k : R) (j j' : joint R) : Prop :=
  let u := unit_of k (j_type j) in
  j_name j' = j_name j /\ j_type j' = j_type j /\ j_position j' = u * j_position j /\
  j_limits j' = (fun r => Range (u * rmin r) (u * rmax r)) <$> j_limits j /\
  j_origin j' = rescaled k (j_origin j).
Definition same_link (k : R) (o o' : option (link R)) : Prop :=
  match o, o' with
  | Some l, Some l' => in_mass (l_inertial l') = in_mass (l_inertial l) /\
      tr (in_origin (l_inertial l')) = times k (tr (in_origin (l_inertial l)))
  | None, None => True
  | _, _ => False
  end.
(** nothing is said about caches, velocities, visuals and collisions *)
Definition same_node (k : R) (n n' : node R) : Prop :=
  n_parent n' = n_parent n /\ n_mimic_parent n' = n_mimic_parent n /\ n_mimic_children n' = n_mimic_children n /\
  same_joint k (n_joint n) (n_joint n') /\ same_link k (n_link n) (n_link n').
(** the same robot, described in the two units *)
Definition same_robot (k : R) (h h' : gmap nat (node R)) : Prop := heaps (same_node k) h h'.

(** the unit of the joint at [a] *)
Definition unit_at (k : R) (h : gmap nat (node R)) (a : nat) : R :=
  match h !! a with Some n => unit_of k (j_type (n_joint n)) | None => 1 end.
Definition units (k : R) (h : gmap nat (node R)) (arm : chain) : list R := map (unit_at k h) (c_movable arm).
(** three rows are lengths, three are angles *)
Definition row_units (k : R) : list R := [k; k; k; 1; 1; 1].
(** a column of the Jacobian, of a joint whose position is measured in [u] *)
Definition rescaled_column (rs : list R) (u : R) (c : list R) : list R := map (fun y => / u * y) (zip_with Rmult rs c).

(** the same task: the tolerance of the distance is a length *)
Definition same_solver (k : R) (sv sv' : solver R) : Prop :=
  allowable_target_distance sv' = k * allowable_target_distance sv /\
  allowable_target_angle sv' = allowable_target_angle sv /\
  jacobian_multiplier sv' = jacobian_multiplier sv /\ num_max_try sv' = num_max_try sv.
(** the same answer, with its lengths in the other unit *)
Definition same_error (k : R) (e e' : error R) : Prop :=
  match e with
  | OutOfLimitError nm p mx mn => exists u, (u = 1 \/ u = k) /\ e' = OutOfLimitError nm (u * p) (u * mx) (u * mn)
  | NotConvergedError n d a => e' = NotConvergedError n (times k d) a
  | _ => e' = e
  end.
Definition same_result {A} (k : R) (Q : A -> A -> Prop) (r r' : result R A) : Prop :=
  match r, r' with
  | Ok x, Ok x' => Q x x'
  | Err e, Err e' => same_error k e e'
  | _, _ => False
  end.
(** both calls return and leave the same robot, or both panic with the same message *)
Definition same_outcome {A} (k : R) (Q : A -> A -> Prop) (nx nx' : nat) (o o' : outcome R A) : Prop :=
  match o, o' with
  | Done x s, Done x' s' => Q x x' /\ exists h h', s = quiet h nx /\ s' = quiet h' nx' /\ same_robot k h h'
  | Panicked m _, Panicked m' _ => m' = m
  | _, _ => False
  end.
