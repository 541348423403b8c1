(** * Specification vocabulary for C94: where a URDF description puts its links

    Everything here is said in terms of the description: which joint hangs under which
    (by link names), origins, axes and joint positions.  No node, no quaternion and no
    transform of the library is mentioned. *)
From Coq Require Import String Reals.
From stdpp Require Import gmap strings.
From Verif Require Import Scalar ScalarR Geometry Joint Link Prog NodeM ChainM UrdfM SpecUrdf SpecGeom.
Open Scope R_scope.

(** the direction of the axis tag *)
Definition direction (a : vec3 R) : vec3 R := times (/ len a) a.
(** what a joint at position [q] does to a point of its child link *)
Definition joint_motion (j : ujoint R) (q : R) (x : vec3 R) : vec3 R :=
  match uj_type j with
  | URevolute | UContinuous => rotate (direction (uj_axis j)) q x
  | UPrismatic => plus x (times q (direction (uj_axis j)))
  | UFixed | UFloating | UPlanar | USpherical => x
  end.
(** a point [x] of the child link of [j], seen from the parent link: the joint's motion, then
    roll about x, pitch about y, yaw about z, then the offset of the origin tag *)
Definition joint_step (j : ujoint R) (q : R) (x : vec3 R) : vec3 R :=
  plus (rot_z (vz (u_rpy (uj_origin j))) (rot_y (vy (u_rpy (uj_origin j))) (rot_x (vx (u_rpy (uj_origin j))) (joint_motion j q x))))
       (u_xyz (uj_origin j)).
(** with joint [k] at [q k], the point [x] of the child link of joint [i] is at [y] in the root frame *)
Inductive placed (r : robot R) (q : nat -> R) : nat -> vec3 R -> vec3 R -> Prop :=
| placed_base i j x : r_joints r !! i = Some j -> (forall k, ~ parent_joint r i k) -> placed r q i x (joint_step j (q i) x)
| placed_step i j k x y : r_joints r !! i = Some j -> parent_joint r i k -> placed r q k (joint_step j (q i) x) y -> placed r q i x y.

(** limits are in order, and the axis of a joint that has one is not zero *)
Definition sound_joint (j : ujoint R) : Prop :=
  uj_lower j <= uj_upper j /\
  match uj_type j with
  | URevolute | UContinuous | UPrismatic => uj_axis j <> V3 0 0 0
  | _ => True
  end.
(** the joint positions found in the nodes of the robot loaded at [nx] *)
Definition stands (r : robot R) (nx : nat) (h : gmap nat (node R)) (q : nat -> R) : Prop :=
  forall i, (i < length (r_joints r))%nat -> exists n, h !! (S nx + i)%nat = Some n /\ j_position (n_joint n) = q i.
(** the positions after the list [ps] has been handed to the movable nodes [ms] of the robot just
    loaded at [nx]: in the order of [ms]; joints that get nothing are at zero *)
Definition given (nx : nat) (ms : list nat) (ps : list R) (q : nat -> R) : Prop :=
  forall i, (forall k p, ms !! k = Some (S nx + i)%nat -> ps !! k = Some p -> q i = p) /\
            ((forall k, ms !! k = Some (S nx + i)%nat -> ps !! k = None) -> q i = 0).
(** these positions are inside the limits of the description; equal limits mean no limits (C45) *)
Definition inside_tags (r : robot R) (q : nat -> R) : Prop :=
  forall i j, r_joints r !! i = Some j -> uj_lower j < uj_upper j -> uj_lower j <= q i <= uj_upper j.

(** ** Links (C95) *)
(** the frame of a pose tag: roll, pitch, yaw, then the offset *)
Definition pose_step (p : upose R) (x : vec3 R) : vec3 R :=
  plus (rot_z (vz (u_rpy p)) (rot_y (vy (u_rpy p)) (rot_x (vx (u_rpy p)) x))) (u_xyz p).
(** the point [x] of link [l] is at [y] in the root frame: a link that is nobody's child stays *)
Definition link_at (r : robot R) (q : nat -> R) (l : ulink R) (x y : vec3 R) : Prop :=
  (free_link r l /\ y = x) \/
  exists i j, r_joints r !! i = Some j /\ uj_child j = ul_name l /\ placed r q i x y.
(** the point [x] of the frame that joint [i] hangs under is at [y] *)
Definition under (r : robot R) (q : nat -> R) (i : nat) (x y : vec3 R) : Prop :=
  ((forall k, ~ parent_joint r i k) /\ y = x) \/ exists k, parent_joint r i k /\ placed r q k x y.
(** the child links of all joints exist, and exactly one link is nobody's child *)
Definition complete (r : robot R) : Prop :=
  (forall j, j ∈ r_joints r -> declared r (uj_child j)) /\
  exists l, l ∈ r_links r /\ free_link r l /\ forall l', l' ∈ r_links r -> free_link r l' -> l' = l.
(** an element of a link, with this pose tag, was put at [w] by update_link_transforms *)
Definition drawn (r : robot R) (q : nat -> R) (i : nat) (j : ujoint R) (p : upose R) (w : iso R) : Prop :=
  proper w /\ forall x, under r q i (pose_step p x) (move w x) /\
    (placed r q i (pose_step p x) (move w x) <-> joint_step j (q i) (pose_step p x) = pose_step p x).
(** the mass of a link, and the place of its center of mass by the description *)
Definition weighed (r : robot R) (q : nat -> R) (l : ulink R) (mc : R * vec3 R) : Prop :=
  fst mc = ui_mass (ul_inertial l) /\ link_at r q l (u_xyz (ui_origin (ul_inertial l))) (snd mc).
