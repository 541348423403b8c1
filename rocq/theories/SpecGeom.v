(** * Specification vocabulary for geometry over the reals

    Written with explicit coordinates only: none of the model's vector, quaternion
    or isometry operations is used here. *)
From Coq Require Import Reals.
From stdpp Require Import gmap.
From Verif Require Import Geometry Joint Link Prog NodeM.
Local Open Scope R_scope.

(** inner product, length, distance *)
Definition inner (a b : vec3 R) : R := vx a * vx b + vy a * vy b + vz a * vz b.
Definition len (a : vec3 R) : R := R_sqrt.sqrt (inner a a).
Definition minus (a b : vec3 R) : vec3 R := V3 (vx a - vx b) (vy a - vy b) (vz a - vz b).
Definition plus (a b : vec3 R) : vec3 R := V3 (vx a + vx b) (vy a + vy b) (vz a + vz b).
Definition times (s : R) (a : vec3 R) : vec3 R := V3 (s * vx a) (s * vy a) (s * vz a).
Definition cross (a b : vec3 R) : vec3 R :=
  V3 (vy a * vz b - vz a * vy b) (vz a * vx b - vx a * vz b) (vx a * vy b - vy a * vx b).
Definition dist (a b : vec3 R) : R := len (minus a b).

(** unit vectors and unit quaternions *)
Definition unit_axis (a : vec3 R) : Prop := vx a * vx a + vy a * vy a + vz a * vz a = 1.
Definition unit_quat (q : quat R) : Prop := qi q * qi q + qj q * qj q + qk q * qk q + qw q * qw q = 1.

(** the rotation a unit quaternion stands for: the textbook matrix *)
Definition turn (q : quat R) (v : vec3 R) : vec3 R :=
  let i := qi q in let j := qj q in let k := qk q in let w := qw q in
  V3 ((1 - 2 * (j * j + k * k)) * vx v + 2 * (i * j - k * w) * vy v + 2 * (i * k + j * w) * vz v)
     (2 * (i * j + k * w) * vx v + (1 - 2 * (i * i + k * k)) * vy v + 2 * (j * k - i * w) * vz v)
     (2 * (i * k - j * w) * vx v + 2 * (j * k + i * w) * vy v + (1 - 2 * (i * i + j * j)) * vz v).
(** a pose as a motion of points *)
Definition move (m : iso R) (x : vec3 R) : vec3 R := plus (turn (rt m) x) (tr m).
Definition same_pose (a b : iso R) : Prop := forall x, move a x = move b x.
Definition proper (m : iso R) : Prop := unit_quat (rt m).

(** orientation-preserving isometries of space *)
Definition isometry (f : vec3 R -> vec3 R) : Prop := forall x y, dist (f x) (f y) = dist x y.
Definition keeps_hand (f : vec3 R -> vec3 R) : Prop := forall o x y,
  cross (minus (f x) (f o)) (minus (f y) (f o)) =
  minus (f (plus o (cross (minus x o) (minus y o)))) (f o).
Definition rigid (f : vec3 R -> vec3 R) : Prop := isometry f /\ keeps_hand f.

(** rotation by [p] about the unit axis [a] (Rodrigues' formula) *)
Definition rotate (a : vec3 R) (p : R) (x : vec3 R) : vec3 R :=
  plus (times (cos p) x) (plus (times (sin p) (cross a x)) (times ((1 - cos p) * inner a x) a)).

(** rotation by a rotation vector: by its length about its direction *)
Definition rotate_by (w x : vec3 R) : vec3 R :=
  if Req_EM_T (len w) 0 then x else rotate (times (/ len w) w) (len w) x.

(** rotations about the coordinate axes *)
Definition rot_x (p : R) (v : vec3 R) : vec3 R := V3 (vx v) (cos p * vy v - sin p * vz v) (sin p * vy v + cos p * vz v).
Definition rot_y (p : R) (v : vec3 R) : vec3 R := V3 (cos p * vx v + sin p * vz v) (vy v) (- sin p * vx v + cos p * vz v).
Definition rot_z (p : R) (v : vec3 R) : vec3 R := V3 (cos p * vx v - sin p * vy v) (sin p * vx v + cos p * vy v) (vz v).

(** joints whose axis and origin rotation are unit, as the types Unit<Vector3> and
    UnitQuaternion promise *)
Definition unit_type (ty : joint_type R) : Prop :=
  match ty with Fixed => True | Rotational a => unit_axis a | Linear a => unit_axis a end.
Definition unit_joint (j : joint R) : Prop := unit_type (j_type j) /\ proper (j_origin j).
(** a whole heap of unit joints whose cached transforms are proper *)
Definition all_unit (h : gmap nat (node R)) : Prop := forall a n, h !! a = Some n ->
  unit_joint (n_joint n) /\ forall w, j_wt_cache (n_joint n) = Some w -> proper w.

(** derivative of a curve in space *)
Definition deriv3 (f : R -> vec3 R) (x : R) (d : vec3 R) : Prop :=
  derivable_pt_lim (fun u => vx (f u)) x (vx d) /\
  derivable_pt_lim (fun u => vy (f u)) x (vy d) /\
  derivable_pt_lim (fun u => vz (f u)) x (vz d).
