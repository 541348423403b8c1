(** * Specification vocabulary for mirror images *)
From Coq Require Import String Reals.
From stdpp Require Import gmap.
From Verif Require Import Scalar ScalarR Geometry Joint Link Prog NodeM ChainM FuncsM IkM SpecNode SpecGeom SpecIk.
Local Open Scope R_scope.

(** Which of the coordinates x, y, z change their sign.  One of them: the mirror image in a
    coordinate plane.  Two of them: half a turn about a coordinate axis.  All three: the mirror
    image in the origin. *)
Record mirror := Mirror { flip_x : bool; flip_y : bool; flip_z : bool }.
Definition sgn (b : bool) : R := if b then -1 else 1.
(** places and directions *)
Definition image (m : mirror) (v : vec3 R) : vec3 R := V3 (sgn (flip_x m) * vx v) (sgn (flip_y m) * vy v) (sgn (flip_z m) * vz v).
(** axes of rotation, with the sense of the rotation: seen in a mirror a right-hand screw is a
    left-hand screw *)
Definition image_axis (m : mirror) (v : vec3 R) : vec3 R :=
  let x := sgn (flip_x m) in let y := sgn (flip_y m) in let z := sgn (flip_z m) in V3 (y * z * vx v) (x * z * vy v) (x * y * vz v).
Definition image_rot (m : mirror) (q : quat R) : quat R :=
  let a := image_axis m (V3 (qi q) (qj q) (qk q)) in Qt (vx a) (vy a) (vz a) (qw q).
Definition image_pose (m : mirror) (w : iso R) : iso R := Iso (image m (tr w)) (image_rot m (rt w)).
Definition image_type (m : mirror) (ty : joint_type R) : joint_type R :=
  match ty with Fixed => Fixed | Rotational a => Rotational (image_axis m a) | Linear a => Linear (image m a) end.

(** the joints have the same names, positions and limits *)
Definition image_joint (m : mirror) (j j' : joint R) : Prop :=
  j_name j' = j_name j /\ j_type j' = image_type m (j_type j) /\ j_position j' = j_position j /\ j_limits j' = j_limits j /\
  j_origin j' = image_pose m (j_origin j).
Definition image_link (m : mirror) (o o' : option (link R)) : Prop :=
  match o, o' with
  | Some l, Some l' => in_mass (l_inertial l') = in_mass (l_inertial l) /\ tr (in_origin (l_inertial l')) = image m (tr (in_origin (l_inertial l)))
  | None, None => True
  | _, _ => False
  end.
(** nothing is said about caches, velocities, visuals and collisions *)
Definition image_node (m : mirror) (n n' : node R) : Prop :=
  n_parent n' = n_parent n /\ n_mimic_parent n' = n_mimic_parent n /\ n_mimic_children n' = n_mimic_children n /\
  image_joint m (n_joint n) (n_joint n') /\ image_link m (n_link n) (n_link n').
Definition image_robot (m : mirror) (h h' : gmap nat (node R)) : Prop := heaps (image_node m) h h'.

(** the six rows of the Jacobian: three for the movement, three for the turning *)
Definition image_rows (m : mirror) : list R :=
  let x := sgn (flip_x m) in let y := sgn (flip_y m) in let z := sgn (flip_z m) in [x; y; z; y * z; x * z; x * y].

(** the same answer, seen in the mirror *)
Definition image_error (m : mirror) (e : error R) : error R :=
  match e with NotConvergedError n d a => NotConvergedError n (image m d) (image_axis m a) | _ => e end.
Definition image_result {A} (m : mirror) (Q : A -> A -> Prop) (r r' : result R A) : Prop :=
  match r, r' with Ok x, Ok x' => Q x x' | Err e, Err e' => e' = image_error m e | _, _ => False end.
(** both calls return and leave a robot and its mirror image, or both panic with the same message *)
Definition image_outcome {A} (m : mirror) (Q : A -> A -> Prop) (nx nx' : nat) (o o' : outcome R A) : Prop :=
  match o, o' with
  | Done x s, Done x' s' => Q x x' /\ exists h h', s = quiet h nx /\ s' = quiet h' nx' /\ image_robot m h h'
  | Panicked e _, Panicked e' _ => e' = e
  | _, _ => False
  end.
