(** * Specification vocabulary for the zero and the sense of the joints *)
From Coq Require Import String Reals.
From stdpp Require Import gmap.
From Verif Require Import Scalar ScalarR Geometry Joint Link Prog NodeM ChainM FuncsM IkM SpecNode SpecGeom SpecIk.
Local Open Scope R_scope.

(** Two descriptions of one joint: the second may count in the other direction, and its zero is
    where the first says [- z]. *)
Record sense := Sense { flipped : bool; zero_at : R }.
Definition sg (f : sense) : R := if flipped f then -1 else 1.
(** the position the second description has where the first has [x] *)
Definition measured (f : sense) (x : R) : R := sg f * (x + zero_at f).
Definition measured_range (f : sense) (r : range R) : range R :=
  if flipped f then Range (measured f (rmax r)) (measured f (rmin r)) else Range (measured f (rmin r)) (measured f (rmax r)).
(** the motion of a joint by [x] *)
Definition screw (ty : joint_type R) (x : R) : iso R :=
  match ty with
  | Fixed => Iso (V3 0 0 0) (Qt 0 0 0 1)
  | Rotational a => Iso (V3 0 0 0) (Qt (vx a * sin (x / 2)) (vy a * sin (x / 2)) (vz a * sin (x / 2)) (cos (x / 2)))
  | Linear a => Iso (times x a) (Qt 0 0 0 1)
  end.
Definition facing (f : sense) (ty : joint_type R) : joint_type R :=
  match ty with Fixed => Fixed | Rotational a => Rotational (times (sg f) a) | Linear a => Linear (times (sg f) a) end.
(** the axis and the origin are unit, as their types promise, and the limits are in order *)
Definition recalibrated_joint (f : sense) (j j' : joint R) : Prop :=
  unit_joint j /\ (forall r, j_limits j = Some r -> rmin r <= rmax r) /\ j_name j' = j_name j /\ j_type j' = facing f (j_type j) /\ j_position j' = measured f (j_position j) /\
  j_limits j' = measured_range f <$> j_limits j /\ j_origin j' = iso_mul (j_origin j) (screw (j_type j) (- zero_at f)).
(** nothing is said about caches and velocities *)
Definition recalibrated_node (f : sense) (n n' : node R) : Prop :=
  n_parent n' = n_parent n /\ n_mimic_parent n' = n_mimic_parent n /\ n_mimic_children n' = n_mimic_children n /\
  recalibrated_joint f (n_joint n) (n_joint n') /\ n_link n' = n_link n.
(** the same robot; [f] says how each joint is described *)
Definition recalibrated (f : nat -> sense) (h h' : gmap nat (node R)) : Prop := forall a,
  match h !! a, h' !! a with Some n, Some n' => recalibrated_node (f a) n n' | None, None => True | _, _ => False end.

Definition senses (f : nat -> sense) (arm : chain) : list sense := map f (c_movable arm).
Definition signs (fs : list sense) : list R := map sg fs.
Definition turned_column (s : R) (c : list R) : list R := map (Rmult s) c.

(** the same task.  A null-space function sees the positions and gives speeds. *)
Definition same_task (f : nat -> sense) (arm : chain) (sv sv' : solver R) : Prop :=
  allowable_target_distance sv' = allowable_target_distance sv /\ allowable_target_angle sv' = allowable_target_angle sv /\
  jacobian_multiplier sv' = jacobian_multiplier sv /\ num_max_try sv' = num_max_try sv /\
  match nullspace_function sv, nullspace_function sv' with
  | None, None => True
  | Some g, Some g' => forall q, length q = c_dof arm -> (forall v, g q = Some v -> length v = c_dof arm) /\
      g' (zip_with measured (senses f arm) q) = zip_with Rmult (signs (senses f arm)) <$> g q
  | _, _ => False
  end.
(** the same answer *)
Definition recalibrated_error (e e' : error R) : Prop :=
  match e with
  | OutOfLimitError nm p mx mn => exists f, let r := measured_range f (Range mn mx) in e' = OutOfLimitError nm (measured f p) (rmax r) (rmin r)
  | _ => e' = e
  end.
Definition recalibrated_result {A} (Q : A -> A -> Prop) (r r' : result R A) : Prop :=
  match r, r' with
  | Ok x, Ok x' => Q x x'
  | Err e, Err e' => recalibrated_error e e'
  | _, _ => False
  end.
Definition recalibrated_outcome {A} (f : nat -> sense) (Q : A -> A -> Prop) (nx nx' : nat) (o o' : outcome R A) : Prop :=
  match o, o' with
  | Done x s, Done x' s' => Q x x' /\ exists h h', s = quiet h nx /\ s' = quiet h' nx' /\ recalibrated f h h'
  | Panicked m _, Panicked m' _ => m' = m
  | _, _ => False
  end.
