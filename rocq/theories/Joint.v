(** * src/joint/*.rs, src/errors.rs and the NodeBuilder of src/node.rs *)
From Coq Require Import String Bool List.
From Verif Require Import Scalar Geometry.

(** src/errors.rs:22-83.  Simplification: numeric payloads keep the scalar type
    [T] instead of being converted to f64 with [na::try_convert]. *)
Inductive error (T : Type) :=
| OutOfLimitError (joint_name : string) (position max_limit min_limit : T)
| SetToFixedError (joint_name : string)
| SizeMismatchError (input required : nat)
| MimicError (from to : string)
| NotConvergedError (num_tried : nat) (position_diff rotation_diff : vec3 T)
| InverseMatrixError
| PreconditionError (dof necessary_dof : nat)
| InvalidJointNameError (joint_name : string).
Arguments OutOfLimitError {T}. Arguments SetToFixedError {T}.
Arguments SizeMismatchError {T}. Arguments MimicError {T}.
Arguments NotConvergedError {T}. Arguments InverseMatrixError {T}.
Arguments PreconditionError {T}. Arguments InvalidJointNameError {T}.

(** Result<A, Error> *)
Inductive result (T A : Type) := Ok (a : A) | Err (e : error T).
Arguments Ok {T A} _. Arguments Err {T A} _.
Definition is_ok {T A} (r : result T A) : bool := match r with Ok _ => true | Err _ => false end.
Definition is_err {T A} (r : result T A) : bool := negb (is_ok r).

(** src/joint/range.rs:20-23; fields are public *)
Record range (T : Type) := Range { rmin : T; rmax : T }.
Arguments Range {T} _ _. Arguments rmin {T} _. Arguments rmax {T} _.

(** src/joint/mimic.rs:30-33 *)
Record mimic (T : Type) := Mimic { multiplier : T; morigin : T }.
Arguments Mimic {T} _ _. Arguments multiplier {T} _. Arguments morigin {T} _.

(** src/joint/velocity.rs:19-22 *)
Record velocity (T : Type) := Velocity { v_translation : vec3 T; v_rotation : vec3 T }.
Arguments Velocity {T} _ _. Arguments v_translation {T} _. Arguments v_rotation {T} _.

(** src/joint/joint_type.rs:21-34 *)
Inductive joint_type (T : Type) :=
| Fixed
| Rotational (axis : vec3 T)
| Linear (axis : vec3 T).
Arguments Fixed {T}. Arguments Rotational {T} _. Arguments Linear {T} _.

(** src/joint/joint.rs:28-45 *)
Record joint (T : Type) := Joint {
  j_name : string;
  j_type : joint_type T;
  j_position : T;
  j_velocity : T;
  j_limits : option (range T);
  j_origin : iso T;
  j_wt_cache : option (iso T);        (* world_transform_cache *)
  j_wv_cache : option (velocity T);   (* world_velocity_cache *)
}.
Arguments Joint {T}. Arguments j_name {T} _. Arguments j_type {T} _.
Arguments j_position {T} _. Arguments j_velocity {T} _. Arguments j_limits {T} _.
Arguments j_origin {T} _. Arguments j_wt_cache {T} _. Arguments j_wv_cache {T} _.

Section Joint.
  Context {T : Type} `{Sc : Scalar T}.

  (** *** Range, src/joint/range.rs *)
  (** range.rs:39-42, [None] is the assertion failure (panic) *)
  Definition range_new (mn mx : T) : option (range T) :=
    if sle mn mx then Some (Range mn mx) else None.
  (** range.rs:56-58 *)
  Definition is_valid (r : range T) (v : T) : bool := sle v (rmax r) && sge v (rmin r).
  (** range.rs:69-77 *)
  Definition clamp (r : range T) (v : T) : T :=
    if slt v (rmin r) then rmin r else if sgt v (rmax r) then rmax r else v.
  (** range.rs:92-95, RangeInclusive::into_inner gives (start, end) *)
  Definition range_from (se : T * T) : option (range T) := range_new (fst se) (snd se).

  (** *** Mimic, src/joint/mimic.rs:62-64 *)
  Definition mimic_position (m : mimic T) (from : T) : T :=
    sadd (smul from (multiplier m)) (morigin m).

  (** *** Velocity, src/joint/velocity.rs:37-42 *)
  Definition velocity_zero : velocity T := Velocity v0 v0.

  (** *** Joint, src/joint/joint.rs *)
  (** joint.rs:67-78 *)
  Definition joint_new (name : string) (ty : joint_type T) : joint T :=
    Joint name ty szero szero None iso1 None None.
  (** joint.rs:258-260 *)
  Definition is_movable (j : joint T) : bool :=
    match j_type j with Fixed => false | _ => true end.
  (** joint.rs:160-165 *)
  Definition joint_set_unchecked (j : joint T) (p : T) : joint T :=
    Joint (j_name j) (j_type j) p (j_velocity j) (j_limits j) (j_origin j) None None.
  (** joint.rs:104-125: the new joint and the returned Result *)
  Definition joint_set (j : joint T) (p : T) : joint T * result T unit :=
    if negb (is_movable j) then (j, Err (SetToFixedError (j_name j)))
    else
      match j_limits j with
      | Some r =>
          if negb (is_valid r p)
          then (j, Err (OutOfLimitError (j_name j) p (rmax r) (rmin r)))
          else (Joint (j_name j) (j_type j) p (j_velocity j) (j_limits j) (j_origin j) None None, Ok tt)
      | None =>
          (Joint (j_name j) (j_type j) p (j_velocity j) (j_limits j) (j_origin j) None None, Ok tt)
      end.
  (** joint.rs:149-159 *)
  Definition joint_set_clamped (j : joint T) (p : T) : joint T :=
    if negb (is_movable j) then j
    else
      let p' := match j_limits j with Some r => clamp r p | None => p end in
      joint_set_unchecked j p'.
  (** joint.rs:168-173 *)
  Definition joint_position (j : joint T) : option T :=
    match j_type j with Fixed => None | _ => Some (j_position j) end.
  (** joint.rs:181-184: only the transform cache is cleared *)
  Definition joint_set_origin (j : joint T) (o : iso T) : joint T :=
    Joint (j_name j) (j_type j) (j_position j) (j_velocity j) (j_limits j) o None (j_wv_cache j).
  (** joint.rs:186-195 *)
  Definition joint_set_velocity (j : joint T) (v : T) : joint T * result T unit :=
    match j_type j with
    | Fixed => (j, Err (SetToFixedError (j_name j)))
    | _ => (Joint (j_name j) (j_type j) (j_position j) v (j_limits j) (j_origin j) (j_wt_cache j) None, Ok tt)
    end.
  (** joint.rs:199-204 *)
  Definition joint_velocity (j : joint T) : option T :=
    match j_type j with Fixed => None | _ => Some (j_velocity j) end.
  (** joint.rs:220-233 *)
  Definition joint_transform (ty : joint_type T) (p : T) : iso T :=
    match ty with
    | Fixed => iso1
    | Rotational axis => Iso (V3 szero szero szero) (qaxis_angle axis p)
    | Linear axis => Iso (vscale axis p) q1
    end.
  Definition local_transform (j : joint T) : iso T :=
    iso_mul (j_origin j) (joint_transform (j_type j) (j_position j)).
  (** joint.rs:236-238 *)
  Definition joint_set_wt (j : joint T) (t : iso T) : joint T :=
    Joint (j_name j) (j_type j) (j_position j) (j_velocity j) (j_limits j) (j_origin j) (Some t) (j_wv_cache j).
  (** joint.rs:241-243 *)
  Definition joint_set_wv (j : joint T) (v : velocity T) : joint T :=
    Joint (j_name j) (j_type j) (j_position j) (j_velocity j) (j_limits j) (j_origin j) (j_wt_cache j) (Some v).
  (** [joint.limits = l], joint.rs:38 (public field) *)
  Definition joint_set_limits (j : joint T) (l : option (range T)) : joint T :=
    Joint (j_name j) (j_type j) (j_position j) (j_velocity j) l (j_origin j) (j_wt_cache j) (j_wv_cache j).

  (** *** NodeBuilder::finalize, src/node.rs:560-565 *)
  Definition builder_finalize (name : string) (ty : joint_type T)
      (limits : option (range T)) (origin : iso T) : joint T :=
    joint_set_limits (joint_set_origin (joint_new name ty) origin) limits.

  (** *** Display, src/joint/joint_type.rs:36-62 and joint.rs:263-267.
      The glyphs are kept as the UTF-8 byte strings of the source. *)
  Definition axis_to_string (a : vec3 T) : string :=
    if veqb a x_axis then "+X" else
    if veqb a y_axis then "+Y" else
    if veqb a z_axis then "+Z" else
    if veqb a (vneg x_axis) then "-X" else
    if veqb a (vneg y_axis) then "-Y" else
    if veqb a (vneg z_axis) then "-Z" else "".
  Definition joint_type_fmt (ty : joint_type T) : string :=
    match ty with
    | Fixed => "[⚓]"
    | Rotational a => "[⚙" ++ axis_to_string a ++ "]"
    | Linear a => "[↕" ++ axis_to_string a ++ "]"
    end%string.
  Definition joint_fmt (j : joint T) : string :=
    (j_name j ++ " " ++ joint_type_fmt (j_type j))%string.
End Joint.
