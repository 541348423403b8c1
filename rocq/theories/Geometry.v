(** * The nalgebra 0.26 types used by the crate, over an arbitrary [Scalar].

    These are not in /repo; they model the dependency (Cargo.toml:20,
    [nalgebra = "0.26"]).  Each formula is nalgebra's own, in its own order of
    operations, so that statements proved without algebraic laws are about the
    float computation too.  [Unit<Vector3>] and [UnitQuaternion] are plain
    vectors/quaternions here; unit length is a hypothesis where needed. *)
From Coq Require Import ZArith.
From Verif Require Import Scalar.

(** nalgebra::Vector3 / Translation3.vector *)
Record vec3 (T : Type) := V3 { vx : T; vy : T; vz : T }.
Arguments V3 {T} _ _ _. Arguments vx {T} _. Arguments vy {T} _. Arguments vz {T} _.

(** nalgebra::Quaternion, imaginary part (i,j,k) and scalar part w *)
Record quat (T : Type) := Qt { qi : T; qj : T; qk : T; qw : T }.
Arguments Qt {T} _ _ _ _. Arguments qi {T} _. Arguments qj {T} _.
Arguments qk {T} _. Arguments qw {T} _.

(** nalgebra::Isometry3 = translation + rotation *)
Record iso (T : Type) := Iso { tr : vec3 T; rt : quat T }.
Arguments Iso {T} _ _. Arguments tr {T} _. Arguments rt {T} _.

(** nalgebra::Matrix3 (row-major listing as in Matrix3::new) *)
Record mat3 (T : Type) := M3 {
  m11 : T; m12 : T; m13 : T; m21 : T; m22 : T; m23 : T; m31 : T; m32 : T; m33 : T }.
Arguments M3 {T} _ _ _ _ _ _ _ _ _.
Arguments m11 {T} _. Arguments m12 {T} _. Arguments m13 {T} _.
Arguments m21 {T} _. Arguments m22 {T} _. Arguments m23 {T} _.
Arguments m31 {T} _. Arguments m32 {T} _. Arguments m33 {T} _.

Section Geometry.
  Context {T : Type} `{Sc : Scalar T}.

  Definition v0 : vec3 T := V3 szero szero szero.            (* Vector3::zeros() *)
  Definition vadd (a b : vec3 T) := V3 (sadd (vx a) (vx b)) (sadd (vy a) (vy b)) (sadd (vz a) (vz b)).
  Definition vsub (a b : vec3 T) := V3 (ssub (vx a) (vx b)) (ssub (vy a) (vy b)) (ssub (vz a) (vz b)).
  Definition vneg (a : vec3 T) := V3 (sneg (vx a)) (sneg (vy a)) (sneg (vz a)).
  Definition vscale (a : vec3 T) (s : T) := V3 (smul (vx a) s) (smul (vy a) s) (smul (vz a) s).
  Definition vdivs (a : vec3 T) (s : T) := V3 (sdiv (vx a) s) (sdiv (vy a) s) (sdiv (vz a) s).
  Definition vdot (a b : vec3 T) :=
    sadd (sadd (smul (vx a) (vx b)) (smul (vy a) (vy b))) (smul (vz a) (vz b)).
  Definition vnorm (a : vec3 T) : T := ssqrt (vdot a a).
  Definition vcross (a b : vec3 T) := V3
    (ssub (smul (vy a) (vz b)) (smul (vz a) (vy b)))
    (ssub (smul (vz a) (vx b)) (smul (vx a) (vz b)))
    (ssub (smul (vx a) (vy b)) (smul (vy a) (vx b))).
  Definition veqb (a b : vec3 T) : bool :=
    (seqb (vx a) (vx b) && seqb (vy a) (vy b) && seqb (vz a) (vz b))%bool.
  (** Unit::new_normalize: v / |v| *)
  Definition vnormalize (a : vec3 T) := vdivs a (vnorm a).

  Definition x_axis : vec3 T := V3 sone szero szero.
  Definition y_axis : vec3 T := V3 szero sone szero.
  Definition z_axis : vec3 T := V3 szero szero sone.

  Definition q1 : quat T := Qt szero szero szero sone.       (* UnitQuaternion::identity() *)
  Definition qvec (q : quat T) : vec3 T := V3 (qi q) (qj q) (qk q).

  (** Quaternion * Quaternion (geometry/quaternion_ops.rs) *)
  Definition qmul (a b : quat T) : quat T := Qt
    (ssub (sadd (sadd (smul (qw a) (qi b)) (smul (qi a) (qw b))) (smul (qj a) (qk b))) (smul (qk a) (qj b)))
    (sadd (sadd (ssub (smul (qw a) (qj b)) (smul (qi a) (qk b))) (smul (qj a) (qw b))) (smul (qk a) (qi b)))
    (sadd (ssub (sadd (smul (qw a) (qk b)) (smul (qi a) (qj b))) (smul (qj a) (qi b))) (smul (qk a) (qw b)))
    (ssub (ssub (ssub (smul (qw a) (qw b)) (smul (qi a) (qi b))) (smul (qj a) (qj b))) (smul (qk a) (qk b))).

  (** UnitQuaternion::inverse is the conjugate *)
  Definition qconj (q : quat T) : quat T := Qt (sneg (qi q)) (sneg (qj q)) (sneg (qk q)) (qw q).

  (** UnitQuaternion * Vector3:
      t = q.vector x v * 2;  t * q.scalar + (q.vector x t) + v *)
  Definition qrot (q : quat T) (v : vec3 T) : vec3 T :=
    let t := vscale (vcross (qvec q) v) stwo in
    let c := vcross (qvec q) t in
    vadd (vadd (vscale t (qw q)) c) v.

  (** UnitQuaternion::from_axis_angle: (sin,cos) of angle/2 *)
  Definition qaxis_angle (axis : vec3 T) (angle : T) : quat T :=
    let h := sdiv angle stwo in
    let s := ssin h in
    let c := scos h in
    Qt (smul (vx axis) s) (smul (vy axis) s) (smul (vz axis) s) c.

  (** UnitQuaternion::from_euler_angles(roll, pitch, yaw) *)
  Definition qeuler (roll pitch yaw : T) : quat T :=
    let half := sofQ (QArith_base.Qmake 1%Z 2%positive) in
    let sr := ssin (smul roll half) in let cr := scos (smul roll half) in
    let sp := ssin (smul pitch half) in let cp := scos (smul pitch half) in
    let sy := ssin (smul yaw half) in let cy := scos (smul yaw half) in
    Qt (ssub (smul (smul sr cp) cy) (smul (smul cr sp) sy))
       (sadd (smul (smul cr sp) cy) (smul (smul sr cp) sy))
       (ssub (smul (smul cr cp) sy) (smul (smul sr sp) cy))
       (sadd (smul (smul cr cp) cy) (smul (smul sr sp) sy)).

  (** UnitQuaternion::rotation_to: [a.rotation_to(b) = b / a = b * a^-1] *)
  Definition qrotation_to (a b : quat T) : quat T := qmul b (qconj a).

  (** UnitQuaternion::axis / angle / scaled_axis (geometry/quaternion.rs):
      axis: the vector part (negated when w < 0), normalised, None when its norm
      is not > 0; angle: 2 * atan2(|vector|, |w|); scaled_axis: axis * angle,
      zero without axis. *)
  Definition qaxis (q : quat T) : option (vec3 T) :=
    let v := if sge (qw q) szero then qvec q else vneg (qvec q) in
    if sgt (vnorm v) szero then Some (vdivs v (vnorm v)) else None.
  Definition qangle (q : quat T) : T :=
    smul (satan2 (vnorm (qvec q)) (sabs (qw q))) stwo.
  Definition qscaled_axis (q : quat T) : vec3 T :=
    match qaxis q with
    | Some a => vscale a (qangle q)
    | None => v0
    end.

  Definition iso1 : iso T := Iso v0 q1.                      (* Isometry3::identity() *)
  (** Isometry * Isometry (geometry/isometry_ops.rs) *)
  Definition iso_mul (a b : iso T) : iso T :=
    Iso (vadd (tr a) (qrot (rt a) (tr b))) (qmul (rt a) (rt b)).
  (** Isometry * Translation *)
  Definition iso_mul_tr (a : iso T) (v : vec3 T) : iso T :=
    Iso (vadd (tr a) (qrot (rt a) v)) (rt a).
  (** Isometry * Point (used in specifications only) *)
  Definition iso_act (a : iso T) (v : vec3 T) : vec3 T := vadd (qrot (rt a) v) (tr a).

  (** UnitQuaternion::to_rotation_matrix, and Matrix3 * Vector3 *)
  Definition q_to_mat (q : quat T) : mat3 T :=
    let i := qi q in let j := qj q in let k := qk q in let w := qw q in
    let ww := smul w w in let ii := smul i i in let jj := smul j j in let kk := smul k k in
    let ij := smul (smul i j) stwo in let wk := smul (smul w k) stwo in
    let wj := smul (smul w j) stwo in let ik := smul (smul i k) stwo in
    let jk := smul (smul j k) stwo in let wi := smul (smul w i) stwo in
    M3 (ssub (ssub (sadd ww ii) jj) kk) (ssub ij wk) (sadd wj ik)
       (sadd wk ij) (ssub (sadd (ssub ww ii) jj) kk) (ssub jk wi)
       (ssub ik wj) (sadd wi jk) (sadd (ssub (ssub ww ii) jj) kk).
  Definition mat3_mul (m : mat3 T) (v : vec3 T) : vec3 T := V3
    (sadd (sadd (smul (m11 m) (vx v)) (smul (m12 m) (vy v))) (smul (m13 m) (vz v)))
    (sadd (sadd (smul (m21 m) (vx v)) (smul (m22 m) (vy v))) (smul (m23 m) (vz v)))
    (sadd (sadd (smul (m31 m) (vx v)) (smul (m32 m) (vy v))) (smul (m33 m) (vz v))).
  Definition mat3_id : mat3 T :=
    M3 sone szero szero szero sone szero szero szero sone.
End Geometry.
