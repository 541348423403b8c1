(** * src/errors.rs: the error as the caller sees it *)
From Coq Require Import String ZArith Floats.SpecFloat.
From stdpp Require Import strings pretty.
From Verif Require Import ScalarF Geometry Joint.
Local Open Scope string_scope.

(** The numbers in an error are f64 whatever the scalar type of the robot: joint.rs:112-117 and
    ik.rs:341-345 convert them with [na::try_convert(x).unwrap_or_default()].  For f32 and f64
    [try_convert] is [x as f64] and always succeeds (simba's [SubsetOf] for floats). *)
Definition map_vec3 {A B} (f : A -> B) (v : vec3 A) : vec3 B := V3 (f (vx v)) (f (vy v)) (f (vz v)).
Definition map_error {A B} (f : A -> B) (e : error A) : error B :=
  match e with
  | OutOfLimitError n p mx mn => OutOfLimitError n (f p) (f mx) (f mn)
  | SetToFixedError n => SetToFixedError n
  | SizeMismatchError i r => SizeMismatchError i r
  | MimicError a b => MimicError a b
  | NotConvergedError k p r => NotConvergedError k (map_vec3 f p) (map_vec3 f r)
  | InverseMatrixError => InverseMatrixError
  | PreconditionError d r => PreconditionError d r
  | InvalidJointNameError n => InvalidJointNameError n
  end.
Definition reported (e : error spec_float) : error spec_float := map_error (SFconv 53 1024) e.

(** errors.rs:20-82: the text of an error ([#[error(...)]], thiserror).  [show] prints an f64,
    [show3] a vector of three; both come from other crates. *)
Section Text.
  Context (show : spec_float -> string) (show3 : vec3 spec_float -> string).
  Definition error_text (e : error spec_float) : string :=
    match e with
    | OutOfLimitError n p mx mn => "joint: " +:+ n +:+ " is out of limit: " +:+ show p +:+ ", limit = " +:+ show mx +:+ " <=> " +:+ show mn
    | SetToFixedError n => "joint " +:+ n +:+ " is fixed joint but the position is set"
    | SizeMismatchError i r => "size mismatch input = " +:+ pretty i +:+ ", required = " +:+ pretty r
    | MimicError a b => "mimic error from " +:+ a +:+ " to " +:+ b
    | NotConvergedError k p r =>
        "ik solve not converged tried " +:+ pretty k +:+ " times, position diff = " +:+ show3 p +:+ ", rotation diff = " +:+ show3 r
    | InverseMatrixError => "inverse matrix error"
    | PreconditionError d r => "ik precondition error: input Dof=" +:+ pretty d +:+ ", must be greater than " +:+ pretty r
    | InvalidJointNameError n => "There is no valid joint named " +:+ n
    end.
End Text.
