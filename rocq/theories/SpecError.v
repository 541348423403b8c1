(** * Specification vocabulary: what an error tells *)
From Coq Require Import String ZArith Ascii Floats.SpecFloat.
From Verif Require Import Geometry Joint SpecValues.

(** the same number: NaN, an infinity, or the same real *)
Definition same_value (x y : spec_float) : Prop := sf_value x = sf_value y.
Definition same_values3 (v w : vec3 spec_float) : Prop :=
  same_value (vx v) (vx w) /\ same_value (vy v) (vy w) /\ same_value (vz v) (vz w).
(** two errors of the same kind with the same names and numbers *)
Definition same_report (e e' : error spec_float) : Prop :=
  match e, e' with
  | OutOfLimitError n p mx mn, OutOfLimitError n' p' mx' mn' => n = n' /\ same_value p p' /\ same_value mx mx' /\ same_value mn mn'
  | SetToFixedError n, SetToFixedError n' => n = n'
  | SizeMismatchError i r, SizeMismatchError i' r' => i = i' /\ r = r'
  | MimicError a b, MimicError a' b' => a = a' /\ b = b'
  | NotConvergedError k p r, NotConvergedError k' p' r' => k = k' /\ same_values3 p p' /\ same_values3 r r'
  | InverseMatrixError, InverseMatrixError => True
  | PreconditionError d r, PreconditionError d' r' => d = d' /\ r = r'
  | InvalidJointNameError n, InvalidJointNameError n' => n = n'
  | _, _ => False
  end.
(** all numbers in the error are numbers of the format *)
Definition valid_payload (prec emax : Z) (e : error spec_float) : Prop :=
  let ok x := valid_binary prec emax x = true in
  match e with
  | OutOfLimitError _ p mx mn => ok p /\ ok mx /\ ok mn
  | NotConvergedError _ p r => (ok (vx p) /\ ok (vy p) /\ ok (vz p)) /\ ok (vx r) /\ ok (vy r) /\ ok (vz r)
  | _ => True
  end.
(** the number of the alternative *)
Definition kind (e : error spec_float) : nat :=
  match e with
  | OutOfLimitError _ _ _ _ => 0 | SetToFixedError _ => 1 | SizeMismatchError _ _ => 2 | MimicError _ _ => 3
  | NotConvergedError _ _ _ => 4 | InverseMatrixError => 5 | PreconditionError _ _ => 6 | InvalidJointNameError _ => 7
  end.
Fixpoint spaceless (s : string) : Prop :=
  match s with EmptyString => True | String c s => c <> " "%char /\ spaceless s end.
