(** * Specification vocabulary: NaN and infinities *)
From Coq Require Import Floats.SpecFloat.
From Verif Require Import Scalar ScalarF Geometry Joint IkM.

(** NaN or infinite *)
Definition wild (x : spec_float) : Prop := match x with S754_nan | S754_infinity _ => True | _ => False end.
Definition wild_vec (v : vec3 spec_float) : Prop := wild (vx v) /\ wild (vy v) /\ wild (vz v).
Definition some_nan (q : quat spec_float) : Prop := qi q = S754_nan \/ qj q = S754_nan \/ qk q = S754_nan \/ qw q = S754_nan.
(** sine and cosine of NaN and of infinities are NaN (IEEE 754, C99 annex F, [f64::sin]) *)
Definition nan_outside (L : libm) : Prop := forall x, wild x -> lm_sin L x = S754_nan /\ lm_cos L x = S754_nan.
(** the constraints mention a position *)
Definition some_position (c : constraints) : Prop := position_x c = true \/ position_y c = true \/ position_z c = true.
