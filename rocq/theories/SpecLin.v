(** * Specification of vectors and of the singular value decomposition, over the reals *)
From Coq Require Import String Reals Lra.
From stdpp Require Import gmap.
From Verif Require Import Scalar ScalarR Geometry Joint Link Prog NodeM ChainM FuncsM IkM SpecStep SvdM.
Local Open Scope R_scope.

(** inner product and length of lists *)
Fixpoint dot (a x : list R) : R := match a, x with y :: a, z :: x => y * z + dot a x | _, _ => 0 end.
Definition norm (x : list R) : R := R_sqrt.sqrt (dot x x).
Definition diff (x y : list R) : list R := zip_with Rminus x y.
Definition zeros (n : nat) : list R := repeat 0 n.
(** the columns are independent *)
Definition regular (J : mat R) : Prop := forall z, solves J z (zeros (m_rows J)) -> z = zeros (length (m_cols J)).
Definition orthonormal (l : list (list R)) : Prop :=
  forall i j a b, l !! i = Some a -> l !! j = Some b -> dot a b = if decide (i = j) then 1 else 0.
(** [J x] is the sum of the [u] with weights [s * (v . x)] *)
Definition svd_of (J : mat R) (d : svd R) : Prop :=
  length (left d) = length (sing d) /\ length (right d) = length (sing d) /\
  Forall (fun u => length u = m_rows J) (left d) /\ Forall (fun v => length v = length (m_cols J)) (right d) /\
  orthonormal (left d) /\ orthonormal (right d) /\ Forall (fun s => 0 <= s) (sing d) /\
  forall x, length x = length (m_cols J) ->
    act J x = combine (m_rows J) (left d) (zip_with Rmult (sing d) (map (fun v => dot v x) (right d))).
(** every singular value is zero or greater than [eps] *)
Definition gap (d : svd R) (eps : R) : Prop := Forall (fun s => s = 0 \/ eps < s) (sing d).
