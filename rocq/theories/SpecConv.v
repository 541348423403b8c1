(** * Specification vocabulary for the convergence of the solver, over the reals *)
From Coq Require Import Reals.
From stdpp Require Import gmap.
From Verif Require Import Scalar ScalarR Geometry Joint Link Prog NodeM ChainM FuncsM IkM LuM SvdM SpecNode SpecStep SpecLin.
Local Open Scope R_scope.

(** positions [q] at a distance of at most [r] from [q0] *)
Definition near (q0 : list R) (r : R) (q : list R) : Prop :=
  length q = length q0 /\ norm (diff q q0) <= r.
(** this joint can move by [r] in both directions without meeting its limits *)
Definition roomy (h : gmap nat (node R)) (r : R) (a : nat) : Prop :=
  forall n lim, h !! a = Some n -> j_limits (n_joint n) = Some lim ->
    rmin lim <= j_position (n_joint n) - r /\ j_position (n_joint n) + r <= rmax lim.
(** The linear algebra the solver uses at the matrix [J] always answers, the answer
    is a solution, and it is at most [K] times as long as the right side. *)
Definition solves_well (la : linalg R) (dof required ignored : nat) (J : mat R) (K : R) : Prop :=
  (if decide (required + ignored < dof)%nat then True else ignored = 0%nat) /\
  forall b, length b = m_rows J -> exists x,
    (if decide (required + ignored < dof)%nat then svd_solve la J b else lu_solve la J b) = Some x /\
    solves J x b /\ norm x <= K * norm b.

(** [J] transposed, times [b] *)
Definition transposed (J : mat R) (b : list R) : list R := map (fun c => dot c b) (m_cols J).
(** all singular values of [J], one for each row, are at least [s] *)
Definition conditioned (J : mat R) (s : R) : Prop :=
  forall b, length b = m_rows J -> s * norm b <= norm (transposed J b).
(** at the matrix [J] the linear algebra is nalgebra's, with some decomposition of [J] *)
Definition nalgebra_at (la : linalg R) (dof required ignored : nat) (J : mat R) : Prop :=
  if decide (required + ignored < dof)%nat then
    exists d, svd_of J d /\ length (sing d) = required /\
      forall b, svd_solve la J b = na_svd_solve d (length (m_cols J)) ik_eps b
  else ignored = 0%nat /\ forall b, lu_solve la J b = na_lu_solve J b.
(** [cols] is the Jacobian of the arm at the positions [q] *)
Definition jacobian_at (t : nat) (h : gmap nat (node R)) (nx : nat) (arm : chain) (q : list R) (cols : list (list R)) : Prop :=
  exists s, run t (set_joint_positions_unchecked arm q ;;; jacobian arm) (quiet h nx) = Done (Mat 6 cols) s.
