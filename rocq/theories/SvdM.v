(** * nalgebra's solving by singular values

    [svd.solve(&err, EPS)] (ik.rs:262-265) and [pseudo_inverse(EPS)] (ik.rs:246): nalgebra 0.26,
    [SVD::solve], [SVD::pseudo_inverse], [SVD::recompose].  The decomposition itself (an
    iteration that ends when it has converged) is not modelled: it is an argument.
    Simplification: sums are taken left to right. *)
From Coq Require Import String QArith.
From stdpp Require Import gmap.
From Verif Require Import Scalar Geometry Joint Link Prog NodeM ChainM FuncsM IkM.

(** the columns of [u], the singular values, the rows of [v_t] *)
Record svd T := Svd { left : list (list T); sing : list T; right : list (list T) }.
Arguments Svd {T}. Arguments left {T}. Arguments sing {T}. Arguments right {T}.

Section SvdM.
  Context {T : Type} `{Sc : Scalar T}.
  (** [u.ad_mul(b)] *)
  Definition ad_mul (cols : list (list T)) (b : list T) : list T := map (fun c => lsum (zip_with smul c b)) cols.
  (** [n] is the number of columns of the matrix *)
  Definition na_svd_solve (d : svd T) (n : nat) (eps : T) (b : list T) : option (list T) :=
    if slt eps szero then None
    else Some (mat_vec (Mat n (right d))
      (zip_with (fun s y => if sgt s eps then sdiv y s else szero) (sing d) (ad_mul (left d) b))).
  (** [m] rows and [n] columns *)
  Definition na_pinv (d : svd T) (m n : nat) (eps : T) : option (mat T) :=
    if slt eps szero then None
    else
      let inv := map (fun s => if sgt s eps then sdiv sone s else szero) (sing d) in
      let scaled := zip_with (fun u s => map (fun x => smul x s) u) (left d) inv in
      Some (Mat n (map (fun r => mat_vec (Mat n (right d)) (row (Mat m scaled) r)) (seq 0 m))).
  (** ik.rs:242: [EPS] *)
  Definition ik_eps : T := sofQ (Qmake 1 10000).
  (** what the solver runs, given the decompositions *)
  Definition svd_linalg (lu : mat T -> list T -> option (list T)) (dec : mat T -> svd T) : linalg T :=
    Linalg lu (fun m b => na_svd_solve (dec m) (length (m_cols m)) ik_eps b)
      (fun m => na_pinv (dec m) (m_rows m) (length (m_cols m)) ik_eps).
End SvdM.
