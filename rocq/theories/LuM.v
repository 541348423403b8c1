(** * nalgebra's LU decomposition with partial pivoting

    What [jacobi.lu().solve(&err)] (ik.rs:271-279) runs for a square matrix: nalgebra 0.26,
    [LU::new], [gauss_step], [gauss_step_swap], [LU::solve_mut], [PermutationSequence],
    [solve_lower_triangular_with_diag_mut], [solve_upper_triangular_mut], [Vector::icamax],
    [Vector::axpy].  The matrix is a list of columns.  nalgebra works in place; here the
    part of the matrix from row and column [i] on is the argument of the [i]-th call, and the
    finished row and column [i] are a [Step].  The operations on the numbers, and their order
    for each entry, are nalgebra's.  Simplified: on a matrix that is not square, or a right side
    of another length, nalgebra panics, here the answer is [None]; the solver reaches the call only
    with a square matrix (ik.rs:301-306, 241).  On the empty matrix nalgebra's [dim - 1] underflows;
    here the answer is the empty list. *)
From Coq Require Import String.
From stdpp Require Import gmap.
From Verif Require Import Scalar Geometry Joint Link Prog NodeM ChainM FuncsM IkM.

Section LuM.
  Context {T : Type} `{Sc : Scalar T}.

  (** [Vector::icamax]: the first index of the largest absolute value *)
  Fixpoint icamax_from (i best : nat) (m : T) (l : list T) : nat :=
    match l with
    | [] => best
    | x :: l => if sgt (sabs x) m then icamax_from (S i) i (sabs x) l else icamax_from (S i) best m l
    end.
  Definition icamax (l : list T) : nat :=
    match l with [] => 0 | x :: l => icamax_from 1 0 (sabs x) l end.
  (** [swap_rows(0, k)] *)
  Definition swap_rows (k : nat) (l : list T) : list T :=
    match k, l with
    | S k, x :: l => match l !! k with Some y => y :: <[k := x]> l | None => x :: l end
    | _, _ => l
    end.
  (** [y.axpy(a, x, T::one())], which is [axcpy(a, x, T::one(), T::one())] *)
  Definition axpy (a : T) (x y : list T) : list T :=
    zip_with (fun x y => sadd (smul (smul a x) sone) (smul sone y)) x y.
  Definition first (c : list T) : T := nth 0 c szero.

  (** row and column [i] of the finished matrix: the row exchanged with it (counted from [i]),
      the entry on the diagonal, the entries below and to the right *)
  Inductive factors :=
    | Empty
    | Step (piv : nat) (diag : T) (lower row : list T) (rest : factors).
  (** [PermutationSequence::permute_rows] *)
  Fixpoint permute (f : factors) (b : list T) : list T :=
    match f with
    | Empty => b
    | Step piv _ _ _ rest => match swap_rows piv b with [] => [] | x :: b => x :: permute rest b end
    end.
  (** [LU::new]; [columns_range_mut(..i).swap_rows(i, piv)] of the later steps is [permute rest] *)
  Fixpoint lu_factor (n : nat) (cols : list (list T)) : factors :=
    match n, cols with
    | S n, c0 :: cs =>
        let piv := icamax c0 in
        let diag := nth piv c0 szero in
        if seqb diag szero then
          let rest := lu_factor n (map tail cs) in
          Step 0 (first c0) (permute rest (tail c0)) (map first cs) rest
        else
          let c0 := swap_rows piv c0 in
          let cs := map (swap_rows piv) cs in
          let inv_diag := sdiv sone diag in
          let coeffs := map (fun x => smul x inv_diag) (tail c0) in
          let rest := lu_factor n (map (fun c => axpy (sneg (first c)) coeffs (tail c)) cs) in
          Step piv (first c0) (permute rest coeffs) (map first cs) rest
    | _, _ => Empty
    end.
  (** [solve_lower_triangular_with_diag_mut(b, T::one())] *)
  Fixpoint solve_lower (f : factors) (b : list T) : list T :=
    match f, b with
    | Step _ _ lower _ rest, x :: b => x :: solve_lower rest (axpy (sneg (sdiv x sone)) lower b)
    | _, _ => b
    end.
  (** [solve_upper_triangular_mut]: from the last row on, each solution is subtracted from
      the rows above *)
  Fixpoint solve_upper (f : factors) (b : list T) : option (list T) :=
    match f, b with
    | Step _ diag _ row rest, x :: b =>
        match solve_upper rest b with
        | None => None
        | Some xs =>
            let x' := foldr (fun p y => sadd (smul (smul (sneg (snd p)) (fst p)) sone) (smul sone y)) x (zip row xs) in
            if seqb diag szero then None else Some (sdiv x' diag :: xs)
        end
    | _, _ => Some []
    end.
  (** [LU::solve] *)
  Definition na_lu_solve (m : mat T) (b : list T) : option (list T) :=
    if decide (length (m_cols m) = m_rows m /\ length b = m_rows m /\ Forall (fun c => length c = m_rows m) (m_cols m)) then
      let f := lu_factor (m_rows m) (m_cols m) in
      solve_upper f (solve_lower f (permute f b))
    else None.
End LuM.
