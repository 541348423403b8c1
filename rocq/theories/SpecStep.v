(** * Specification vocabulary for one iteration of the solver *)
From Coq Require Import Reals.
From stdpp Require Import gmap.
From Verif Require Import Scalar ScalarR Geometry Joint Link Prog NodeM ChainM FuncsM IkM SpecNode SpecGeom.

(** the entries of [l], the first of which is number [k], whose number is not in [idx] *)
Fixpoint without_from {A} (k : nat) (idx : list nat) (l : list A) : list A :=
  match l with
  | [] => []
  | x :: l => if decide (k ∈ idx) then without_from (S k) idx l else x :: without_from (S k) idx l
  end.
Definition without {A} (idx : list nat) (l : list A) : list A := without_from 0 idx l.
(** the entries of [l] with the flag set *)
Fixpoint flagged {A} (flags : list bool) (l : list A) : list A :=
  match flags, l with
  | true :: flags, x :: l => x :: flagged flags l
  | false :: flags, _ :: l => flagged flags l
  | _, _ => []
  end.

Section SpecStep.
  Context {T : Type} `{Sc : Scalar T}.
  (** [full] has the entries of [d] in order, and zero at the places in [idx] *)
  Definition spread_to (idx : list nat) (d full : list T) : Prop :=
    without idx full = d /\ forall j, j ∈ idx -> full !! j = Some szero.
  (** the matrix left when only the flagged rows, and the columns not in [idx], remain *)
  Definition reduced (flags : list bool) (idx : list nat) (cols : list (list T)) : mat T :=
    Mat (length (filter (fun b => b = true) flags)) (map (flagged flags) (without idx cols)).
  Definition limited (o : option (range T)) (x : T) : T :=
    match o with Some r => clamp r x | None => x end.
End SpecStep.

Local Open Scope R_scope.
(** sum of the columns of a matrix with [n] rows, weighted with [x] *)
Fixpoint combine (n : nat) (cols : list (list R)) (x : list R) : list R :=
  match cols, x with
  | c :: cols, y :: x => zip_with (fun a s => a * y + s) c (combine n cols x)
  | _, _ => repeat 0 n
  end.
(** [x] solves the system [J x = b] *)
Definition solves (J : mat R) (x b : list R) : Prop :=
  length x = length (m_cols J) /\ combine (m_rows J) (m_cols J) x = b.
(** whenever the system has a solution, [solver] finds one *)
Definition exact_at (J : mat R) (solver : list R -> option (list R)) : Prop :=
  forall b, (exists x, solves J x b) -> exists x, solver b = Some x /\ solves J x b.
(** a matrix acting on a vector *)
Definition act (m : mat R) (x : list R) : list R := combine (m_rows m) (m_cols m) x.
(** [r] rows and [c] columns *)
Definition shaped (m : mat R) (r c : nat) : Prop :=
  m_rows m = r /\ length (m_cols m) = c /\ Forall (fun k => length k = r) (m_cols m).
(** The linear algebra the solver uses at the matrix [J] is exact.  [ignored] joints
    are ignored, [required] coordinates are constrained. *)
Definition solves_exactly (la : linalg R) (sv : solver R) (dof required ignored : nat) (J : mat R) : Prop :=
  if decide (required + ignored < dof)%nat then
    match nullspace_function sv with
    | None => exact_at J (svd_solve la J)
    | Some f =>
        (forall q, length q = dof -> exists v, f q = Some v /\ length v = dof) /\
        exists P, pinv la J = Some P /\ shaped P (length (m_cols J)) (m_rows J) /\
          forall x, length x = length (m_cols J) -> act J (act P (act J x)) = act J x
    end
  else ignored = 0%nat /\ exact_at J (lu_solve la J).
(** fixed and linear joints, with a unit rotation in their origin *)
Definition straight (j : joint R) : Prop :=
  proper (j_origin j) /\ match j_type j with Rotational _ => False | _ => True end.
(** the six coordinates of the difference between a target and a pose *)
Definition pose_error (target w : iso R) : list R :=
  let d := qscaled_axis (qmul (rt target) (qconj (rt w))) in
  [vx (tr target) - vx (tr w); vy (tr target) - vy (tr w); vz (tr target) - vz (tr w); vx d; vy d; vz d].
Definition flags (c : constraints) : list bool :=
  [position_x c; position_y c; position_z c; rotation_x c; rotation_y c; rotation_z c].
Definition count (l : list bool) : nat := length (filter (fun b => b = true) l).
