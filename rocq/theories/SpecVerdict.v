(** * Specification vocabulary: the iterations of the solver *)
From Coq Require Import String Sorting.Sorted.
From stdpp Require Import gmap.
From Verif Require Import Scalar Geometry Joint Link Prog NodeM ChainM FuncsM IkM SpecJoint SpecNode SpecChain SpecIk SpecStep.

Section SpecVerdict.
  Context {T : Type} `{Sc : Scalar T}.
  Implicit Types (h : gmap nat (node T)).

  (** [idx] lists, in ascending order, the places of the ignored joints among the movable ones;
      of several joints with one name the first is meant *)
  Definition ignored_at h arm (c : constraints) (idx : list nat) : Prop :=
    exists l, Forall2 (first_named h (c_movable arm)) (ignored_joint_names c) l /\ idx ≡ₚ l /\ StronglySorted le idx.

  (** one iteration turns [h] into [h'] and leaves the end of the arm at [w] *)
  Definition tries t nx ovf la (sv : solver T) arm target (c : constraints) idx h h' (w : iso T) : Prop :=
    exists d, run t (solve_one_loop_with_constraints ovf la sv arm target (flags c) idx) (quiet h nx) = Done (Ok d) (quiet h' nx) /\
      run t (end_transform arm) (quiet h' nx) = Done w (quiet h' nx).
  (** [k] iterations lead from [h] to [h'], and after none of them the end is on target *)
  Inductive missed t nx ovf la (sv : solver T) arm target (c : constraints) idx : nat -> gmap nat (node T) -> gmap nat (node T) -> Prop :=
  | missed_none h : missed t nx ovf la sv arm target c idx 0 h h
  | missed_first h h1 h2 w k : tries t nx ovf la sv arm target c idx h h1 w -> ~ on_target sv c target w ->
      missed t nx ovf la sv arm target c idx k h1 h2 -> missed t nx ovf la sv arm target c idx (S k) h h2.
  (** [h'] is [h] with the joints [l] moved into their limits *)
  Definition put_inside (l : list nat) h h' : Prop :=
    only_moved l h h' /\
    forall a n, a ∈ l -> h !! a = Some n -> position_at h' a = Some (limited (j_limits (n_joint n)) (j_position (n_joint n))).
End SpecVerdict.
