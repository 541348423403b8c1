(** * Specification vocabulary for histories of calls and for threads *)
From Coq Require Import String.
From stdpp Require Import gmap.
From Verif Require Import Scalar Geometry Joint Link Prog NodeM ChainM FuncsM IkM SpecJoint SpecNode SpecGraph SpecChain Api.

Section SpecHist.
  Context {T : Type} `{Sc : Scalar T}.
  Implicit Types (h : gmap nat (node T)).

  Definition alive h (a : nat) : Prop := is_Some (h !! a).
  (** any call *)
  Definition any_call R (k : api T R) : Prop := True.

  (** not an unchecked setter, and not a clamping setter given NaN.  The solver
      calls the clamping setter with numbers it computes, so it belongs to this
      class only for scalars without NaN. *)
  Definition checked_call R (k : api T R) : Prop :=
    match k with
    | KSetUnchecked _ _ | KSetPositionsUnchecked _ _ => False
    | KSetClamped _ p => snum p
    | KSetPositionsClamped _ ps => forall p, p ∈ ps -> snum p
    | KSolve _ _ _ _ _ | KSolveWith _ _ _ _ _ _ => forall x : T, snum x
    | _ => True
    end.
  (** ... and new joints are built inside their (ordered) limits *)
  Definition checked_call_inside R (k : api T R) : Prop :=
    checked_call R k /\ match k with KNew j => limits_wf j /\ inside j | _ => True end.

  (** not set_mimic_parent, Display of a chain or update_velocities *)
  Definition parallel_call R (k : api T R) : Prop :=
    match k with
    | KSetMimicParent _ _ _ | KChainFmt _ _ | KUpdateVelocities _ => False
    | _ => True
    end.
  (** not Display of a chain or update_velocities *)
  Definition sequential_call R (k : api T R) : Prop :=
    match k with
    | KChainFmt _ _ | KUpdateVelocities _ => False
    | _ => True
    end.

  (** everything but the position and the two caches is as before *)
  Definition same_but_position (j j' : joint T) : Prop :=
    j_name j' = j_name j /\ j_type j' = j_type j /\ j_velocity j' = j_velocity j /\
    j_limits j' = j_limits j /\ j_origin j' = j_origin j.
  Definition node_same_but_joint (n n' : node T) : Prop :=
    n_parent n' = n_parent n /\ n_children n' = n_children n /\
    n_mimic_parent n' = n_mimic_parent n /\ n_mimic_children n' = n_mimic_children n /\
    n_mimic n' = n_mimic n /\ n_link n' = n_link n.

  (** ** threads *)
  (** thread [u] can execute its next command *)
  Definition can_move {A} (ths : list (thread T A)) (s : sh T) (u : nat) : Prop :=
    exists q, ths !! u = Some (Running q) /\
      ((exists p' s', exec1 u q s = RStep p' s') \/ exists msg s', exec1 u q s = RPanic msg s').
  (** thread [t] is waiting for a mutex that thread [u] holds *)
  Definition waits_for {A} (ths : list (thread T A)) (s : sh T) (t u : nat) : Prop :=
    exists a k, ths !! t = Some (Running (Lock a k)) /\ locks s !! a = Some u.
  (** every thread of a non-empty set waits for a thread of the set *)
  Definition deadlocked {A} (ths : list (thread T A)) (s : sh T) (D : list nat) : Prop :=
    D <> [] /\ forall t, t ∈ D -> exists u, u ∈ D /\ waits_for ths s t u.
  (** the threads of these clients, none started *)
  Definition spawn {A} (cls : list (client T A)) : list (thread T A) :=
    map (fun cl => Running (denote cl)) cls.
End SpecHist.
