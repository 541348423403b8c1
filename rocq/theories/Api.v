(** * Client programs

    The public functions that touch nodes, as data ([api]), and the programs a
    client can write with them ([client]): finitely many calls, each chosen
    depending on the results of the earlier ones. *)
From Coq Require Import String NArith.
From stdpp Require Import gmap.
From Verif Require Import Scalar Geometry Joint Link Prog NodeM ChainM FuncsM IkM.

Inductive api (T : Type) : Type -> Type :=
(* node.rs *)
| KNew (j : joint T) : api T nat
| KJoint (a : nat) : api T (joint T)                       (* joint(), node.rs:76-78: guard dereferenced *)
| KJointPosition (a : nat) : api T (option T)
| KParent (a : nat) : api T (option nat)
| KChildren (a : nat) : api T (list nat)
| KAncestors (fuel a : nat) : api T (list nat)
| KDescendants (fuel a : nat) : api T (list nat)
| KSetParent (self parent : nat) : api T unit
| KRemoveParent (self parent : nat) : api T unit
| KIsRoot (a : nat) : api T bool
| KIsEnd (a : nat) : api T bool
| KSetOrigin (a : nat) (o : iso T) : api T unit
| KOrigin (a : nat) : api T (iso T)
| KSetPosition (a : nat) (p : T) : api T (result T unit)
| KSetClamped (a : nat) (p : T) : api T unit
| KSetUnchecked (a : nat) (p : T) : api T unit
| KWorldTransform (a : nat) : api T (option (iso T))
| KWorldVelocity (a : nat) : api T (option (velocity T))
| KMimicParent (a : nat) : api T (option nat)
| KSetMimicParent (self parent : nat) (m : mimic T) : api T unit
| KSetLink (a : nat) (l : option (link T)) : api T unit
| KLink (a : nat) : api T (option (link T))
| KFmt (a : nat) : api T string
(* chain.rs *)
| KFromNodes (l : list nat) : api T chain
| KFromRoot (fuel root : nat) : api T chain
| KFromEnd (fuel end_ : nat) : api T chain
| KFromEndToRoot (fuel end_ root : nat) : api T chain
| KChainSetOrigin (c : chain) (o : iso T) : api T unit
| KChainOrigin (c : chain) : api T (iso T)
| KIterJoints (c : chain) : api T (list (joint T))
| KIterLinks (c : chain) : api T (list (link T))
| KFind (c : chain) (name : string) : api T (option nat)
| KPositions (c : chain) : api T (list T)
| KSetPositions (c : chain) (ps : list T) : api T (result T unit)
| KSetPositionsClamped (c : chain) (ps : list T) : api T unit
| KSetPositionsUnchecked (c : chain) (ps : list T) : api T unit
| KUpdateTransforms (c : chain) : api T (list (iso T))
| KUpdateVelocities (c : chain) : api T (list (velocity T))
| KUpdateLinks (c : chain) : api T unit
| KClone (fuel : nat) (c : chain) : api T chain
| KChainFmt (fuel : nat) (c : chain) : api T string
| KTryNew (ovf : bool) (c : chain) : api T (option chain)
| KEndTransform (c : chain) : api T (iso T)
(* funcs.rs, ik.rs *)
| KJacobian (c : chain) : api T (mat T)
| KCenterOfMass (c : chain) : api T (vec3 T)
| KSolve (ovf : bool) (la : linalg T) (s : solver T) (c : chain) (target : iso T) : api T (result T unit)
| KSolveWith (ovf : bool) (la : linalg T) (s : solver T) (c : chain) (target : iso T) (cs : constraints)
    : api T (result T unit).

Arguments KNew {T}. Arguments KJoint {T}. Arguments KJointPosition {T}. Arguments KParent {T}.
Arguments KChildren {T}. Arguments KAncestors {T}. Arguments KDescendants {T}. Arguments KSetParent {T}.
Arguments KRemoveParent {T}. Arguments KIsRoot {T}. Arguments KIsEnd {T}. Arguments KSetOrigin {T}.
Arguments KOrigin {T}. Arguments KSetPosition {T}. Arguments KSetClamped {T}. Arguments KSetUnchecked {T}.
Arguments KWorldTransform {T}. Arguments KWorldVelocity {T}. Arguments KMimicParent {T}.
Arguments KSetMimicParent {T}. Arguments KSetLink {T}. Arguments KLink {T}.
Arguments KFmt {T}. Arguments KFromNodes {T}. Arguments KFromRoot {T}. Arguments KFromEnd {T}.
Arguments KFromEndToRoot {T}. Arguments KChainSetOrigin {T}. Arguments KChainOrigin {T}.
Arguments KIterJoints {T}. Arguments KIterLinks {T}. Arguments KFind {T}. Arguments KPositions {T}.
Arguments KSetPositions {T}. Arguments KSetPositionsClamped {T}. Arguments KSetPositionsUnchecked {T}.
Arguments KUpdateTransforms {T}. Arguments KUpdateVelocities {T}. Arguments KUpdateLinks {T}.
Arguments KClone {T}. Arguments KChainFmt {T}. Arguments KTryNew {T}. Arguments KEndTransform {T}.
Arguments KJacobian {T}. Arguments KCenterOfMass {T}. Arguments KSolve {T}. Arguments KSolveWith {T}.

(** the handles a chain holds *)
Definition chain_handles (c : chain) : list nat := c_nodes c ++ c_movable c.
Definition opt_handles (o : option nat) : list nat := match o with Some a => [a] | None => [] end.

Section Api.
  Context {T : Type} `{Sc : Scalar T}.

  Definition interp {R} (k : api T R) : prog T R :=
    match k in api _ R return prog T R with
    | KNew j => node_new j
    | KJoint a => read a n_joint
    | KJointPosition a => node_joint_position a
    | KParent a => node_parent a
    | KChildren a => node_children a
    | KAncestors fuel a => iter_ancestors fuel a
    | KDescendants fuel a => iter_descendants fuel a
    | KSetParent self parent => node_set_parent self parent
    | KRemoveParent self parent => node_remove_parent self parent
    | KIsRoot a => node_is_root a
    | KIsEnd a => node_is_end a
    | KSetOrigin a o => node_set_origin a o
    | KOrigin a => node_origin a
    | KSetPosition a p => node_set_joint_position a p
    | KSetClamped a p => node_set_joint_position_clamped a p
    | KSetUnchecked a p => node_set_joint_position_unchecked a p
    | KWorldTransform a => node_world_transform a
    | KWorldVelocity a => node_world_velocity a
    | KMimicParent a => node_mimic_parent a
    | KSetMimicParent self parent m => node_set_mimic_parent self parent m
    | KSetLink a l => node_set_link a l
    | KLink a => node_link a
    | KFmt a => node_fmt a
    | KFromNodes l => from_nodes l
    | KFromRoot fuel a => from_root fuel a
    | KFromEnd fuel a => from_end fuel a
    | KFromEndToRoot fuel a r => from_end_to_root fuel a r
    | KChainSetOrigin c o => chain_set_origin c o
    | KChainOrigin c => chain_origin c
    | KIterJoints c => iter_joints c Ret
    | KIterLinks c => iter_links c
    | KFind c name => chain_find c name
    | KPositions c => joint_positions c
    | KSetPositions c ps => set_joint_positions c ps
    | KSetPositionsClamped c ps => set_joint_positions_clamped c ps
    | KSetPositionsUnchecked c ps => set_joint_positions_unchecked c ps
    | KUpdateTransforms c => update_transforms c
    | KUpdateVelocities c => update_velocities c
    | KUpdateLinks c => update_link_transforms c
    | KClone fuel c => chain_clone fuel c
    | KChainFmt fuel c => chain_fmt fuel c
    | KTryNew ovf c => try_new ovf c
    | KEndTransform c => end_transform c
    | KJacobian c => jacobian c
    | KCenterOfMass c => center_of_mass c
    | KSolve ovf la s c target => solve ovf la s c target
    | KSolveWith ovf la s c target cs => solve_with_constraints ovf la s c target cs
    end.

  (** the handles passed in *)
  Definition args {R} (k : api T R) : list nat :=
    match k with
    | KNew _ => []
    | KJoint a | KJointPosition a | KParent a | KChildren a | KAncestors _ a | KDescendants _ a
    | KIsRoot a | KIsEnd a | KSetOrigin a _ | KOrigin a | KSetPosition a _ | KSetClamped a _
    | KSetUnchecked a _ | KWorldTransform a | KWorldVelocity a | KMimicParent a | KSetLink a _
    | KLink a | KFmt a | KFromRoot _ a | KFromEnd _ a => [a]
    | KSetParent a b | KRemoveParent a b | KSetMimicParent a b _ | KFromEndToRoot _ a b => [a; b]
    | KFromNodes l => l
    | KChainSetOrigin c _ | KChainOrigin c | KIterJoints c | KIterLinks c | KFind c _ | KPositions c
    | KSetPositions c _ | KSetPositionsClamped c _ | KSetPositionsUnchecked c _ | KUpdateTransforms c
    | KUpdateVelocities c | KUpdateLinks c | KClone _ c | KChainFmt _ c | KTryNew _ c | KEndTransform c
    | KJacobian c | KCenterOfMass c | KSolve _ _ _ c _ | KSolveWith _ _ _ c _ _ => chain_handles c
    end.
  (** the handles given back *)
  Definition rets {R} (k : api T R) : R -> list nat :=
    match k in api _ R return R -> list nat with
    | KNew _ => fun a => [a]
    | KParent _ | KMimicParent _ | KFind _ _ => opt_handles
    | KChildren _ | KAncestors _ _ | KDescendants _ _ => fun l => l
    | KFromNodes _ | KFromRoot _ _ | KFromEnd _ _ | KFromEndToRoot _ _ _ | KClone _ _ => chain_handles
    | KTryNew _ _ => fun o => match o with Some c => chain_handles c | None => [] end
    | _ => fun _ => []
    end.

  Inductive client (A : Type) :=
  | Finish (x : A)
  | Call {R : Type} (k : api T R) (next : R -> client A).
  Arguments Finish {A}. Arguments Call {A R}.

  Fixpoint denote {A} (cl : client A) : prog T A :=
    match cl with
    | Finish x => Ret x
    | Call k next => bind (interp k) (fun r => denote (next r))
    end.
  (** [cl] only makes calls of the class [P], on handles it has: those in [K],
      and those it was given by earlier calls; the handles [hs x] in its result
      are such handles too *)
  Fixpoint obeys {A} (P : forall R, api T R -> Prop) (hs : A -> list nat) (K : nat -> Prop) (cl : client A) : Prop :=
    match cl with
    | Finish x => forall a, a ∈ hs x -> K a
    | Call k next =>
        P _ k /\ (forall a, a ∈ args k -> K a) /\
        forall r, obeys P hs (fun a => K a \/ a ∈ rets k r) (next r)
    end.

  (** a heap as Rust ownership keeps it: strong references are alive, weak ones
      point to nodes that exist or existed *)
  Record heap_ok (h : gmap nat (node T)) (nx : nat) : Prop := {
    hk_bound : forall a, is_Some (h !! a) -> a < nx;
    hk_children : forall a n c, h !! a = Some n -> c ∈ n_children n -> is_Some (h !! c);
    hk_mimic_children : forall a n c, h !! a = Some n -> c ∈ n_mimic_children n -> is_Some (h !! c);
    hk_parent : forall a n w, h !! a = Some n -> n_parent n = Some w -> w < nx;
    hk_mimic_parent : forall a n w, h !! a = Some n -> n_mimic_parent n = Some w -> w < nx;
  }.
  (** the state an outcome ends in *)
  Definition final_state {A} (o : outcome T A) : option (sh T) :=
    match o with
    | Done _ s | Panicked _ s | Deadlock _ s | OutOfFuel s => Some s
    | Stuck => None
    end.
End Api.
Arguments client : clear implicits.
Arguments Finish {T A}. Arguments Call {T A R}.
