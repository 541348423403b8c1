(** * Specification vocabulary for robots with the same structure *)
From Coq Require Import String NArith.
From stdpp Require Import gmap.
From Verif Require Import Scalar Geometry Joint Link Prog NodeM ChainM FuncsM IkM Api.

Section Iso.
  Context {T : Type} `{Sc : Scalar T}.
  (** [f] takes the nodes in [D] to those of another robot, or of the same robot at other
      addresses; [kids] tells whether their child lists have to correspond *)
  Variables (kids : bool) (D : nat -> Prop) (f : nat -> nat).
  Definition twin_of (a b : nat) : Prop := D a /\ b = f a.
  Record node_twin (n n' : node T) : Prop := {
    tw_joint : n_joint n' = n_joint n;
    tw_link : n_link n' = n_link n;
    tw_mimic : n_mimic n' = n_mimic n;
    tw_parent : option_Forall2 twin_of (n_parent n) (n_parent n');
    tw_mimic_parent : option_Forall2 twin_of (n_mimic_parent n) (n_mimic_parent n');
    tw_mimic_children : Forall2 twin_of (n_mimic_children n) (n_mimic_children n');
    tw_children : kids = true -> Forall2 twin_of (n_children n) (n_children n');
  }.
  Record state_twin (s s' : sh T) : Prop := {
    st_heap : forall a, D a -> match heap s !! a, heap s' !! f a with Some n, Some n' => node_twin n n' | None, None => True | _, _ => False end;
    st_locks : forall a, D a -> locks s' !! f a = locks s !! a;
    st_poison : forall a, D a -> (f a ∈ poison s' <-> a ∈ poison s);
    st_next : forall i, twin_of (nxt s + i) (nxt s' + i);
  }.
  Definition chain_twin (c c' : chain) : Prop :=
    Forall2 twin_of (c_nodes c) (c_nodes c') /\ Forall2 twin_of (c_movable c) (c_movable c') /\ c_dof c' = c_dof c.
  Definition outcome_twin {A} (Q : A -> A -> Prop) (o o' : outcome T A) : Prop :=
    match o, o' with
    | Done x s, Done x' s' => Q x x' /\ state_twin s s'
    | Panicked m s, Panicked m' s' => m' = m /\ state_twin s s'
    | Deadlock a s, Deadlock a' s' => a' = f a /\ state_twin s s'
    | OutOfFuel s, OutOfFuel s' => state_twin s s'
    | Stuck, Stuck => True
    | _, _ => False
    end.

  (** the same call on the other robot *)
  Definition chain_to (c : chain) : chain := Chain (map f (c_nodes c)) (map f (c_movable c)) (c_dof c).
  Definition call_to {R} (k : api T R) : api T R :=
    match k in api _ R return api T R with
    | KNew j => KNew j
    | KJoint a => KJoint (f a)
    | KJointPosition a => KJointPosition (f a)
    | KParent a => KParent (f a)
    | KChildren a => KChildren (f a)
    | KAncestors fuel a => KAncestors fuel (f a)
    | KDescendants fuel a => KDescendants fuel (f a)
    | KSetParent a b => KSetParent (f a) (f b)
    | KRemoveParent a b => KRemoveParent (f a) (f b)
    | KIsRoot a => KIsRoot (f a)
    | KIsEnd a => KIsEnd (f a)
    | KSetOrigin a o => KSetOrigin (f a) o
    | KOrigin a => KOrigin (f a)
    | KSetPosition a p => KSetPosition (f a) p
    | KSetClamped a p => KSetClamped (f a) p
    | KSetUnchecked a p => KSetUnchecked (f a) p
    | KWorldTransform a => KWorldTransform (f a)
    | KWorldVelocity a => KWorldVelocity (f a)
    | KMimicParent a => KMimicParent (f a)
    | KSetMimicParent a b m => KSetMimicParent (f a) (f b) m
    | KSetLink a l => KSetLink (f a) l
    | KLink a => KLink (f a)
    | KFmt a => KFmt (f a)
    | KFromNodes l => KFromNodes (map f l)
    | KFromRoot fuel a => KFromRoot fuel (f a)
    | KFromEnd fuel a => KFromEnd fuel (f a)
    | KFromEndToRoot fuel a b => KFromEndToRoot fuel (f a) (f b)
    | KChainSetOrigin c o => KChainSetOrigin (chain_to c) o
    | KChainOrigin c => KChainOrigin (chain_to c)
    | KIterJoints c => KIterJoints (chain_to c)
    | KIterLinks c => KIterLinks (chain_to c)
    | KFind c name => KFind (chain_to c) name
    | KPositions c => KPositions (chain_to c)
    | KSetPositions c ps => KSetPositions (chain_to c) ps
    | KSetPositionsClamped c ps => KSetPositionsClamped (chain_to c) ps
    | KSetPositionsUnchecked c ps => KSetPositionsUnchecked (chain_to c) ps
    | KUpdateTransforms c => KUpdateTransforms (chain_to c)
    | KUpdateVelocities c => KUpdateVelocities (chain_to c)
    | KUpdateLinks c => KUpdateLinks (chain_to c)
    | KClone fuel c => KClone fuel (chain_to c)
    | KChainFmt fuel c => KChainFmt fuel (chain_to c)
    | KTryNew ovf c => KTryNew ovf (chain_to c)
    | KEndTransform c => KEndTransform (chain_to c)
    | KJacobian c => KJacobian (chain_to c)
    | KCenterOfMass c => KCenterOfMass (chain_to c)
    | KSolve ovf la s c target => KSolve ovf la s (chain_to c) target
    | KSolveWith ovf la s c target cs => KSolveWith ovf la s (chain_to c) target cs
    end.
  (** the same answer, up to the addresses *)
  Definition same_answer {R} (k : api T R) : R -> R -> Prop :=
    match k in api _ R return R -> R -> Prop with
    | KNew _ => twin_of
    | KParent _ | KMimicParent _ | KFind _ _ => option_Forall2 twin_of
    | KChildren _ | KAncestors _ _ | KDescendants _ _ => Forall2 twin_of
    | KFromNodes _ | KFromRoot _ _ | KFromEnd _ _ | KFromEndToRoot _ _ _ | KClone _ _ => chain_twin
    | KTryNew _ _ => option_Forall2 chain_twin
    | _ => eq
    end.
  (** the calls that read child lists *)
  Definition reads_children {R} (k : api T R) : bool :=
    match k with
    | KChildren _ | KDescendants _ _ | KIsEnd _ | KFromRoot _ _ | KClone _ _ | KChainFmt _ _ | KTryNew _ _ => true
    | _ => false
    end.
  (** client programs that make the same calls as long as they get the same answers *)
  Inductive client_twin {A} : client T A -> client T A -> Prop :=
  | twin_finish x : client_twin (Finish x) (Finish x)
  | twin_call {R} (k : api T R) next next' :
      (reads_children k = true -> kids = true) -> (forall a, a ∈ args k -> D a) ->
      (forall r r', same_answer k r r' -> client_twin (next r) (next' r')) ->
      client_twin (Call k next) (Call (call_to k) next').
End Iso.

(** the node with every address replaced *)
Definition node_to {T} (f : nat -> nat) (n : node T) : node T :=
  Node (f <$> n_parent n) (map f (n_children n)) (n_joint n) (f <$> n_mimic_parent n) (map f (n_mimic_children n)) (n_mimic n) (n_link n).
(** the mimic links among the nodes [l] as they are when they were made in the order of [l] *)
Definition mimics_in_order {T} (h : gmap nat (node T)) (l : list nat) : Prop :=
  forall a n, a ∈ l -> h !! a = Some n ->
    (forall m, n_mimic_parent n = Some m -> m ∈ l /\ is_Some (n_mimic n)) /\ (n_mimic_parent n = None -> n_mimic n = None) /\
    n_mimic_children n = filter (fun b => (h !! b ≫= n_mimic_parent) = Some a) l.
