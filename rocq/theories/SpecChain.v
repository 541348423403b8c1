(** * Specification vocabulary for chains *)
From Coq Require Import String.
From stdpp Require Import gmap.
From Verif Require Import Scalar Geometry Joint Link Prog NodeM ChainM SpecJoint SpecNode SpecGraph.

Section SpecChain.
  Context {T : Type} `{Sc : Scalar T}.
  Implicit Types (h : gmap nat (node T)).

  Definition all_live h (l : list nat) : Prop := forall a, a ∈ l -> is_Some (h !! a).

  (** the node's joint is not Fixed *)
  Definition node_movable h (a : nat) : bool :=
    match h !! a with
    | Some n => match j_type (n_joint n) with Fixed => false | _ => true end
    | None => false
    end.

  (** [c] is the chain over the node list [l]: same nodes in that order, its
      movable list is the movable ones of them in order, and [dof] their number *)
  Definition chain_of h (l : list nat) (c : chain) : Prop :=
    c_nodes c = l /\ c_movable c = List.filter (node_movable h) l /\
    c_dof c = length (List.filter (node_movable h) l).

  (** every node keeps its joint's type (what no operation of the crate changes) *)
  Definition types_kept h h' : Prop :=
    forall a n, h !! a = Some n ->
      exists n', h' !! a = Some n' /\ j_type (n_joint n') = j_type (n_joint n).

  (** the current positions *)
  Definition position_at h (a : nat) : option T :=
    match h !! a with Some n => Some (j_position (n_joint n)) | None => None end.

  (** a node that takes no part in mimicry *)
  Definition no_mimic (n : node T) : Prop :=
    n_mimic_parent n = None /\ n_mimic_children n = [].
  Definition plain h (l : list nat) : Prop :=
    NoDup l /\ forall a, a ∈ l -> exists n, h !! a = Some n /\ no_mimic n.

  Definition name_at h (a : nat) (name : string) : Prop :=
    exists n, h !! a = Some n /\ j_name (n_joint n) = name.
  Definition admissible_at h (a : nat) (p : T) : Prop :=
    exists n, h !! a = Some n /\ admissible (n_joint n) p.
  (** in [h'] node [a] of [h] is at position [p], and otherwise unchanged *)
  Definition moved_at h h' (a : nat) (p : T) : Prop :=
    exists n n', h !! a = Some n /\ h' !! a = Some n' /\ node_moved n p n'.

  (** in [h'] node [a] of [h] was sent to [p] by the clamping setter: a fixed
      joint stays, otherwise it is at [p], or at [p] clamped to its limits *)
  Definition clamped_at h h' (a : nat) (p : T) : Prop :=
    exists n n', h !! a = Some n /\ h' !! a = Some n' /\
      (j_type (n_joint n) = Fixed -> n' = n) /\
      (movable (n_joint n) -> j_limits (n_joint n) = None -> node_moved n p n') /\
      (movable (n_joint n) -> forall r, j_limits (n_joint n) = Some r -> node_moved n (clamp r p) n').

  Definition child_count h (a : nat) (k : nat) : Prop :=
    exists n, h !! a = Some n /\ length (n_children n) = k.
  (** node [i] of [l] is the first one whose joint has this name *)
  Definition first_named h (l : list nat) (name : string) (i : nat) : Prop :=
    exists a, l !! i = Some a /\ name_at h a name /\
      forall j b, j < i -> l !! j = Some b -> ~ name_at h b name.
  Definition nowhere_named h (l : list nat) (name : string) : Prop :=
    forall b, b ∈ l -> ~ name_at h b name.
  (** each node's only child is the next one *)
  Definition single_path h (l : list nat) : Prop :=
    forall i a b, l !! i = Some a -> l !! (S i) = Some b ->
      exists n, h !! a = Some n /\ n_children n = [b].
End SpecChain.
