(** * Specification vocabulary for cloning chains *)
From Coq Require Import String.
From stdpp Require Import gmap.
From Verif Require Import Scalar Geometry Joint Link Prog NodeM ChainM SpecGraph SpecChain.

Section SpecClone.
  Context {T : Type}.
  Implicit Types (h : gmap nat (node T)).

  (** [m] is alive and [a] names it as its mimic parent *)
  Definition live_mimic_parent h (a m : nat) : Prop :=
    exists n, h !! a = Some n /\ n_mimic_parent n = Some m /\ is_Some (h !! m).
  (** what [set_mimic_parent] establishes: who has a live mimic parent has a Mimic *)
  Definition mimics_complete h (l : list nat) : Prop :=
    forall a n m, a ∈ l -> h !! a = Some n -> live_mimic_parent h a m -> is_Some (n_mimic n).
  (** live parents and mimic parents of the nodes of [l] are in [l] *)
  Definition self_contained h (l : list nat) : Prop :=
    forall a b, a ∈ l -> live_parent h a b \/ live_mimic_parent h a b -> b ∈ l.
  (** the first node has no parent link *)
  Definition starts_at_root h (l : list nat) : Prop :=
    forall a n, head l = Some a -> h !! a = Some n -> n_parent n = None.

  (** [b] is alive in [h'] but was not in [h] *)
  Definition created h h' (b : nat) : Prop := h !! b = None /\ is_Some (h' !! b).
  (** every node [n] mentions satisfies [D] *)
  Definition mentions_only (D : nat -> Prop) (n : node T) : Prop :=
    (forall c, c ∈ n_children n -> D c) /\ (forall c, c ∈ n_mimic_children n -> D c) /\
    (forall w, n_parent n = Some w -> D w) /\ (forall w, n_mimic_parent n = Some w -> D w).

  (** the tree with the children of every node in the opposite order *)
  Fixpoint mirror (t : tree) : tree := match t with TNode a cs => TNode a (rev (map mirror cs)) end.
  (** the tree with every address renamed *)
  Fixpoint rename (f : nat -> nat) (t : tree) : tree := match t with TNode a cs => TNode (f a) (map (rename f) cs) end.

  (** [f] maps the nodes [l] of [h] onto copies in [h'], siblings in the opposite order *)
  Record copy_by (f : nat -> nat) h h' (l : list nat) : Prop := {
    cb_inj : forall a b, a ∈ l -> b ∈ l -> f a = f b -> a = b;
    cb_node : forall a n, a ∈ l -> h !! a = Some n -> exists n', h' !! f a = Some n' /\
      n_joint n' = n_joint n /\ n_link n' = n_link n /\
      n_parent n' = f <$> n_parent n /\
      n_children n' = map f (rev (n_children n)) /\
      (forall m, n_mimic_parent n' = Some m <-> exists m0, live_mimic_parent h a m0 /\ m = f m0) /\
      ((exists m, live_mimic_parent h a m) -> n_mimic n' = n_mimic n) /\
      (forall c, c ∈ n_mimic_children n' <-> exists c0, c0 ∈ l /\ live_mimic_parent h c0 a /\ c = f c0);
  }.
  (** at most one child *)
  Definition unbranched h (l : list nat) : Prop :=
    forall a n, a ∈ l -> h !! a = Some n -> length (n_children n) <= 1.
  Definition joint_of h (a : nat) : option (joint T) := n_joint <$> h !! a.
End SpecClone.
