(** * Specification vocabulary for descriptions that differ in the order of their tags *)
From Coq Require Import String.
From stdpp Require Import gmap strings.
From Verif Require Import Scalar Geometry Joint Link Prog UrdfM SpecUrdf.

Section Shuffle.
  Context {S : Type}.
  Implicit Types (r : robot S).
  (** the same link and joint tags, in any order *)
  Definition shuffled r r' : Prop := r_links r ≡ₚ r_links r' /\ r_joints r ≡ₚ r_joints r'.
  (** joint [i] of the one is joint [i'] of the other *)
  Definition matched r r' (i i' : nat) : Prop := exists j, r_joints r !! i = Some j /\ r_joints r' !! i' = Some j.
  (** joints that are related stay in the same order *)
  Definition kept r r' (related : nat -> nat -> Prop) : Prop :=
    forall i k i' k', matched r r' i i' -> matched r r' k k' -> related i k -> i < k -> i' < k'.
  (** they mimic the same joint *)
  Definition mimic_siblings r (i k : nat) : Prop := exists p m m', mimics r i p m /\ mimics r k p m'.
  (** they hang from the same joint, or both from none *)
  Definition siblings r (i k : nat) : Prop :=
    (exists p, parent_joint r i p /\ parent_joint r k p) \/ (forall p, ~ parent_joint r i p) /\ (forall p, ~ parent_joint r k p).
  (** there is not more than one link that is nobody's child *)
  Definition one_base r : Prop := forall l l', l ∈ r_links r -> l' ∈ r_links r -> free_link r l -> free_link r l' -> l = l'.
End Shuffle.
