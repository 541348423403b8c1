(** * Specification vocabulary for arms with mimic joints *)
From Coq Require Import String.
From stdpp Require Import gmap.
From Verif Require Import Scalar Geometry Joint Link Prog SpecJoint SpecNode SpecChain.

Section SpecCouple.
  Context {T : Type} `{Sc : Scalar T}.
  Implicit Types (h : gmap nat (node T)).

  (** node [a] follows no other *)
  Definition free_node h (a : nat) : Prop := exists n, h !! a = Some n /\ n_mimic_parent n = None.
  (** node [c] is in [a]'s list of mimic children *)
  Definition drives h (a c : nat) : Prop := exists n, h !! a = Some n /\ c ∈ n_mimic_children n.
  (** the mimic child [c] stands where a parent at [p] would put it, and that is an
      admissible position *)
  Definition in_step h (p : T) (c : nat) : Prop :=
    exists cn m, h !! c = Some cn /\ n_mimic cn = Some m /\
      j_position (n_joint cn) = follow_position m p /\ admissible (n_joint cn) (j_position (n_joint cn)).
  (** the joints of [l] and those that mimic them are in step: whoever mimics a free joint of [l] stands
      where it should, and each mimic child in [l] mimics a free joint of [l] *)
  Definition coupled h (l : list nat) : Prop :=
    mimic_wf h /\
    (forall a c p, a ∈ l -> free_node h a -> drives h a c -> position_at h a = Some p -> in_step h p c) /\
    (forall c, c ∈ l -> free_node h c \/ exists a, a ∈ l /\ free_node h a /\ drives h a c).
  (** no joint mimics two of [l] *)
  Definition one_driver h (l : list nat) : Prop :=
    forall a b c, a ∈ l -> b ∈ l -> free_node h a -> free_node h b -> drives h a c -> drives h b c -> a = b.
End SpecCouple.
