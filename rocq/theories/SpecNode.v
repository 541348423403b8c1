(** * Specification vocabulary for nodes on the heap *)
From stdpp Require Import gmap.
From Verif Require Import Scalar Geometry Joint Link Prog SpecJoint.

Section SpecNode.
  Context {T : Type} `{Sc : Scalar T}.
  Implicit Types (h : gmap nat (node T)).

  (** [n'] is [n] with its joint at position [p] (caches forgotten), all other
      fields of the node unchanged *)
  Definition node_moved (n : node T) (p : T) (n' : node T) : Prop :=
    moved_to (n_joint n) p (n_joint n') /\
    n_parent n' = n_parent n /\ n_children n' = n_children n /\
    n_mimic_parent n' = n_mimic_parent n /\ n_mimic_children n' = n_mimic_children n /\
    n_mimic n' = n_mimic n /\ n_link n' = n_link n.

  (** the position a mimic child takes when its parent is put at [p] *)
  Definition follow_position (m : mimic T) (p : T) : T :=
    sadd (smul p (multiplier m)) (morigin m).

  (** Every node listed as a mimic child is alive and has both a mimic parent and
      a Mimic (what [set_mimic_parent] establishes). *)
  Definition mimic_wf h : Prop :=
    forall a n c, h !! a = Some n -> c ∈ n_mimic_children n ->
      exists cn, h !! c = Some cn /\ is_Some (n_mimic_parent cn) /\ is_Some (n_mimic cn).

  (** what node [c] is asked to do when its mimic parent goes to [p] *)
  Definition mimic_target h (c : nat) (p : T) (j : joint T) (q : T) : Prop :=
    exists cn m, h !! c = Some cn /\ n_mimic cn = Some m /\
      j = n_joint cn /\ q = follow_position m p.

  (** in [h'], node [c] of [h] has followed its mimic parent to [p] *)
  Definition followed h (p : T) (c : nat) h' : Prop :=
    exists cn m cn', h !! c = Some cn /\ n_mimic cn = Some m /\ h' !! c = Some cn' /\
      node_moved cn (follow_position m p) cn'.
End SpecNode.
