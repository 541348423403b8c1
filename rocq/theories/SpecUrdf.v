(** * Specification vocabulary for loading URDF robots *)
From Coq Require Import String Sorted.
From stdpp Require Import gmap strings.
From Verif Require Import Scalar Geometry Joint Link Prog NodeM ChainM UrdfM.

Section SpecUrdf.
  Context {S : Type}.
  Implicit Types (r : robot S).

  (** [r] has a link of this name *)
  Definition declared r (name : string) : Prop := exists l, l ∈ r_links r /\ ul_name l = name.
  (** joint [k] is the one whose child link is the parent link of joint [i] *)
  Definition parent_joint r (i k : nat) : Prop :=
    exists ji jk, r_joints r !! i = Some ji /\ r_joints r !! k = Some jk /\
      uj_child jk = uj_parent ji /\ declared r (uj_parent ji).
  (** joint [k] is the one that joint [i] mimics, with this tag *)
  Definition mimics r (i k : nat) (m : umimic S) : Prop :=
    exists ji jk, r_joints r !! i = Some ji /\ r_joints r !! k = Some jk /\
      uj_mimic ji = Some m /\ uj_name jk = um_joint m.

  (** names are used once, and no link is the child of two joints *)
  Record well_named r : Prop := {
    wn_links : NoDup (map ul_name (r_links r));
    wn_joints : NoDup (map uj_name (r_joints r));
    wn_children : NoDup (map uj_child (r_joints r));
  }.
  (** going up from joint [i] ends at a joint without parent joint *)
  Definition hangs_from_root r (i : nat) : Prop :=
    i < length (r_joints r) /\ exists k, rtc (parent_joint r) i k /\ forall k', ~ parent_joint r k k'.
  (** no joint hangs below itself *)
  Definition acyclic r : Prop := forall i, ~ tc (parent_joint r) i i.
  (** mimic tags name joints of the robot *)
  Definition mimics_known r : Prop :=
    forall j m, j ∈ r_joints r -> uj_mimic j = Some m -> exists k, k ∈ r_joints r /\ uj_name k = um_joint m.
  (** the link is nobody's child *)
  Definition free_link r (l : ulink S) : Prop := forall j, j ∈ r_joints r -> uj_child j <> ul_name l.
End SpecUrdf.

(** ** The nodes a robot is loaded into: the synthetic root at address [nx], and
    the node of joint [i] at address [S nx + i] *)
Section Loaded.
  Context {S T : Type} `{SS : Scalar S} `{ST : Scalar T} (conv : S -> T).
  Implicit Types (r : robot S).

  (** [l] lists, in increasing order and once each, the nodes of the joints in [P] *)
  Definition joints_in_order (nx : nat) (P : nat -> Prop) (l : list nat) : Prop :=
    StronglySorted lt l /\ forall a, a ∈ l <-> exists i, a = Datatypes.S nx + i /\ P i.

  (** no joint's conversion panics (what that means: C45) *)
  Definition joints_convert (js : list (ujoint S)) : Prop := forall j, j ∈ js -> is_Some (joint_from conv j).

  Record root_node r (nx : nat) (n : node T) : Prop := {
    rn_joint : n_joint n = root_joint;
    rn_parent : n_parent n = None;
    (** its children are the joints without parent joint *)
    rn_children : joints_in_order nx (fun i => i < length (r_joints r) /\ forall k, ~ parent_joint r i k) (n_children n);
    rn_mimic : n_mimic_parent n = None /\ n_mimic n = None /\ n_mimic_children n = [];
    (** it carries the last of the links that are nobody's child *)
    rn_link : (exists l1 l l2, r_links r = l1 ++ l :: l2 /\ free_link r l /\ (forall l', l' ∈ l2 -> ~ free_link r l') /\
                n_link n = Some (link_from conv l))
              \/ (forall l, l ∈ r_links r -> ~ free_link r l) /\ n_link n = None;
  }.
  Record joint_node r (nx i : nat) (j : ujoint S) (n : node T) : Prop := {
    jn_joint : joint_from conv j = Some (n_joint n);
    jn_parent : (exists k, parent_joint r i k /\ n_parent n = Some (Datatypes.S nx + k)) \/
                (forall k, ~ parent_joint r i k) /\ n_parent n = Some nx;
    jn_children : joints_in_order nx (fun k => parent_joint r k i) (n_children n);
    jn_mimic : (exists k m, mimics r i k m /\ n_mimic_parent n = Some (Datatypes.S nx + k) /\ n_mimic n = Some (mimic_from conv m)) \/
               uj_mimic j = None /\ n_mimic_parent n = None /\ n_mimic n = None;
    jn_mimic_children : joints_in_order nx (fun k => exists m, mimics r k i m) (n_mimic_children n);
    (** it carries the link that is the child of the joint *)
    jn_link : (exists l, l ∈ r_links r /\ ul_name l = uj_child j /\ n_link n = Some (link_from conv l)) \/
              ~ declared r (uj_child j) /\ n_link n = None;
  }.
  (** [h'] is [h] plus the nodes of [r] *)
  Record loaded r (nx : nat) (h h' : gmap nat (node T)) : Prop := {
    ld_old : forall b, b < nx -> h' !! b = h !! b;
    ld_new : forall b, Datatypes.S nx + length (r_joints r) <= b -> h' !! b = None;
    ld_root : exists n, h' !! nx = Some n /\ root_node r nx n;
    ld_joint : forall i j, r_joints r !! i = Some j -> exists n, h' !! (Datatypes.S nx + i) = Some n /\ joint_node r nx i j n;
  }.
End Loaded.
