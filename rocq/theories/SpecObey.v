(** * Specification vocabulary for C97: descriptions with mimic tags

    As in C94 everything is said in terms of the description. *)
From Coq Require Import String Reals.
From stdpp Require Import gmap strings.
From Verif Require Import Scalar ScalarR Geometry Joint Link Prog NodeM ChainM UrdfM SpecUrdf.
Open Scope R_scope.

(** the joint can be moved *)
Definition moves (j : ujoint R) : Prop := match uj_type j with URevolute | UContinuous | UPrismatic => True | _ => False end.
(** the positions after the list [ps] has been accepted for the movable nodes [ms] of the robot just loaded at [nx]: joints
    without mimic tag are where they were told to be; a joint that mimics one of them is at multiplier times that plus
    offset, with 1 and 0 where the tag says nothing, whatever was given for it; the others are at zero *)
Record obeyed (r : robot R) (nx : nat) (ms : list nat) (ps : list R) (q : nat -> R) : Prop := {
  ob_told : forall i j k p, r_joints r !! i = Some j -> uj_mimic j = None -> ms !! k = Some (S nx + i)%nat -> ps !! k = Some p -> q i = p;
  ob_all : forall i j, r_joints r !! i = Some j -> moves j -> exists k p, ms !! k = Some (S nx + i)%nat /\ ps !! k = Some p;
  ob_mimic : forall i k jk m, mimics r i k m -> r_joints r !! k = Some jk -> uj_mimic jk = None -> moves jk ->
    q i = q k * default 1 (um_multiplier m) + default 0 (um_offset m);
  ob_rest : forall i j, r_joints r !! i = Some j -> (uj_mimic j = None -> ~ moves j) ->
    (forall k jk m, mimics r i k m -> r_joints r !! k = Some jk -> moves jk -> uj_mimic jk <> None) -> q i = 0;
}.
(** the joint can be moved there; equal limits mean no limits (C45) *)
Definition reaches (j : ujoint R) (p : R) : Prop := moves j /\ (uj_lower j < uj_upper j -> uj_lower j <= p <= uj_upper j).
(** the list has one number for each movable node, and every joint reaches the position that it is given or, if it mimics one
    of those, that follows by its tag *)
Definition acceptable (r : robot R) (nx : nat) (ms : list nat) (ps : list R) : Prop :=
  length ps = length ms /\
  forall i j k p, r_joints r !! i = Some j -> uj_mimic j = None -> ms !! k = Some (S nx + i)%nat -> ps !! k = Some p ->
    reaches j p /\ forall b jb m, mimics r b i m -> r_joints r !! b = Some jb ->
      reaches jb (p * default 1 (um_multiplier m) + default 0 (um_offset m)).
