(** * Specification vocabulary: computed centers of mass against ideal ones *)
From Coq Require Import Reals ZArith Floats.SpecFloat.
From Flocq Require Import Core.
From stdpp Require Import gmap.
From Verif Require Import ScalarF Geometry Joint Link Prog NodeM SpecValues SpecFloatErr SpecGraph SpecGeom SpecReach SpecAcc.
Local Open Scope R_scope.

Section ComAcc.
  Context (prec emax : Z).
  (** the links correspond: same mass, same center *)
  Definition same_inertia (x : option (link spec_float)) (y : option (link R)) : Prop :=
    match x, y with
    | Some x, Some y => val prec emax (in_mass (l_inertial x)) (in_mass (l_inertial y)) /\
                        vval prec emax (tr (in_origin (l_inertial x))) (tr (in_origin (l_inertial y)))
    | None, None => True
    | _, _ => False
    end.
  Definition links_stand (hf : gmap nat (node spec_float)) (hr : gmap nat (node R)) : Prop :=
    forall a x y, hf !! a = Some x -> hr !! a = Some y -> same_inertia (n_link x) (n_link y).
  (** the centers of the links of these nodes are at most [D] joints and the length [l] from the root *)
  Definition links_within (hr : gmap nat (node R)) (nodes : list nat) (D : nat) (l : R) : Prop :=
    forall a n lk p js, a ∈ nodes -> hr !! a = Some n -> n_link n = Some lk -> path_up hr a p -> joints_of hr (rev p) js ->
      (length js <= D)%nat /\ reach emax js + len (tr (in_origin (l_inertial lk))) + lost emax <= l.
  (** the error of the centers themselves *)
  Definition swell (a d : R) (D : nat) : R := growth prec a d ^ (8 * S D).
  (** [N] links of total mass [M]: sums far from overflow, mass above underflow *)
  Definition fits_com (a d : R) (D : nat) (l : R) (N : nat) (M : R) : Prop :=
    60 * swell a d D * (l + 1) * (M + 1) <= bpow radix2 emax /\
    INR N * tiny emax <= M /\ 8 * INR (S N) * unit_roundoff prec <= 1.
End ComAcc.
