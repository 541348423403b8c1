(** * Specification vocabulary for the center of mass *)
From Coq Require Import Reals.
From stdpp Require Import gmap.
From Verif Require Import Scalar ScalarR Geometry Joint Link Prog NodeM SpecGraph SpecFK SpecGeom.

Section ComSpec.
  Context {T : Type} `{Sc : Scalar T}.
  Implicit Types (h : gmap nat (node T)).
  (** the masses and the world positions of the centers of the links of these
      nodes, in order; nodes without link do not count *)
  Inductive centers h : list nat -> list (T * vec3 T) -> Prop :=
  | centers_nil : centers h [] []
  | centers_none a l cs n : h !! a = Some n -> n_link n = None -> centers h l cs -> centers h (a :: l) cs
  | centers_link a l cs n lk w : h !! a = Some n -> n_link n = Some lk -> world h a w -> centers h l cs ->
      centers h (a :: l)
        ((in_mass (l_inertial lk), vadd (tr w) (qrot (rt w) (tr (in_origin (l_inertial lk))))) :: cs).
  (** sum of the weighted centers and of the masses, left to right from zero *)
  Definition weighted_sum (cs : list (T * vec3 T)) : vec3 T :=
    foldl vadd v0 (map (fun mc => vscale (snd mc) (fst mc)) cs).
  Definition total_mass (cs : list (T * vec3 T)) : T := foldl sadd szero (map fst cs).
End ComSpec.

Local Open Scope R_scope.
(** sums over the reals *)
Definition rsum (f : R * vec3 R -> R) (cs : list (R * vec3 R)) : R := foldr (fun mc s => f mc + s) 0 cs.
(** the mean of the centers *)
Definition mean (cs : list (R * vec3 R)) : vec3 R :=
  times (/ rsum fst cs) (V3 (rsum (fun mc => fst mc * vx (snd mc)) cs)
    (rsum (fun mc => fst mc * vy (snd mc)) cs) (rsum (fun mc => fst mc * vz (snd mc)) cs)).
(** over the reals: masses and centers placed by the motion of space that the
    world pose stands for *)
Inductive link_centers (h : gmap nat (node R)) : list nat -> list (R * vec3 R) -> Prop :=
| lc_nil : link_centers h [] []
| lc_none a l cs n : h !! a = Some n -> n_link n = None -> link_centers h l cs -> link_centers h (a :: l) cs
| lc_link a l cs n lk w : h !! a = Some n -> n_link n = Some lk -> world h a w -> link_centers h l cs ->
    link_centers h (a :: l) ((in_mass (l_inertial lk), move w (tr (in_origin (l_inertial lk)))) :: cs).
