(** * Specification vocabulary: how far an arm reaches and how far it moves *)
From Coq Require Import Reals.
From stdpp Require Import gmap.
From Verif Require Import Geometry Joint Link Prog NodeM SpecGeom.
Local Open Scope R_scope.

(** the joints of these nodes *)
Definition joints_of {T} (h : gmap nat (node T)) (l : list nat) (js : list (joint T)) : Prop :=
  Forall2 (fun a j => exists n, h !! a = Some n /\ j = n_joint n) l js.
Definition total (xs : list R) : R := foldr Rplus 0 xs.

(** how much a joint adds to the length of the arm: the length of its offset, and
    of its extension if it is linear *)
Definition extension (j : joint R) : R :=
  match j_type j with Linear _ => Rabs (j_position j) | _ => 0 end.
Definition span (j : joint R) : R := len (tr (j_origin j)) + extension j.
(** [e] is the most it can add: for a linear joint, within its limits *)
Definition max_span (j : joint R) (e : R) : Prop :=
  match j_type j with
  | Linear _ => exists r, j_limits j = Some r /\ e = len (tr (j_origin j)) + Rmax (Rabs (rmin r)) (Rabs (rmax r))
  | _ => e = len (tr (j_origin j))
  end.

(** [j'] is [j] at another position *)
Definition at_other_position (j j' : joint R) : Prop :=
  j_type j' = j_type j /\ j_origin j' = j_origin j.
(** each joint's change of position, weighted with its lever: the length of the
    rest of the arm for a rotational joint, 1 for a linear one *)
Fixpoint sweep (js js' : list (joint R)) : R :=
  match js, js' with
  | j :: js, j' :: js' =>
      let d := Rabs (j_position j' - j_position j) in
      match j_type j with
      | Fixed => 0
      | Rotational _ => d * total (map span js)
      | Linear _ => d
      end + sweep js js'
  | _, _ => 0
  end.
(** the sum of the changes of the rotational joints *)
Fixpoint swing (js js' : list (joint R)) : R :=
  match js, js' with
  | j :: js, j' :: js' =>
      match j_type j with Rotational _ => Rabs (j_position j' - j_position j) | _ => 0 end + swing js js'
  | _, _ => 0
  end.
