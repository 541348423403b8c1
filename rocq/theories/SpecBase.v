(** * Specification vocabulary for moving a robot and its task together *)
From Coq Require Import Reals.
From stdpp Require Import gmap.
From Verif Require Import Scalar ScalarR Geometry Joint Link Prog NodeM ChainM FuncsM IkM SpecNode SpecGeom SpecIk.
Local Open Scope R_scope.

(** node [n] with another origin *)
Definition with_origin (n : node R) (o : iso R) : node R :=
  set_n_joint n (Joint (j_name (n_joint n)) (j_type (n_joint n)) (j_position (n_joint n)) (j_velocity (n_joint n))
    (j_limits (n_joint n)) o (j_wt_cache (n_joint n)) (j_wv_cache (n_joint n))).
(** The heaps are the same up to cached transforms and velocities, except that the origin of
    the joint at [root] is [g] times as it was. *)
Definition carried (g : iso R) (root : nat) (h h' : gmap nat (node R)) : Prop :=
  forall a, match h !! a, h' !! a with
            | Some n, Some n' => same_but_caches (if decide (a = root) then with_origin n (iso_mul g (j_origin (n_joint n))) else n) n'
            | None, None => True
            | _, _ => False
            end.
(** The same answer; the distances an answer reports are those of the other, turned. *)
Definition turned_answer (g : iso R) (r r' : result R unit) : Prop :=
  match r with
  | Err (NotConvergedError n d a) => r' = Err (NotConvergedError n (turn (rt g) d) (turn (rt g) a))
  | _ => r' = r
  end.
(** The same outcome: both calls return, or both panic with the same message, and so on.  The
    heaps they leave are again the same up to [carried]. *)
Definition carried_states (g : iso R) (root : nat) (s s' : sh R) : Prop :=
  carried g root (heap s) (heap s') /\ nxt s' = nxt s /\ locks s' = locks s /\ poison s' = poison s.
Definition carried_outcome {A} (Q : A -> A -> Prop) (g : iso R) (root : nat) (o o' : outcome R A) : Prop :=
  match o, o' with
  | Done a s, Done a' s' => Q a a' /\ carried_states g root s s'
  | Panicked m s, Panicked m' s' => m' = m /\ carried_states g root s s'
  | Deadlock a s, Deadlock a' s' => a' = a /\ carried_states g root s s'
  | OutOfFuel s, OutOfFuel s' => carried_states g root s s'
  | Stuck, Stuck => True
  | _, _ => False
  end.
(** all three coordinates of the position or none, and likewise of the rotation *)
Definition whole (c : constraints) : Prop :=
  position_x c = position_y c /\ position_y c = position_z c /\ rotation_x c = rotation_y c /\ rotation_y c = rotation_z c.
