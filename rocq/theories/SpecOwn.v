(** * Ownership: specifications *)
From Coq Require Import String.
From stdpp Require Import gmap.
From Verif Require Import Scalar Geometry Joint Link Prog Api Own.

Section SpecOwn.
  Context {T : Type} `{Sc : Scalar T}.
  Implicit Types (h : gmap nat (node T)).

  (** node [a] stores a strong reference to [b] *)
  Definition holds_ref h (a b : nat) : Prop :=
    exists n, h !! a = Some n /\ (b ∈ n_children n \/ b ∈ n_mimic_children n).
  (** [b] is reached from [a] by following strong references *)
  Definition reaches h : nat -> nat -> Prop := rtc (holds_ref h).
  Definition reached_from h (mine : list nat) (b : nat) : Prop := exists a, a ∈ mine /\ reaches h a b.

  (** Every counter is the number of strong references: handles of the client and
      references stored in live nodes.  Exactly the nodes with a positive count are alive. *)
  Definition refs_to (a : nat) (l : list nat) : nat := count_occ Nat.eq_dec l a.
  Definition counts_right (mine : list nat) h (rc : gmap nat nat) : Prop :=
    forall a,
      match rc !! a with
      | Some k => is_Some (h !! a) /\ 0 < k /\ k = refs_to a mine + refs_to a (stored h)
      | None => h !! a = None /\ refs_to a mine + refs_to a (stored h) = 0
      end.
  (** all strong references point to live nodes *)
  Definition no_dangling (mine : list nat) h : Prop :=
    (forall a, a ∈ mine -> is_Some (h !! a)) /\ (forall a b, holds_ref h a b -> is_Some (h !! b)).
  Definition own_ok (o : own T) : Prop :=
    heap_ok (o_heap o) (o_next o) /\ counts_right (o_mine o) (o_heap o) (o_rc o).

  (** a set of live nodes each of which is referred to by a handle or from within the set *)
  Definition supported (S : nat -> Prop) (mine : list nat) h : Prop :=
    forall x, S x -> is_Some (h !! x) /\ (x ∈ mine \/ exists y, S y /\ holds_ref h y x).
  (** no node reaches itself *)
  Definition no_cycle h : Prop := forall a, ~ tc (holds_ref h) a a.
End SpecOwn.
