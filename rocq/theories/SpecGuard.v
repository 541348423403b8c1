(** * Specification vocabulary for guards held by the user

    [joint()], [children()], [link()] (src/node.rs:76-93, 329-331) return guards
    that keep the mutex of the node locked until they are dropped, and so do the
    items of [iter_joints] and [iter_links]. *)
From Coq Require Import String.
From stdpp Require Import gmap.
From Verif Require Import Scalar Geometry Joint Link Prog.

Section SpecGuard.
  Context {T : Type}.

  (** take a guard of [a], look through it, execute [p], look through it again,
      drop it *)
  Definition while_holding {A} (a : nat) (p : prog T A) : prog T (node T * node T * A) :=
    Lock a (Get a (fun n => bind p (fun x => Get a (fun n' => Unlock a (Ret (n, n', x)))))).

  (** the mutexes that [p] locks when thread [t] runs it alone from [s], in order *)
  Fixpoint acquired {A} (t : nat) (p : prog T A) (s : sh T) : list nat :=
    match p with
    | Ret _ | Panic _ | NoFuel => []
    | Lock a k =>
        if decide (is_Some (heap s !! a) /\ locks s !! a = None /\ a ∉ poison s)
        then a :: acquired t k (set_locks s (<[a := t]> (locks s))) else []
    | Unlock a k => acquired t k (set_locks s (delete a (locks s)))
    | Get a k => match heap s !! a with Some n => acquired t (k n) s | None => [] end
    | Put a n k => acquired t k (set_heap s (<[a := n]> (heap s)))
    | New n k => acquired t (k (nxt s)) (alloc s n)
    | Upgrade a k => acquired t (k (bool_decide (is_Some (heap s !! a)))) s
    end.

  (** the same outcome, but with the mutexes [L] locked all the while: same
      result, same nodes *)
  Definition same_outcome {A} (L : gmap nat nat) (o o' : outcome T A) : Prop :=
    match o, o' with
    | Done x s, Done x' s' => x' = x /\ heap s' = heap s /\ nxt s' = nxt s /\ locks s' = L ∪ locks s
    | Panicked m s, Panicked m' s' => m' = m /\ heap s' = heap s /\ nxt s' = nxt s
    | Deadlock a s, Deadlock a' s' => a' = a /\ heap s' = heap s /\ nxt s' = nxt s
    | OutOfFuel s, OutOfFuel s' => heap s' = heap s /\ nxt s' = nxt s
    | Stuck, Stuck => True
    | _, _ => False
    end.
End SpecGuard.
