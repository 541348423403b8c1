(** * Specification vocabulary for weak memory

    A machine on which threads do not share one memory.  Every write to a node
    stays on record; each thread has a view, which says how much of the record it
    is sure to see; a read may return any write that is not older than the view,
    so two threads may disagree about what a node holds and in which order things
    were written.  Views pass from thread to thread in one way only: whoever
    unlocks a mutex leaves its view there, and whoever locks it takes that view
    over.  (This is the release/acquire discipline of std::sync::Mutex; the
    accesses to the data get no order of their own.)  A thread that has not come
    to know of a node in this way must not use it at all: its memory, and the
    mutex in it, may not have been initialised yet as far as that thread can see.

    Nothing in this machine checks that a thread holds the mutex of the node it
    touches. *)
From Coq Require Import String.
From stdpp Require Import gmap.
From Verif Require Import Scalar Geometry Joint Link Prog.

(** for each node the thread knows of: the time of the oldest write it may still read *)
Notation view := (gmap nat nat).
Definition join (v w : view) : view := union_with (fun x y => Some (max x y)) v w.
(** [f] with its value at [a] replaced *)
Definition upd {B} (f : nat -> B) (a : nat) (x : B) : nat -> B := fun b => if decide (b = a) then x else f b.

Record vm (T : Type) := Vm {
  writes : nat -> gmap nat (node T);   (* the writes to each node, by time *)
  vnxt : nat;                          (* the next address *)
  vlocks : gmap nat nat;               (* who holds each mutex *)
  vpoison : gset nat;                  (* the poisoned ones *)
  seen : nat -> view;                  (* the view of each thread *)
  handed : nat -> view;                (* the view left in each mutex *)
}.
Arguments Vm {T}. Arguments writes {T}. Arguments vnxt {T}. Arguments vlocks {T}. Arguments vpoison {T}.
Arguments seen {T}. Arguments handed {T}.

Section SpecView.
  Context {T : Type}.
  (** every thread starts by knowing the nodes there are *)
  Definition vstart (h : gmap nat (node T)) (nx : nat) (po : gset nat) : vm T :=
    Vm (fun a => match h !! a with Some n => {[0 := n]} | None => ∅ end) nx ∅ po (fun _ => (fun _ => 0) <$> h) (fun _ => ∅).
  (** a panicking thread gives up its mutexes, leaving its view in them *)
  Definition vunwind (t : nat) (m : vm T) : vm T :=
    Vm (writes m) (vnxt m) (filter (fun kv => kv.2 <> t) (vlocks m))
       (vpoison m ∪ dom (filter (fun kv => kv.2 = t) (vlocks m))) (seen m)
       (fun a => if decide (vlocks m !! a = Some t) then seen m t else handed m a).

  Inductive vout (A : Type) :=
  | Moves (p : prog T A) (m : vm T)
  | Dies (msg : string) (m : vm T)
  | Undefined.                 (* uses a node it has not come to know, or unlocks a mutex it does not hold *)
  Arguments Moves {A}. Arguments Dies {A}. Arguments Undefined {A}.

  (** what thread [t] may do next *)
  Inductive vstep1 {A} (t : nat) : prog T A -> vm T -> vout A -> Prop :=
  | v_lock a k m :
      is_Some (seen m t !! a) -> vlocks m !! a = None -> a ∉ vpoison m ->
      vstep1 t (Lock a k) m (Moves k (Vm (writes m) (vnxt m) (<[a := t]> (vlocks m)) (vpoison m)
        (upd (seen m) t (join (seen m t) (handed m a))) (handed m)))
  | v_lock_poisoned a k m :
      is_Some (seen m t !! a) -> vlocks m !! a = None -> a ∈ vpoison m ->
      vstep1 t (Lock a k) m (Dies poison_msg (vunwind t m))
  | v_lock_unknown a k m : seen m t !! a = None -> vstep1 t (Lock a k) m Undefined
  | v_unlock a k m :
      vlocks m !! a = Some t ->
      vstep1 t (Unlock a k) m (Moves k (Vm (writes m) (vnxt m) (delete a (vlocks m)) (vpoison m) (seen m) (upd (handed m) a (seen m t))))
  | v_unlock_unheld a k m : vlocks m !! a <> Some t -> vstep1 t (Unlock a k) m Undefined
  | v_get a k m x y n :        (* any write not older than the view *)
      seen m t !! a = Some x -> x <= y -> writes m a !! y = Some n ->
      vstep1 t (Get a k) m (Moves (k n) (Vm (writes m) (vnxt m) (vlocks m) (vpoison m) (upd (seen m) t (<[a := y]> (seen m t))) (handed m)))
  | v_get_unknown a k m : seen m t !! a = None -> vstep1 t (Get a k) m Undefined
  | v_put a n k m x y :        (* at any free time after the view *)
      seen m t !! a = Some x -> x < y -> writes m a !! y = None ->
      vstep1 t (Put a n k) m (Moves k (Vm (upd (writes m) a (<[y := n]> (writes m a))) (vnxt m) (vlocks m) (vpoison m)
        (upd (seen m) t (<[a := y]> (seen m t))) (handed m)))
  | v_put_unknown a n k m : seen m t !! a = None -> vstep1 t (Put a n k) m Undefined
  | v_new n k m :
      vstep1 t (New n k) m (Moves (k (vnxt m)) (Vm (upd (writes m) (vnxt m) {[0 := n]}) (S (vnxt m)) (vlocks m) (vpoison m)
        (upd (seen m) t (<[vnxt m := 0]> (seen m t))) (handed m)))
  | v_upgrade_alive a k m : writes m a <> ∅ -> is_Some (seen m t !! a) -> vstep1 t (Upgrade a k) m (Moves (k true) m)
  | v_upgrade_gone a k m : writes m a = ∅ -> vstep1 t (Upgrade a k) m (Moves (k false) m)
  | v_upgrade_unknown a k m : writes m a <> ∅ -> seen m t !! a = None -> vstep1 t (Upgrade a k) m Undefined
  | v_panic msg m : vstep1 t (Panic msg) m (Dies msg (vunwind t m)).

  Inductive vstep {A} : list (thread T A) * vm T -> list (thread T A) * vm T -> Prop :=
  | vstep_moves t ths m p p' m' :
      ths !! t = Some (Running p) -> vstep1 t p m (Moves p' m') -> vstep (ths, m) (<[t := Running p']> ths, m')
  | vstep_dies t ths m p msg m' :
      ths !! t = Some (Running p) -> vstep1 t p m (Dies msg m') -> vstep (ths, m) (<[t := Dead msg]> ths, m').
  Definition vsteps {A} := rtc (@vstep A).
  (** some thread may do what has no meaning *)
  Definition undefined {A} (c : list (thread T A) * vm T) : Prop :=
    exists t p, c.1 !! t = Some (Running p) /\ vstep1 t p c.2 Undefined.

  (** [y] is the time of the last write to [a] *)
  Definition newest (m : vm T) (a y : nat) : Prop :=
    is_Some (writes m a !! y) /\ forall z, is_Some (writes m a !! z) -> z <= y.
  (** the one memory that the records amount to, if every node holds what was
      written to it last *)
  Record shows (m : vm T) (s : sh T) : Prop := {
    sw_heap : forall a n, heap s !! a = Some n <-> exists y, newest m a y /\ writes m a !! y = Some n;
    sw_nxt : nxt s = vnxt m;
    sw_locks : locks s = vlocks m;
    sw_poison : poison s = vpoison m;
  }.
End SpecView.
Arguments Moves {T A}. Arguments Dies {T A}. Arguments Undefined {T A}.
