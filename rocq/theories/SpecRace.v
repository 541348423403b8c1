(** * Specification vocabulary for data races and for schedules that end

    The interleaving semantics of [Prog] lets every access to a node take effect
    at once.  Rust programs have that semantics only if they have no data race;
    this file says what one is, in terms of what threads are seen to do. *)
From Coq Require Import String.
From stdpp Require Import gmap.
From Verif Require Import Scalar Geometry Joint Link Prog NodeM ChainM FuncsM IkM Api.

(** what a thread is seen to do in one step *)
Inductive event :=
| Acquire (a : nat)             (* locks the mutex of node [a] *)
| Release (a : nat)             (* unlocks it *)
| Reads (a : nat)               (* reads the data of node [a] *)
| Writes (a : nat)              (* writes it *)
| Makes (a : nat)               (* allocates node [a] *)
| Checks (a : nat)              (* upgrades a weak reference to node [a] *)
| Unwinds (released : gset nat). (* panics, giving up these mutexes *)

Section SpecRace.
  Context {T : Type}.

  (** what the next step of thread [t] is, if it makes one *)
  Definition event_of {A} (t : nat) (p : prog T A) (s : sh T) : option event :=
    match p with
    | Lock a _ => Some (if decide (a ∈ poison s) then Unwinds (dom (filter (fun kv => kv.2 = t) (locks s))) else Acquire a)
    | Unlock a _ => Some (Release a)
    | Get a _ => Some (Reads a)
    | Put a _ _ => Some (Writes a)
    | New _ _ => Some (Makes (nxt s))
    | Upgrade a _ => Some (Checks a)
    | Panic _ => Some (Unwinds (dom (filter (fun kv => kv.2 = t) (locks s))))
    | Ret _ | NoFuel => None
    end.
  (** One step on a machine that does not check locks: a read or a write takes
      effect whether or not the thread holds the mutex, and unlocking unlocks
      whoever holds it. *)
  Definition raw1 {A} (t : nat) (p : prog T A) (s : sh T) : res1 T A :=
    match p with
    | Get a k => match heap s !! a with Some n => RStep (k n) s | None => RStuck end
    | Put a n k => RStep k (set_heap s (<[a := n]> (heap s)))
    | Unlock a k => RStep k (set_locks s (delete a (locks s)))
    | _ => exec1 t p s
    end.
  (** [traced step1 c tr c']: an execution from [c] to [c'] on the machine
      [step1], in which the steps were made by these threads and were these *)
  Inductive traced {A} (step1 : nat -> prog T A -> sh T -> res1 T A) :
    list (thread T A) * sh T -> list (nat * event) -> list (thread T A) * sh T -> Prop :=
  | traced_nil c : traced step1 c [] c
  | traced_step t ths s p p' s' e tr c :
      ths !! t = Some (Running p) -> step1 t p s = RStep p' s' -> event_of t p s = Some e ->
      traced step1 (<[t := Running p']> ths, s') tr c -> traced step1 (ths, s) ((t, e) :: tr) c
  | traced_panic t ths s p m s' e tr c :
      ths !! t = Some (Running p) -> step1 t p s = RPanic m s' -> event_of t p s = Some e ->
      traced step1 (<[t := Dead m]> ths, s') tr c -> traced step1 (ths, s) ((t, e) :: tr) c.

  (** the events that touch the data of node [a] *)
  Definition touches (e : event) (a : nat) : Prop := e = Reads a \/ e = Writes a.
  (** the events that give up the mutex of [a] *)
  Definition gives_up (e : event) (a : nat) : Prop := e = Release a \/ exists l, e = Unwinds l /\ a ∈ l.

  (** The order that all observers agree on: within a thread, the order of its
      steps; between threads, whoever locks a mutex comes after whoever gave it
      up before. *)
  Inductive before (tr : list (nat * event)) : nat -> nat -> Prop :=
  | before_own i j t e e' :
      i < j -> tr !! i = Some (t, e) -> tr !! j = Some (t, e') -> before tr i j
  | before_mutex i j t u e a :
      i < j -> tr !! i = Some (t, e) -> gives_up e a -> tr !! j = Some (u, Acquire a) -> before tr i j
  | before_trans i j k : before tr i j -> before tr j k -> before tr i k.

  (** Two steps of different threads touch the same node, one of them writes, and
      neither is before the other. *)
  Definition data_race (tr : list (nat * event)) : Prop :=
    exists i j t u e e' a, t <> u /\ tr !! i = Some (t, e) /\ tr !! j = Some (u, e') /\
      touches e a /\ touches e' a /\ (e = Writes a \/ e' = Writes a) /\
      ~ before tr i j /\ ~ before tr j i.

  (** the thread will do nothing more: it returned, or panicked, or is in a loop
      over nodes that has used up its fuel *)
  Definition finished {A} (th : thread T A) : Prop :=
    match th with
    | Running (Ret _) | Dead _ | Running NoFuel => True
    | _ => False
    end.
  (** calls whose loops have a bound that does not depend on the links between
      nodes: all but the walks over parents and children *)
  Definition no_search R (k : api T R) : Prop :=
    match k with
    | KAncestors _ _ | KDescendants _ _ | KFromRoot _ _ | KFromEnd _ _ | KFromEndToRoot _ _ _ | KClone _ _ | KChainFmt _ _ => False
    | _ => True
    end.
End SpecRace.
