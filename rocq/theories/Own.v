(** * Ownership: reference counts

    [Node] is [Arc<Mutex<NodeImpl>>] (node.rs:46-50): a node lives as long as some
    strong reference to it does.  The strong references are the handles a client
    holds and the ones stored in nodes, [children] and [mimic_children]
    (node.rs:29-44); [parent] and [mimic_parent] are weak.  Everywhere else the
    model only follows which nodes are alive; here the counters of [Arc] are kept
    as well, and nodes are deallocated when theirs reaches zero. *)
From Coq Require Import String.
From stdpp Require Import gmap.
From Verif Require Import Scalar Geometry Joint Link Prog NodeM ChainM FuncsM IkM Api.

Section Own.
  Context {T : Type}.
  Implicit Types (h : gmap nat (node T)) (rc : gmap nat nat).

  (** all references stored in nodes *)
  Definition stored h : list nat := map_to_list h ≫= (fun kv => strong_refs kv.2).

  (** [Arc::clone] *)
  Definition arc_clone (a : nat) rc : option (gmap nat nat) :=
    match rc !! a with
    | Some k => Some (<[a := S k]> rc)
    | None => None                            (* no such node: not a Rust execution *)
    end.
  Fixpoint arc_clones (l : list nat) rc : option (gmap nat nat) :=
    match l with
    | [] => Some rc
    | a :: l => match arc_clone a rc with Some rc' => arc_clones l rc' | None => None end
    end.

  (** Dropping the strong references [work].  The last one deallocates the node
      and drops the references stored in it in turn.  [None]: a counter that does
      not exist would have to be decremented (or the fuel ran out). *)
  Fixpoint release (fuel : nat) (work : list nat) h rc : option (gmap nat (node T) * gmap nat nat) :=
    match work with
    | [] => Some (h, rc)
    | a :: work =>
        match fuel with
        | 0 => None
        | S fuel =>
            match rc !! a, h !! a with
            | Some 1, Some n => release fuel (strong_refs n ++ work) (delete a h) (delete a rc)
            | Some (S (S k)), Some _ => release fuel work h (<[a := S k]> rc)
            | _, _ => None
            end
        end
    end.
  Definition drop_refs (work : list nat) h rc := release (length work + length (stored h)) work h rc.

  (** [run] (Prog.v) with the counters.  [tmp]: the handles of the nodes created
      by this call, held in its local variables until it ends. *)
  Inductive ooutcome (A : Type) :=
  | ODone (x : A) (s : sh T) rc (tmp : list nat)
  | OPanicked (msg : string) (s : sh T) rc (tmp : list nat)
  | ODeadlock (a : nat) (s : sh T)
  | OOutOfFuel (s : sh T)
  | OStuck.
  Arguments ODone {A}. Arguments OPanicked {A}. Arguments ODeadlock {A}.
  Arguments OOutOfFuel {A}. Arguments OStuck {A}.

  Fixpoint orun {A} (t : nat) (p : prog T A) (s : sh T) rc (tmp : list nat) : ooutcome A :=
    match p with
    | Ret x => ODone x s rc tmp
    | Lock a k =>
        match heap s !! a with
        | None => OStuck
        | Some _ =>
            match locks s !! a with
            | Some _ => ODeadlock a s
            | None =>
                if decide (a ∈ poison s) then OPanicked poison_msg (unwind t s) rc tmp
                else orun t k (set_locks s (<[a := t]> (locks s))) rc tmp
            end
        end
    | Unlock a k =>
        if decide (locks s !! a = Some t)
        then orun t k (set_locks s (delete a (locks s))) rc tmp else OStuck
    | Get a k =>
        if decide (locks s !! a = Some t) then
          match heap s !! a with Some n => orun t (k n) s rc tmp | None => OStuck end
        else OStuck
    | Put a n k =>
        (* the references of the new content are cloned, those of the old one dropped *)
        if decide (locks s !! a = Some t) then
          match heap s !! a with
          | None => OStuck
          | Some n0 =>
              match arc_clones (strong_refs n) rc with
              | None => OStuck
              | Some rc1 =>
                  match drop_refs (strong_refs n0) (<[a := n]> (heap s)) rc1 with
                  | None => OStuck
                  | Some (h', rc2) => orun t k (set_heap s h') rc2 tmp
                  end
              end
          end
        else OStuck
    | New n k =>
        match arc_clones (strong_refs n) rc with
        | None => OStuck
        | Some rc1 => orun t (k (nxt s)) (alloc s n) (<[nxt s := 1]> rc1) (nxt s :: tmp)
        end
    | Upgrade a k => orun t (k (bool_decide (is_Some (rc !! a)))) s rc tmp
    | Panic m => OPanicked m (unwind t s) rc tmp
    | NoFuel => OOutOfFuel s
    end.

  (** forgetting the counters *)
  Definition erase {A} (o : ooutcome A) : outcome T A :=
    match o with
    | ODone x s _ _ => Done x s
    | OPanicked m s _ _ => Panicked m s
    | ODeadlock a s => Deadlock a s
    | OOutOfFuel s => OutOfFuel s
    | OStuck => Stuck
    end.
End Own.
Arguments ooutcome : clear implicits.
Arguments ODone {T A}. Arguments OPanicked {T A}. Arguments ODeadlock {T A}.
Arguments OOutOfFuel {T A}. Arguments OStuck {T A}.

(** ** Clients that clone and drop handles *)
(** A state between two actions of a client: the nodes and their counters, and
    the handles the client has, one entry per handle.  A chain is the list of its
    handles ([chain_handles]). *)
Record own (T : Type) := Own {
  o_heap : gmap nat (node T);
  o_next : nat;
  o_poison : gset nat;
  o_rc : gmap nat nat;
  o_mine : list nat;
}.
Arguments Own {T}. Arguments o_heap {T}. Arguments o_next {T}. Arguments o_poison {T}.
Arguments o_rc {T}. Arguments o_mine {T}.

Section Client.
  Context {T : Type} `{Sc : Scalar T}.
  Definition at_call (o : own T) : sh T := Sh (o_heap o) (o_next o) ∅ (o_poison o).

  (** One action.  A call that takes a handle by value ([from_nodes],
      [SerialChain::try_new]) is a call on clones of the caller's handles; the
      caller may drop its own next. *)
  Inductive ostep (t : nat) : own T -> own T -> Prop :=
  | os_call {R} (k : api T R) o x s rc tmp rc1 h2 rc2 :
      (forall a, a ∈ args k -> a ∈ o_mine o) ->
      orun t (interp k) (at_call o) (o_rc o) [] = ODone x s rc tmp ->
      arc_clones (rets k x) rc = Some rc1 ->          (* the handles returned *)
      drop_refs tmp (heap s) rc1 = Some (h2, rc2) ->
      ostep t o (Own h2 (nxt s) (poison s) rc2 (rets k x ++ o_mine o))
  | os_panic {R} (k : api T R) o msg s rc tmp h2 rc2 :
      (forall a, a ∈ args k -> a ∈ o_mine o) ->
      orun t (interp k) (at_call o) (o_rc o) [] = OPanicked msg s rc tmp ->
      drop_refs tmp (heap s) rc = Some (h2, rc2) ->
      ostep t o (Own h2 (nxt s) (poison s) rc2 (o_mine o))
  | os_clone o a rc1 :                                (* let b = a.clone() *)
      a ∈ o_mine o -> arc_clone a (o_rc o) = Some rc1 ->
      ostep t o (Own (o_heap o) (o_next o) (o_poison o) rc1 (a :: o_mine o))
  | os_drop o a mine h2 rc2 :                         (* drop(a) *)
      o_mine o ≡ₚ a :: mine -> drop_refs [a] (o_heap o) (o_rc o) = Some (h2, rc2) ->
      ostep t o (Own h2 (o_next o) (o_poison o) rc2 mine).
  (** histories: any number of actions, from nothing *)
  Definition nothing : own T := Own ∅ 0 ∅ ∅ [].
  Definition ohistory (t : nat) : own T -> Prop := rtc (ostep t) nothing.
End Client.
