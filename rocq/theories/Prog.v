(** * Nodes on the heap, and programs over them.

    [Node<T>] is [Arc<Mutex<NodeImpl<T>>>] (src/node.rs:50).  A node handle is an
    address; the heap maps the addresses of live nodes to their [NodeImpl].  The
    functions of src/node.rs, src/iterator.rs, src/chain.rs, src/funcs.rs,
    src/ik.rs and src/urdf.rs are written as [prog]s: trees of elementary
    commands.  The same program text is given two semantics: [run], sequential
    execution by one thread, and [tstep], interleaving of any number of
    threads. *)
From stdpp Require Import gmap.
From Coq Require Import String.
From Verif Require Import Scalar Geometry Joint Link.

(** src/node.rs:33-44.  [parent] and [mimic_parent] are weak references
    (addresses that may be dead), the two child lists are strong. *)
Record node (T : Type) := Node {
  n_parent : option nat;
  n_children : list nat;
  n_joint : joint T;
  n_mimic_parent : option nat;
  n_mimic_children : list nat;
  n_mimic : option (mimic T);
  n_link : option (link T);
}.
Arguments Node {T}. Arguments n_parent {T}. Arguments n_children {T}.
Arguments n_joint {T}. Arguments n_mimic_parent {T}. Arguments n_mimic_children {T}.
Arguments n_mimic {T}. Arguments n_link {T}.

Section NodeFields.
  Context {T : Type}.
  (** the strong references a node holds *)
  Definition strong_refs (n : node T) : list nat := n_children n ++ n_mimic_children n.
  (** and the weak ones *)
  Definition weak_refs (n : node T) : list nat :=
    match n_parent n with Some w => [w] | None => [] end ++ match n_mimic_parent n with Some w => [w] | None => [] end.
  (** field assignments [node.field = v] *)
  Definition set_n_parent (n : node T) p := Node p (n_children n) (n_joint n)
    (n_mimic_parent n) (n_mimic_children n) (n_mimic n) (n_link n).
  Definition set_n_children (n : node T) c := Node (n_parent n) c (n_joint n)
    (n_mimic_parent n) (n_mimic_children n) (n_mimic n) (n_link n).
  Definition set_n_joint (n : node T) j := Node (n_parent n) (n_children n) j
    (n_mimic_parent n) (n_mimic_children n) (n_mimic n) (n_link n).
  Definition set_n_mimic_parent (n : node T) p := Node (n_parent n) (n_children n) (n_joint n)
    p (n_mimic_children n) (n_mimic n) (n_link n).
  Definition set_n_mimic_children (n : node T) c := Node (n_parent n) (n_children n) (n_joint n)
    (n_mimic_parent n) c (n_mimic n) (n_link n).
  Definition set_n_mimic (n : node T) m := Node (n_parent n) (n_children n) (n_joint n)
    (n_mimic_parent n) (n_mimic_children n) m (n_link n).
  Definition set_n_link (n : node T) l := Node (n_parent n) (n_children n) (n_joint n)
    (n_mimic_parent n) (n_mimic_children n) (n_mimic n) l.
End NodeFields.

(** ** Programs *)
Inductive prog (T A : Type) :=
| Ret (a : A)
| Lock (a : nat) (k : prog T A)                  (* Mutex::lock().unwrap() *)
| Unlock (a : nat) (k : prog T A)                (* drop of the guard *)
| Get (a : nat) (k : node T -> prog T A)         (* read through the guard *)
| Put (a : nat) (n : node T) (k : prog T A)      (* write through the guard *)
| New (n : node T) (k : nat -> prog T A)         (* Arc::new(Mutex::new(n)) *)
| Upgrade (a : nat) (k : bool -> prog T A)       (* Weak::upgrade().is_some() *)
| Panic (msg : string)                           (* panic!, failed assert/expect/unwrap/index *)
| NoFuel.                                        (* a loop of the model ran out of fuel *)
Arguments Ret {T A}. Arguments Lock {T A}. Arguments Unlock {T A}.
Arguments Get {T A}. Arguments Put {T A}. Arguments New {T A}.
Arguments Upgrade {T A}. Arguments Panic {T A}. Arguments NoFuel {T A}.

Fixpoint bind {T A B} (p : prog T A) (f : A -> prog T B) : prog T B :=
  match p with
  | Ret a => f a
  | Lock a k => Lock a (bind k f)
  | Unlock a k => Unlock a (bind k f)
  | Get a k => Get a (fun n => bind (k n) f)
  | Put a n k => Put a n (bind k f)
  | New n k => New n (fun a => bind (k a) f)
  | Upgrade a k => Upgrade a (fun b => bind (k b) f)
  | Panic m => Panic m
  | NoFuel => NoFuel
  end.

Declare Scope prog_scope.
Delimit Scope prog_scope with prog.
Notation "x <- p ;; q" := (bind p (fun x => q))
  (at level 100, p at next level, right associativity) : prog_scope.
Notation "p ;;; q" := (bind p (fun _ => q))
  (at level 100, right associativity) : prog_scope.
Open Scope prog_scope.

Definition lock {T} (a : nat) : prog T unit := Lock a (Ret tt).
Definition unlock {T} (a : nat) : prog T unit := Unlock a (Ret tt).
Definition get {T} (a : nat) : prog T (node T) := Get a Ret.
Definition put {T} (a : nat) (n : node T) : prog T unit := Put a n (Ret tt).
Definition new {T} (n : node T) : prog T nat := New n Ret.
Definition upgrade {T} (a : nat) : prog T bool := Upgrade a Ret.

(** One critical section that reads / updates node [a]: the guard is a temporary
    dropped at the end of the statement. *)
Definition read {T A} (a : nat) (f : node T -> A) : prog T A :=
  Lock a (Get a (fun n => Unlock a (Ret (f n)))).
Definition modify {T} (a : nat) (f : node T -> node T) : prog T unit :=
  Lock a (Get a (fun n => Put a (f n) (Unlock a (Ret tt)))).

(** Iterator adaptors driven to completion: [iter().map(f).collect()],
    [iter().filter(p).cloned().collect()], [for x in l { f(x) }]. *)
Fixpoint mapM {T A B} (f : A -> prog T B) (l : list A) : prog T (list B) :=
  match l with
  | [] => Ret []
  | x :: l => y <- f x ;; ys <- mapM f l ;; Ret (y :: ys)
  end.
Fixpoint filterM {T A} (f : A -> prog T bool) (l : list A) : prog T (list A) :=
  match l with
  | [] => Ret []
  | x :: l => b <- f x ;; ys <- filterM f l ;; Ret (if b then x :: ys else ys)
  end.
Fixpoint forM_ {T A} (f : A -> prog T unit) (l : list A) : prog T unit :=
  match l with
  | [] => Ret tt
  | x :: l => f x ;;; forM_ f l
  end.
(** [for x in l { f(x)? }  Ok(())] *)
Fixpoint forM_try {T A} (f : A -> prog T (result T unit)) (l : list A) : prog T (result T unit) :=
  match l with
  | [] => Ret (Ok tt)
  | x :: l =>
      r <- f x ;;
      match r with
      | Ok _ => forM_try f l
      | Err e => Ret (Err e)
      end
  end.
(** [iter().find(p)] / [iter().position(p)] *)
Fixpoint findM {T A} (f : A -> prog T bool) (l : list A) : prog T (option A) :=
  match l with
  | [] => Ret None
  | x :: l => b <- f x ;; if b then Ret (Some x) else findM f l
  end.
Fixpoint positionM {T A} (f : A -> prog T bool) (l : list A) : prog T (option nat) :=
  match l with
  | [] => Ret None
  | x :: l =>
      b <- f x ;;
      if b then Ret (Some 0) else
      r <- positionM f l ;; Ret (S <$> r)
  end.
(** [Option::expect] / [unwrap] *)
Definition expect {T A} (o : option A) (msg : string) : prog T A :=
  match o with Some a => Ret a | None => Panic msg end.
Definition assert_ {T} (b : bool) (msg : string) : prog T unit :=
  if b then Ret tt else Panic msg.

(** ** Machine state *)
Record sh (T : Type) := Sh {
  heap : gmap nat (node T);    (* live nodes *)
  nxt : nat;                   (* next address; addresses are never reused *)
  locks : gmap nat nat;        (* locked mutexes and the thread holding each *)
  poison : gset nat;           (* poisoned mutexes *)
}.
Arguments Sh {T}. Arguments heap {T}. Arguments nxt {T}. Arguments locks {T}.
Arguments poison {T}.

Section State.
  Context {T : Type}.
  Definition set_heap (s : sh T) h : sh T := Sh h (nxt s) (locks s) (poison s).
  Definition set_locks (s : sh T) l : sh T := Sh (heap s) (nxt s) l (poison s).
  Definition alloc (s : sh T) (n : node T) : sh T :=
    Sh (<[nxt s := n]> (heap s)) (S (nxt s)) (locks s) (poison s).
  (** a panicking thread releases its guards, poisoning their mutexes *)
  Definition unwind (t : nat) (s : sh T) : sh T :=
    Sh (heap s) (nxt s) (filter (fun kv => kv.2 <> t) (locks s))
       (poison s ∪ dom (filter (fun kv => kv.2 = t) (locks s))).
End State.

Definition poison_msg : string := "called `Result::unwrap()` on an `Err` value: PoisonError".

(** ** Sequential semantics *)
Inductive outcome (T A : Type) :=
| Done (a : A) (s : sh T)              (* returned *)
| Panicked (msg : string) (s : sh T)   (* unwound out of the call *)
| Deadlock (a : nat) (s : sh T)        (* waits forever for mutex [a] *)
| OutOfFuel (s : sh T)                 (* still looping when the fuel ran out *)
| Stuck.                               (* not a Rust execution: access to a dead
                                          node or without holding its lock *)
Arguments Done {T A}. Arguments Panicked {T A}. Arguments Deadlock {T A}.
Arguments OutOfFuel {T A}. Arguments Stuck {T A}.

(** [run t p s]: thread [t] executes [p] alone from [s].  [std::sync::Mutex] is
    not reentrant: locking a mutex that is held (by whoever) never returns. *)
Fixpoint run {T A} (t : nat) (p : prog T A) (s : sh T) : outcome T A :=
  match p with
  | Ret a => Done a s
  | Lock a k =>
      match heap s !! a with
      | None => Stuck
      | Some _ =>
          match locks s !! a with
          | Some _ => Deadlock a s
          | None =>
              if decide (a ∈ poison s) then Panicked poison_msg (unwind t s)
              else run t k (set_locks s (<[a := t]> (locks s)))
          end
      end
  | Unlock a k =>
      if decide (locks s !! a = Some t)
      then run t k (set_locks s (delete a (locks s))) else Stuck
  | Get a k =>
      if decide (locks s !! a = Some t) then
        match heap s !! a with Some n => run t (k n) s | None => Stuck end
      else Stuck
  | Put a n k =>
      if decide (locks s !! a = Some t) then run t k (set_heap s (<[a := n]> (heap s))) else Stuck
  | New n k => run t (k (nxt s)) (alloc s n)
  | Upgrade a k => run t (k (bool_decide (is_Some (heap s !! a)))) s
  | Panic m => Panicked m (unwind t s)
  | NoFuel => OutOfFuel s
  end.

(** A state between calls: no guard held, nothing poisoned. *)
Definition quiet {T} (h : gmap nat (node T)) (nx : nat) : sh T := Sh h nx ∅ ∅.

(** ** Interleaving semantics *)
(** one command of thread [t] *)
Inductive res1 (T A : Type) :=
| RRet (a : A)
| RStep (p : prog T A) (s : sh T)
| RBlocked (a : nat)
| RPanic (msg : string) (s : sh T)
| RNoFuel
| RStuck.
Arguments RRet {T A}. Arguments RStep {T A}. Arguments RBlocked {T A}.
Arguments RPanic {T A}. Arguments RNoFuel {T A}. Arguments RStuck {T A}.

Definition exec1 {T A} (t : nat) (p : prog T A) (s : sh T) : res1 T A :=
  match p with
  | Ret a => RRet a
  | Lock a k =>
      match heap s !! a with
      | None => RStuck
      | Some _ =>
          match locks s !! a with
          | Some _ => RBlocked a
          | None =>
              if decide (a ∈ poison s) then RPanic poison_msg (unwind t s)
              else RStep k (set_locks s (<[a := t]> (locks s)))
          end
      end
  | Unlock a k =>
      if decide (locks s !! a = Some t)
      then RStep k (set_locks s (delete a (locks s))) else RStuck
  | Get a k =>
      if decide (locks s !! a = Some t) then
        match heap s !! a with Some n => RStep (k n) s | None => RStuck end
      else RStuck
  | Put a n k =>
      if decide (locks s !! a = Some t)
      then RStep k (set_heap s (<[a := n]> (heap s))) else RStuck
  | New n k => RStep (k (nxt s)) (alloc s n)
  | Upgrade a k => RStep (k (bool_decide (is_Some (heap s !! a)))) s
  | Panic m => RPanic m (unwind t s)
  | NoFuel => RNoFuel
  end.

(** a thread: its remaining program, or dead after a panic *)
Inductive thread (T A : Type) := Running (p : prog T A) | Dead (msg : string).
Arguments Running {T A}. Arguments Dead {T A}.

(** [tstep (ths, s) (ths', s')]: some thread executes one command. *)
Inductive tstep {T A} : list (thread T A) * sh T -> list (thread T A) * sh T -> Prop :=
| tstep_step t ths s p p' s' :
    ths !! t = Some (Running p) -> exec1 t p s = RStep p' s' ->
    tstep (ths, s) (<[t := Running p']> ths, s')
| tstep_panic t ths s p m s' :
    ths !! t = Some (Running p) -> exec1 t p s = RPanic m s' ->
    tstep (ths, s) (<[t := Dead m]> ths, s').

Definition tsteps {T A} := rtc (@tstep T A).
