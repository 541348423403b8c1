(** * Specification vocabulary for threads working on separate robots *)
From Coq Require Import String.
From stdpp Require Import gmap.
From Verif Require Import Scalar Geometry Joint Link Prog NodeM ChainM FuncsM IkM Api SpecHist.

Section SpecApart.
  Context {T : Type}.

  (** no node of [F] refers to a live node outside [F] *)
  Definition island (h : gmap nat (node T)) (F : gset nat) : Prop :=
    forall a n, a ∈ F -> h !! a = Some n ->
    (forall b, b ∈ n_children n ++ n_mimic_children n -> b ∈ F) /\
    (forall b, n_parent n = Some b \/ n_mimic_parent n = Some b -> b ∈ F \/ h !! b = None).
  (** calls that create no node *)
  Definition creates_nothing R (k : api T R) : Prop :=
    match k with KNew _ | KClone _ _ => False | _ => True end.
  (** the state, seen through the window [F] *)
  Definition part (F : gset nat) (s : sh T) : sh T :=
    Sh (filter (fun kv => kv.1 ∈ F) (heap s)) (nxt s) (filter (fun kv => kv.1 ∈ F) (locks s)) (poison s ∩ F).
  (** the outcome of a run and its end state, seen through [F] *)
  Definition part_outcome {A} (F : gset nat) (o : outcome T A) : outcome T A :=
    match o with
    | Done x s => Done x (part F s)
    | Panicked m s => Panicked m (part F s)
    | Deadlock a s => Deadlock a (part F s)
    | OutOfFuel s => OutOfFuel (part F s)
    | Stuck => Stuck
    end.
  (** where the run of a thread has got to *)
  Definition from_here {A} (t : nat) (th : thread T A) (s : sh T) : outcome T A :=
    match th with Running p => run t p s | Dead m => Panicked m s end.
  (** thread [t] makes a step *)
  Definition moves {A} (t : nat) (c : list (thread T A) * sh T) : Prop :=
    exists p, c.1 !! t = Some (Running p) /\
    match exec1 t p c.2 with RStep _ _ | RPanic _ _ => True | _ => False end.
  (** the thread has come to the end of the run [o] *)
  Definition at_end {A} (o : outcome T A) (th : thread T A) : Prop :=
    match o with
    | Done x _ => th = Running (Ret x)
    | Panicked m _ => th = Dead m
    | Deadlock a _ => exists k, th = Running (Lock a k)
    | OutOfFuel _ => th = Running NoFuel
    | Stuck => False
    end.
End SpecApart.
