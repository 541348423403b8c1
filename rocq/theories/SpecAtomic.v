(** * Specification vocabulary for atomic calls *)
From Coq Require Import String.
From stdpp Require Import gmap.
From Verif Require Import Scalar Geometry Joint Link Prog NodeM ChainM FuncsM IkM Api SpecHist.

Section SpecAtomic.
  Context {T : Type} `{Sc : Scalar T} {A : Type}.
  Implicit Types (h : gmap nat (node T)) (cls : list (client T A)).

  (** the calls on a single node; set_joint_position only on nodes without mimic
      children *)
  Definition one_node_call h R (k : api T R) : Prop :=
    match k with
    | KNew _ | KJoint _ | KJointPosition _ | KParent _ | KChildren _ | KIsRoot _ | KIsEnd _ | KSetOrigin _ _
    | KOrigin _ | KSetClamped _ _ | KSetUnchecked _ _ | KWorldTransform _ | KWorldVelocity _ | KMimicParent _
    | KSetLink _ _ | KLink _ | KFmt _ => True
    | KSetPosition a _ => forall n, h !! a = Some n -> n_mimic_children n = []
    | _ => False
    end.

  (** clients, and the nodes, when no call is in progress *)
  Record calm := Calm { c_clients : list (client T A); c_heap : gmap nat (node T); c_next : nat }.
  (** client [t] makes its next call, alone *)
  Definition serial1 (t : nat) (c : calm) : option calm :=
    match c_clients c !! t with
    | Some (Call k next) =>
        match run t (interp k) (quiet (c_heap c) (c_next c)) with
        | Done r s => Some (Calm (<[t := next r]> (c_clients c)) (heap s) (nxt s))
        | _ => None
        end
    | _ => None
    end.
  (** the clients make their calls one after the other, in this order *)
  Fixpoint serial (order : list nat) (c : calm) : option calm :=
    match order with
    | [] => Some c
    | t :: order => match serial1 t c with Some c => serial order c | None => None end
    end.

  (** where a client stands: between two calls, or inside a call, with the rest of
      the call's program and what the client does with the result *)
  Inductive standing :=
  | Between (cl : client T A)
  | Within {R : Type} (q : prog T R) (next : R -> client T A).
  Definition settle {R} (q : prog T R) (next : R -> client T A) : standing :=
    match q with Ret r => Between (next r) | _ => Within q next end.
  (** the program of the thread *)
  Definition thread_of (st : standing) : thread T A :=
    match st with
    | Between cl => Running (denote cl)
    | Within q next => Running (bind q (fun r => denote (next r)))
    end.
  (** client [t] executes one command *)
  Inductive cstep : list standing * sh T -> list standing * sh T -> Prop :=
  | cstep_begin t P s R (k : api T R) next q s' :
      P !! t = Some (Between (Call k next)) -> exec1 t (interp k) s = RStep q s' ->
      cstep (P, s) (<[t := settle q next]> P, s')
  | cstep_continue t P s R (q : prog T R) next q' s' :
      P !! t = Some (Within q next) -> exec1 t q s = RStep q' s' ->
      cstep (P, s) (<[t := settle q' next]> P, s').
  (** the client has [cl] before it, counting a call it is inside of as made *)
  Definition stands_before (st : standing) (cl : client T A) : Prop :=
    match st with
    | Between cl' => cl = cl'
    | Within _ next => exists r, cl = next r
    end.
End SpecAtomic.
Arguments calm : clear implicits. Arguments standing : clear implicits.
