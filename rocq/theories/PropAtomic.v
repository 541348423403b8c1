(** * C55: calls on a single node are atomic, calls on several are not *)
From Coq Require Import String ZArith Floats.SpecFloat.
From stdpp Require Import gmap.
From Verif Require Import Scalar ScalarF Geometry Joint Link Prog NodeM ChainM FuncsM IkM SpecJoint SpecNode
  Api SpecHist SpecAtomic AtomicProofs Sched Ex ExApi PropLock.

(** C55.  Any number of threads making any calls on single nodes, interleaved in
    any way: when they have all returned, the results and the nodes are those of
    making the calls one at a time, in some order. *)
Theorem C55_atomic {T} `{Scalar T} {A} (h : gmap nat (node T)) nx (cls : list (client T A)) xs s :
  heap_ok h nx -> (forall cl, cl ∈ cls -> obeys (one_node_call h) (fun _ => []) (alive h) cl) ->
  tsteps (spawn cls, quiet h nx) (map (fun x => Running (Ret x)) xs, s) ->
  exists order, serial order (Calm cls h nx) = Some (Calm (map Finish xs) (heap s) (nxt s)).
Proof. exact (all_returned_serial h nx cls xs s). Qed.
Print Assumptions C55_atomic.

(** C55.  The order respects time: at any two moments of an execution, the calls
    made by the first moment come first, and they are all calls that have returned
    and at most the one call each thread is inside of; no thread ever panics. *)
Theorem C55_linearizable {T} `{Scalar T} {A} (h : gmap nat (node T)) nx (cls : list (client T A)) c1 c2 :
  heap_ok h nx -> (forall cl, cl ∈ cls -> obeys (one_node_call h) (fun _ => []) (alive h) cl) ->
  tsteps (spawn cls, quiet h nx) c1 -> tsteps c1 c2 ->
  exists P1 P2 o1 k1 o2 k2,
    c1.1 = map thread_of P1 /\ c2.1 = map thread_of P2 /\
    rtc cstep (map Between cls, quiet h nx) (P1, c1.2) /\ rtc cstep (P1, c1.2) (P2, c2.2) /\
    serial o1 (Calm cls h nx) = Some k1 /\ serial o2 k1 = Some k2 /\
    (forall t st, P1 !! t = Some st -> exists cl, c_clients k1 !! t = Some cl /\ stands_before st cl) /\
    (forall t st, P2 !! t = Some st -> exists cl, c_clients k2 !! t = Some cl /\ stands_before st cl) /\
    ((forall t st, P1 !! t = Some st -> exists cl, st = Between cl) -> c1.2 = quiet (c_heap k1) (c_next k1)) /\
    ((forall t st, P2 !! t = Some st -> exists cl, st = Between cl) -> c2.2 = quiet (c_heap k2) (c_next k2)).
Proof.
  intros Hok Ho H1 H2. destruct (linearizable h nx cls c1 c2 Hok Ho H1 H2)
    as (P1 & P2 & o1 & k1 & o2 & k2 & H3 & H4 & H5 & H6 & H7 & H8 & H9 & H10 & H11 & H12 & _).
  exists P1, P2, o1, k1, o2, k2. repeat (split; [assumption|]). assumption.
Qed.
Print Assumptions C55_linearizable.

(** ** Calls that lock several nodes are not atomic *)
(** joint_positions against one thread setting first joint 0, then joint 1: the
    vector read was never the state of the arm. *)
Definition torn_read : client spec_float (list spec_float) := Call (KPositions two_chain) Finish.
Definition torn_write : client spec_float (list spec_float) :=
  Call (KSetUnchecked 0 (f 1)) (fun _ => Call (KSetUnchecked 1 (f 1)) (fun _ => Finish [])).
Definition finishes {A} (ths : list (thread spec_float A)) (t : nat) (test : A -> bool) : bool :=
  match ths !! t with Some (Running (Ret x)) => test x | _ => false end.
Lemma returned_reached {A} l (c : list (thread spec_float A) * sh spec_float) t test :
  match sched l c with Some c' => finishes c'.1 t test | None => false end = true ->
  exists c' x, tsteps c c' /\ c'.1 !! t = Some (Running (Ret x)) /\ test x = true.
Proof.
  destruct (sched l c) as [c'|] eqn:E; [|discriminate]. unfold finishes. intros H.
  destruct (c'.1 !! t) as [[p|]|] eqn:Et; try discriminate. destruct p; try discriminate.
  exists c', a. split; [eapply sched_sound; eauto|]. auto.
Qed.
(** [x] is the number [z] *)
Definition isz (z : Z) (x : spec_float) : bool := seqb x (f z).
Definition saw01 (l : list spec_float) : bool := match l with [x; y] => isz 0 x && isz 1 y | _ => false end.
Theorem C55_joint_positions_torn_refuted :
  let s := after r_two in let clients := [torn_read; torn_write] in
  exists c x, tsteps (spawn clients, quiet (heap s) (nxt s)) c /\ c.1 !! 0 = Some (Running (Ret x)) /\ saw01 x = true /\
    forall order k, serial order (Calm clients (heap s) (nxt s)) = Some k -> c_clients k !! 0 <> Some (Finish x).
Proof.
  cbv zeta. destruct (returned_reached [(0, 3); (1, 8); (0, 3)] (spawn [torn_read; torn_write], quiet (heap (after r_two)) (nxt (after r_two))) 0 saw01)
    as (c & x & H1 & H2 & H3); [vm_compute; reflexivity|].
  exists c, x. repeat (split; [assumption|]). apply (never_serially 3 0 x saw01); [exact H3|vm_compute; reflexivity..].
Qed.
Print Assumptions C55_joint_positions_torn_refuted.

(** set_joint_position on a node with two mimic children, against a thread reading
    the first child and then the second: it sees the first one moved and the
    second one not yet. *)
Definition r_mimics : prog spec_float unit :=
  p <- node_new (lin "p" (-10) 10) ;; a <- node_new (lin "a" (-10) 10) ;; b <- node_new (lin "b" (-10) 10) ;;
  node_set_mimic_parent a p (Mimic (f 1) (f 0)) ;;; node_set_mimic_parent b p (Mimic (f 1) (f 0)).
Definition mimic_write : client spec_float (list (option spec_float)) := Call (KSetPosition 0 (f 1)) (fun _ => Finish []).
Definition mimic_read : client spec_float (list (option spec_float)) :=
  Call (KJointPosition 1) (fun x => Call (KJointPosition 2) (fun y => Finish [x; y])).
Definition saw_first (l : list (option spec_float)) : bool := match l with [Some x; Some y] => isz 1 x && isz 0 y | _ => false end.
Theorem C55_mimic_update_torn_refuted :
  let s := after r_mimics in let clients := [mimic_read; mimic_write] in
  exists c x, tsteps (spawn clients, quiet (heap s) (nxt s)) c /\ c.1 !! 0 = Some (Running (Ret x)) /\ saw_first x = true /\
    forall order k, serial order (Calm clients (heap s) (nxt s)) = Some k -> c_clients k !! 0 <> Some (Finish x).
Proof.
  cbv zeta. destruct (returned_reached [(1, 7); (0, 6)] (spawn [mimic_read; mimic_write], quiet (heap (after r_mimics)) (nxt (after r_mimics))) 0 saw_first)
    as (c & x & H1 & H2 & H3); [vm_compute; reflexivity|].
  exists c, x. repeat (split; [assumption|]). apply (never_serially 3 0 x saw_first); [exact H3|vm_compute; reflexivity..].
Qed.
Print Assumptions C55_mimic_update_torn_refuted.

(** set_parent against a thread reading the child's parent and then the parent's
    children: the child has its parent, the parent does not have the child. *)
Definition r_loose : prog spec_float unit :=
  a <- node_new (lin "a" (-10) 10) ;; b <- node_new (lin "b" (-10) 10) ;; Ret tt.
Definition link_write : client spec_float (option nat * list nat) := Call (KSetParent 1 0) (fun _ => Finish (None, [])).
Definition link_read : client spec_float (option nat * list nat) :=
  Call (KParent 1) (fun x => Call (KChildren 0) (fun y => Finish (x, y))).
Definition saw_half (l : option nat * list nat) : bool := match l with (Some 0, []) => true | _ => false end.
Theorem C55_set_parent_torn_refuted :
  let s := after r_loose in let clients := [link_read; link_write] in
  exists c, tsteps (spawn clients, quiet (heap s) (nxt s)) c /\ c.1 !! 0 = Some (Running (Ret (Some 0, []))) /\
    forall order k, serial order (Calm clients (heap s) (nxt s)) = Some k -> c_clients k !! 0 <> Some (Finish (Some 0, [])).
Proof.
  cbv zeta. destruct (returned_reached [(1, 4); (0, 7)] (spawn [link_read; link_write], quiet (heap (after r_loose)) (nxt (after r_loose))) 0 saw_half)
    as (c & x & H1 & H2 & H3); [vm_compute; reflexivity|].
  destruct x as [[[|]|] [|]]; try discriminate.
  exists c. repeat (split; [assumption|]). apply (never_serially 3 0 _ saw_half); [exact H3|vm_compute; reflexivity..].
Qed.
Print Assumptions C55_set_parent_torn_refuted.

(** ** Concrete cases *)
Definition inc (a : nat) : client spec_float (result spec_float unit) :=
  Call (KJointPosition a) (fun x => Call (KSetPosition a (match x with Some x => sadd x (f 1) | None => f 0 end)) Finish).
Example C55_case_hypotheses : let s := after r_two in
  heap_ok (heap s) (nxt s) /\
  forall cl, cl ∈ [inc 0; inc 0; inc 1] -> obeys (one_node_call (heap s)) (fun _ => []) (alive (heap s)) cl.
Proof.
  split; [apply heap_okb_sound; vm_compute; reflexivity|].
  assert (H0 : alive (heap (after r_two)) 0) by (vm_compute; eauto). assert (H1 : alive (heap (after r_two)) 1) by (vm_compute; eauto).
  assert (M : forall a n, heap (after r_two) !! a = Some n -> n_mimic_children n = []).
  { intros a n Hn. destruct a as [|[|a]]; [vm_compute in Hn; injection Hn as <-; reflexivity..|].
    assert (Ho : heap_ok (heap (after r_two)) 2) by (apply heap_okb_sound; vm_compute; reflexivity).
    assert (S (S a) < 2) by (apply (hk_bound _ _ Ho); eauto). lia. }
  intros cl Hcl. apply elem_of_list_In in Hcl. destruct Hcl as [<-|[<-|[<-|[]]]]; cbn;
    (split; [exact I|split; [set_solver|intros _; split; [apply M|split; [set_solver|intros _; set_solver]]]]).
Qed.
(** two threads each adding one by a read and a write: a lost update is possible
    (each call is atomic, the pair is not), and it is what the serial order
    read, read, write, write does *)
Example C55_case_lost_update : let s := after r_two in
  exists c, tsteps (spawn [inc 0; inc 0], quiet (heap s) (nxt s)) c /\
    match c.1 with [Running (Ret _); Running (Ret _)] => True | _ => False end /\
    match pos_of c.2 0 with Some x => isz 1 x = true | None => False end.
Proof.
  cbv zeta.
  destruct (sched [(0, 3); (1, 3); (0, 4); (1, 4)] (spawn [inc 0; inc 0], quiet (heap (after r_two)) (nxt (after r_two)))) as [c|] eqn:E; [|vm_compute in E; discriminate].
  exists c. split; [eapply sched_sound; eauto|]. vm_compute in E. injection E as <-. vm_compute. auto.
Qed.
