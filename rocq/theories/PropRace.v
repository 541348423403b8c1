(** * C69, C70: no data races; every schedule comes to an end *)
From Coq Require Import String ZArith Floats.SpecFloat.
From stdpp Require Import gmap.
From Verif Require Import Scalar ScalarF Geometry Joint Link Prog NodeM ChainM FuncsM IkM SpecJoint SpecNode SpecGraph
  SpecChain Api SpecHist SpecRace RaceProofs Sched Ex ExApi PropNode PropFK PropHist PropLock.

(** C69.  Any number of threads running client programs of any calls, from any
    heap Rust's ownership allows, nobody holding a guard, on a machine that lets a
    thread touch a node without its mutex: whatever was executed so far, no two
    threads raced for the data of a node. *)
Theorem C69_no_data_race {T} `{Scalar T} {A} (h : gmap nat (node T)) nx po (cls : list (client T A)) tr c :
  heap_ok h nx -> (forall cl, cl ∈ cls -> obeys any_call (fun _ => []) (alive h) cl) ->
  traced raw1 (spawn cls, Sh h nx ∅ po) tr c -> ~ data_race tr.
Proof. intros H1 H2 H3. exact (traced_no_race _ _ _ (clients_raw h nx po cls tr c H1 H2 H3)). Qed.
Print Assumptions C69_no_data_race.
(** Nor is a thread about to touch a node without having locked it first, or a
    node that is gone. *)
Theorem C69_touch_locked {T} `{Scalar T} {A} (h : gmap nat (node T)) nx po (cls : list (client T A)) tr c t p :
  heap_ok h nx -> (forall cl, cl ∈ cls -> obeys any_call (fun _ => []) (alive h) cl) ->
  traced raw1 (spawn cls, Sh h nx ∅ po) tr c -> c.1 !! t = Some (Running p) ->
  match p with
  | Get a _ | Put a _ _ => locks c.2 !! a = Some t /\ is_Some (heap c.2 !! a)
  | Unlock a _ => locks c.2 !! a = Some t
  | Lock a _ => is_Some (heap c.2 !! a)
  | _ => True
  end.
Proof.
  intros H1 H2 H3. exact (clients_touch_live h nx po cls c H1 H2 (traced_tsteps _ _ _ (clients_raw h nx po cls tr c H1 H2 H3)) t p).
Qed.
Print Assumptions C69_touch_locked.
(** Between touches of the same node by two threads, its mutex changes hands:
    given up by the one, then locked by the other. *)
Theorem C69_handed_over {T} `{Scalar T} {A} (h : gmap nat (node T)) nx po (cls : list (client T A)) tr c t u a i j e e' :
  heap_ok h nx -> (forall cl, cl ∈ cls -> obeys any_call (fun _ => []) (alive h) cl) ->
  traced raw1 (spawn cls, Sh h nx ∅ po) tr c ->
  t <> u -> i < j -> tr !! i = Some (t, e) -> touches e a -> tr !! j = Some (u, e') -> touches e' a ->
  exists k l e'', i < k /\ k < l /\ l < j /\ tr !! k = Some (t, e'') /\ gives_up e'' a /\ tr !! l = Some (u, Acquire a).
Proof. intros H1 H2 H3. exact (touches_handed_over tr _ c t u a i j e e' (clients_raw h nx po cls tr c H1 H2 H3)). Qed.
Print Assumptions C69_handed_over.
(** So the interleaving semantics of the other theorems, on which a thread cannot
    touch a node without its mutex, misses no execution. *)
Theorem C69_checks_lose_nothing {T} `{Scalar T} {A} (h : gmap nat (node T)) nx po (cls : list (client T A)) c :
  heap_ok h nx -> (forall cl, cl ∈ cls -> obeys any_call (fun _ => []) (alive h) cl) ->
  ((exists tr, traced raw1 (spawn cls, Sh h nx ∅ po) tr c) <-> tsteps (spawn cls, Sh h nx ∅ po) c).
Proof.
  intros H1 H2. split.
  - intros [tr Htr]. exact (traced_tsteps _ _ _ (clients_raw h nx po cls tr c H1 H2 Htr)).
  - intros Hst. destruct (tsteps_traced _ _ Hst) as [tr Htr]. exists tr. apply traced_raw. exact Htr.
Qed.
Print Assumptions C69_checks_lose_nothing.
(** And [before] is an order in time, so that "neither is before the other" is not
    vacuous. *)
Theorem C69_before_in_time tr i j : before tr i j -> i < j.
Proof. exact (before_lt tr i j). Qed.
Print Assumptions C69_before_in_time.

(** C70.  No execution goes on for ever, whatever the scheduler does (in the
    model a walk over parents or children is given fuel; see C70_no_fuel_needed). *)
Theorem C70_no_infinite_execution {T A} (f : nat -> list (thread T A) * sh T) : ~ forall n, tstep (f n) (f (S n)).
Proof. exact (no_infinite_schedule f). Qed.
Print Assumptions C70_no_infinite_execution.
(** Client programs of any calls but set_mimic_parent, Display of chains and
    update_velocities: when nothing can move any more, every thread is finished;
    nobody waits. *)
Theorem C70_all_finish {T} `{Scalar T} {A} (h : gmap nat (node T)) nx po (cls : list (client T A)) c :
  heap_ok h nx -> mimic_wf h -> (forall cl, cl ∈ cls -> obeys parallel_call (fun _ => []) (alive h) cl) ->
  tsteps (spawn cls, Sh h nx ∅ po) c -> (forall c', ~ tstep c c') ->
  forall t th, c.1 !! t = Some th -> finished th.
Proof. exact (clients_finish h nx po cls c). Qed.
Print Assumptions C70_all_finish.
(** ... and such a state is reached from wherever the threads have got to. *)
Theorem C70_reached {T A} (c : list (thread T A) * sh T) : exists c', tsteps c c' /\ forall c'', ~ tstep c' c''.
Proof. exact (runs_out c). Qed.
Print Assumptions C70_reached.
(** Clients that make no walks over parents or children never use up fuel:
    "finished" means returned or panicked. *)
Theorem C70_no_fuel_needed {T} `{Scalar T} {A} (s : sh T) (cls : list (client T A)) c K :
  (forall cl, cl ∈ cls -> obeys no_search (fun _ => []) K cl) ->
  tsteps (spawn cls, s) c -> forall t, c.1 !! t <> Some (Running NoFuel).
Proof. exact (clients_never_out s cls c K). Qed.
Print Assumptions C70_no_fuel_needed.
(** The excluded calls: two threads, one in set_mimic_parent and the other setting
    the parent's position, can come to a state in which nothing can move and one
    of them is not finished. *)
Theorem C70_set_mimic_parent_refuted :
  exists c, tsteps (race (after r_two) (call1 (KSetMimicParent 1 0 (Mimic (f 1) (f 0)))) (call1 (KSetPosition 0 (f 1)))) c /\
    deadlocked c.1 c.2 [1].
Proof. exact C40_set_mimic_parent_race_refuted. Qed.
Print Assumptions C70_set_mimic_parent_refuted.

(** ** Concrete cases *)
(** two threads setting the position of node 0: a trace in which they take turns *)
Definition returned_both (ths : list (thread spec_float unit)) : bool :=
  match ths with [Running (Ret _); Running (Ret _)] => true | _ => false end.
Example C69_case : exists c,
  traced raw1 (race (after r_two) (call1 (KSetClamped 0 (f 1))) (call1 (KSetClamped 0 (f 2))))
    [(0, Acquire 0); (0, Reads 0); (0, Writes 0); (0, Release 0); (1, Acquire 0); (1, Reads 0); (1, Writes 0); (1, Release 0)] c /\
  returned_both c.1 = true.
Proof.
  destruct (trace_reached [0; 0; 0; 0; 1; 1; 1; 1] (race (after r_two) (call1 (KSetClamped 0 (f 1))) (call1 (KSetClamped 0 (f 2))))
    [(0, Acquire 0); (0, Reads 0); (0, Writes 0); (0, Release 0); (1, Acquire 0); (1, Reads 0); (1, Writes 0); (1, Release 0)] returned_both)
    as (c & H1 & H2); [vm_compute; reflexivity..|]. exists c. split; [apply traced_raw; exact H1|exact H2].
Qed.
(** a trace that would be a race: the second thread writes without locking *)
Example C69_race_case : data_race [(0, Acquire 0); (0, Writes 0); (1, Writes 0); (0, Release 0)].
Proof.
  exists 1, 2, 0, 1, (Writes 0), (Writes 0), 0. split; [lia|]. repeat (split; [reflexivity || (right; reflexivity) || (left; reflexivity)|]).
  assert (H : forall i j, before [(0, Acquire 0); (0, Writes 0); (1, Writes 0); (0, Release 0)] i j -> i <> 2 /\ j <> 2).
  { induction 1 as [i j t e e' Hl Hi Hj|i j t u e a Hl Hi Hg Hj|i j k _ IH1 _ IH2]; [| |lia].
    - destruct i as [|[|[|[|i]]]]; cbn in Hi; try discriminate; destruct j as [|[|[|[|j]]]]; cbn in Hj; try discriminate; try lia; congruence.
    - destruct j as [|[|[|[|j]]]]; cbn in Hj; try discriminate. lia. }
  split; intros Hb; apply H in Hb; lia.
Qed.
(** ... and on the machine without checks a program that writes without locking
    does produce it *)
Example C69_raw_case : exists c n,
  traced raw1 ([Running (Lock 0 (Put 0 n (Unlock 0 (Ret tt)))); Running (Put 0 n (Ret tt))], quiet (heap (after r_two)) (nxt (after r_two)))
    [(0, Acquire 0); (0, Writes 0); (1, Writes 0); (0, Release 0)] c.
Proof.
  assert (Hn : exists n, heap (after r_two) !! 0 = Some n) by (vm_compute; eauto). destruct Hn as [n Hn].
  exists ([Running (Ret tt); Running (Ret tt)], Sh (<[0 := n]> (<[0 := n]> (heap (after r_two)))) (nxt (after r_two)) (delete 0 (<[0 := 0]> ∅)) ∅), n.
  eapply (traced_step raw1 0); [reflexivity| |cbn [event_of quiet poison]; rewrite decide_False by set_solver; reflexivity|].
  { cbn [raw1 exec1 quiet heap locks poison]. rewrite Hn, lookup_empty, decide_False by set_solver. reflexivity. }
  eapply (traced_step raw1 0); [reflexivity|reflexivity|reflexivity|].
  eapply (traced_step raw1 1); [reflexivity|reflexivity|reflexivity|].
  eapply (traced_step raw1 0); [reflexivity|reflexivity|reflexivity|]. apply traced_nil.
Qed.
Example C70_case_hypotheses : let s := after r_two in heap_ok (heap s) (nxt s) /\ mimic_wf (heap s) /\
  forall cl, cl ∈ [call1 (KSetClamped 0 (f 1)); call1 (KUpdateTransforms two_chain)] ->
    obeys parallel_call (fun _ => []) (alive (heap s)) cl /\ obeys no_search (fun _ => []) (alive (heap s)) cl.
Proof.
  cbv zeta. split; [apply heap_okb_sound; vm_compute; reflexivity|]. split; [apply mimic_wfb_sound; vm_compute; reflexivity|].
  assert (H0 : alive (heap (after r_two)) 0) by (vm_compute; eauto). assert (H1 : alive (heap (after r_two)) 1) by (vm_compute; eauto).
  intros cl Hcl. apply elem_of_cons in Hcl as [-> | Hcl]; [|apply elem_of_list_singleton in Hcl as ->];
    (split; (split; [exact I|]; split; [|cbn; intros; set_solver])); cbn; intros a Ha; 
    repeat (apply elem_of_cons in Ha as [-> | Ha]; [assumption|]); set_solver.
Qed.
