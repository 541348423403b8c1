(** * C39, C40, C42: locks *)
From Coq Require Import String ZArith Floats.SpecFloat.
From stdpp Require Import gmap.
From Verif Require Import Scalar ScalarF Geometry Joint Link Prog NodeM ChainM FuncsM IkM SpecJoint SpecNode SpecGraph
  SpecChain Api SpecHist FrameProofs DisplayProofs VelocityProofs Sched Ex ExApi PropNode PropFK PropHist.

(** C39.  Any client program of any calls except Display of chains and
    update_velocities, started with no lock held: it never waits for a lock (no
    other thread runs, so that would be forever), and holds none when it is done,
    whether it returned or panicked. *)
Theorem C39_no_self_deadlock {T} `{Scalar T} {A} (t : nat) (h : gmap nat (node T)) nx (cl : client T A) :
  heap_ok h nx -> mimic_wf h -> obeys sequential_call (fun _ => []) (alive h) cl ->
  match run t (denote cl) (quiet h nx) with
  | Done x s => locks s = ∅ /\ poison s = ∅
  | Panicked _ s => locks s = ∅
  | OutOfFuel _ => True
  | Deadlock _ _ | Stuck => False
  end.
Proof. exact (sequential_no_deadlock t h nx cl). Qed.
Print Assumptions C39_no_self_deadlock.

(** C39: update_velocities returns only on chains without movable joints ... *)
Theorem C39_update_velocities_never_returns {T} `{Scalar T} (t : nat) (h : gmap nat (node T)) nx c vs s :
  all_live h (c_nodes c) -> run t (update_velocities c) (quiet h nx) = Done vs s ->
  forall a n, a ∈ c_nodes c -> h !! a = Some n -> j_type (n_joint n) = Fixed.
Proof. exact (update_velocities_done t h nx c vs s). Qed.
Print Assumptions C39_update_velocities_never_returns.
(** ... and on a chain in which parents come first (one from [Chain::from_root] or
    [from_end], C18) it waits for the mutex of the first movable joint's node,
    which it holds itself. *)
Theorem C39_update_velocities_deadlocks {T} `{Scalar T} (t : nat) (h : gmap nat (node T)) nx c l1 a l2 :
  all_live h (c_nodes c) -> parents_first h (c_nodes c) -> c_nodes c = l1 ++ a :: l2 ->
  (forall b n, b ∈ l1 -> h !! b = Some n -> j_type (n_joint n) = Fixed) ->
  (forall n, h !! a = Some n -> movable (n_joint n)) ->
  exists s, run t (update_velocities c) (quiet h nx) = Deadlock a s.
Proof. exact (update_velocities_deadlock t h nx c l1 a l2). Qed.
Print Assumptions C39_update_velocities_deadlocks.
(** C39: Display of a chain waits for itself iff a cycle of child links is
    reachable from the first node (otherwise it returns, C50_display_returns). *)
Theorem C39_display_cycle_deadlocks {T} `{Scalar T} (t : nat) (h : gmap nat (node T)) nx c a b fuel :
  children_live h -> head (c_nodes c) = Some a -> is_Some (h !! a) ->
  rtc (lists_child h) a b -> tc (lists_child h) b b -> size (dom h) < fuel ->
  exists w s, run t (chain_fmt fuel c) (quiet h nx) = Deadlock w s.
Proof. exact (run_chain_fmt_cycle t h nx c a b fuel). Qed.
Print Assumptions C39_display_cycle_deadlocks.

(** C40.  Any number of threads running any client programs of any calls except
    set_mimic_parent, Display of chains and update_velocities: no reachable
    state has a set of threads waiting for each other. *)
Theorem C40_no_deadlock {T} `{Scalar T} {A} (h : gmap nat (node T)) nx po (cls : list (client T A)) c D :
  heap_ok h nx -> mimic_wf h ->
  (forall cl, cl ∈ cls -> obeys parallel_call (fun _ => []) (alive h) cl) ->
  tsteps (spawn cls, Sh h nx ∅ po) c ->
  ~ deadlocked c.1 c.2 D.
Proof. exact (threads_no_deadlock h nx po cls c D). Qed.
Print Assumptions C40_no_deadlock.
(** Stronger: whoever waits, waits for a thread that can move, or that waits for
    one that can move. *)
Theorem C40_progress {T} `{Scalar T} {A} (h : gmap nat (node T)) nx po (cls : list (client T A)) c :
  heap_ok h nx -> mimic_wf h ->
  (forall cl, cl ∈ cls -> obeys parallel_call (fun _ => []) (alive h) cl) ->
  tsteps (spawn cls, Sh h nx ∅ po) c ->
  forall t a k, c.1 !! t = Some (Running (Lock a k)) -> is_Some (locks c.2 !! a) ->
  exists u, waits_for c.1 c.2 t u /\
    (can_move c.1 c.2 u \/ exists v, waits_for c.1 c.2 u v /\ can_move c.1 c.2 v).
Proof. exact (threads_progress h nx po cls c). Qed.
Print Assumptions C40_progress.

(** ** Races *)
Definition r_two : prog spec_float unit :=
  a <- node_new (lin "a" (-10) 10) ;; b <- node_new (lin "b" (-10) 10) ;; node_set_parent b a.
Definition r_disp : prog spec_float unit :=
  a <- node_new (lin "a" (-10) 10) ;; b <- node_new (lin "b" (-10) 10) ;;
  node_set_parent b a ;;; node_set_mimic_parent a b (Mimic (f 1) (f 0)).
Definition call1 {A} (k : api spec_float A) : client spec_float unit := Call k (fun _ => Finish tt).
Definition race (s : sh spec_float) (k1 k2 : client spec_float unit) : list (thread spec_float unit) * sh spec_float :=
  (spawn [k1; k2], quiet (heap s) (nxt s)).
Definition two_chain : chain := Chain [0; 1] [0; 1] 2.

(** C40: a thread calling set_joint_position on the parent in the middle of
    another thread's set_mimic_parent waits for itself. *)
Theorem C40_set_mimic_parent_race_refuted :
  exists c, tsteps (race (after r_two) (call1 (KSetMimicParent 1 0 (Mimic (f 1) (f 0)))) (call1 (KSetPosition 0 (f 1)))) c /\
    deadlocked c.1 c.2 [1].
Proof. apply (deadlock_reached [(0, 8); (1, 5)] _ [(1, 1)]). vm_compute. reflexivity. Qed.
Print Assumptions C40_set_mimic_parent_race_refuted.
(** C40: Display of the chain 0 -> 1, node 0 mimicking node 1, against
    set_joint_position on node 1. *)
Theorem C40_display_race_refuted :
  exists c, tsteps (race (after r_disp) (call1 (KChainFmt 5 two_chain)) (call1 (KSetPosition 1 (f 1)))) c /\
    deadlocked c.1 c.2 [0; 1].
Proof. apply (deadlock_reached [(0, 5); (1, 3)] _ [(0, 1); (1, 0)]). vm_compute. reflexivity. Qed.
Print Assumptions C40_display_race_refuted.

(** C42 *)
Theorem C42_update_transforms_race :
  exists c, tsteps (race (after r_two) (call1 (KUpdateTransforms two_chain)) (call1 (KSetPosition 0 (f 1)))) c /\
    c.1 !! 0 = Some (Dead "cache must exist"%string) /\ poison c.2 = ∅.
Proof. apply (dead_reached' [(0, 10); (1, 4); (0, 8)]). vm_compute. reflexivity. Qed.
Print Assumptions C42_update_transforms_race.
Theorem C42_jacobian_race :
  exists c, tsteps (race (after r_two) (call1 (KJacobian two_chain)) (call1 (KSetPosition 0 (f 1)))) c /\
    c.1 !! 0 = Some (Dead "called `Option::unwrap()` on a `None` value"%string) /\ 0 ∈ poison c.2 /\ locks c.2 !! 0 = None.
Proof. apply (dead_reached [(0, 30); (1, 4); (0, 3)]). vm_compute. reflexivity. Qed.
Print Assumptions C42_jacobian_race.

(** C42: after that the node is poisoned for ever ... *)
Theorem C42_poison_is_permanent {T A} (c c' : list (thread T A) * sh T) :
  tsteps c c' -> poison c.2 ⊆ poison c'.2.
Proof. exact (poison_steps c c'). Qed.
Print Assumptions C42_poison_is_permanent.
(** ... and every call of a method of the node panics *)
Definition method_of {T R} (k : api T R) (a : nat) : Prop :=
  match k with
  | KJoint b | KJointPosition b | KParent b | KChildren b | KIsRoot b | KIsEnd b
  | KSetOrigin b _ | KOrigin b | KSetPosition b _ | KSetClamped b _ | KSetUnchecked b _
  | KWorldTransform b | KWorldVelocity b | KMimicParent b | KSetLink b _ | KLink b | KFmt b
  | KSetParent b _ | KRemoveParent b _ | KSetMimicParent b _ _ => b = a
  | KAncestors fuel b | KDescendants fuel b => b = a /\ fuel <> 0
  | _ => False
  end.
Theorem C42_poisoned_calls_panic {T} `{Scalar T} {R} (t : nat) (s : sh T) (k : api T R) a :
  method_of k a -> is_Some (heap s !! a) -> locks s !! a = None -> a ∈ poison s ->
  run t (interp k) s = Panicked poison_msg (unwind t s).
Proof.
  intros Hk Ha Hl Hp. destruct Ha as [n Hn].
  destruct k; cbn in Hk; try contradiction; try (match type of Hk with _ /\ _ => destruct Hk as [Hk Hf]; destruct fuel as [|fuel]; [congruence|] end); subst;
    cbn; rewrite Hn, Hl; (destruct (decide _); [reflexivity|contradiction]).
Qed.
Print Assumptions C42_poisoned_calls_panic.

(** ** Concrete cases *)
Example C39_case_hypotheses : heap_ok h_mimic 5 /\ mimic_wf h_mimic /\
  obeys sequential_call (fun _ => []) (alive h_mimic)
    (Call (KSetMimicParent 3 4 (Mimic (f 1) (f 0))) (fun _ => Call (KSetPosition 4 (f 1)) (fun r => Finish r))).
Proof.
  split; [exact hist_case_heap|]. split; [apply mimic_wfb_sound; vm_compute; reflexivity|].
  assert (H3 : alive h_mimic 3) by (vm_compute; eauto). assert (H4 : alive h_mimic 4) by (vm_compute; eauto).
  cbn. split; [exact I|]. split; [set_solver|]. intros _. split; [exact I|]. split; [set_solver|]. intros _. set_solver.
Qed.
Example C39_case_velocities :
  match run 0 (update_velocities c1) (after ex_fk) with Deadlock a s => a = 2 /\ locks s !! 2 = Some 0 | _ => False end.
Proof. vm_compute. auto. Qed.
(** two nodes that are each other's children: Display hangs *)
Example C39_case_cycle :
  let p := a <- node_new (lin "a" 0 1) ;; b <- node_new (lin "b" 0 1) ;; node_set_parent b a ;;; node_set_parent a b in
  match run 0 (chain_fmt 9 (Chain [0] [0] 1)) (after p) with Deadlock a _ => a = 0 | _ => False end.
Proof. vm_compute. reflexivity. Qed.
Example C40_case_clients : forall cl,
  cl ∈ [Call (KSetPosition 0 (f 1)) (fun _ => Finish tt); Call (KSetParent 3 0) (fun _ => Finish tt);
        Call (KUpdateTransforms (Chain [0; 1] [0; 1] 2)) (fun _ => Finish tt)] ->
  obeys parallel_call (fun _ => []) (alive h_mimic) cl.
Proof.
  assert (H0 : alive h_mimic 0) by (vm_compute; eauto). assert (H3 : alive h_mimic 3) by (vm_compute; eauto).
  assert (H1 : alive h_mimic 1) by (vm_compute; eauto).
  intros cl Hcl. repeat (apply elem_of_cons in Hcl as [->|Hcl]); [| | |inversion Hcl]; cbn;
    (split; [exact I|]; split; [|set_solver]; intros b Hb; repeat (apply elem_of_cons in Hb as [->|Hb]); try assumption; inversion Hb).
Qed.
