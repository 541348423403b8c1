(** * C56: guards held by the user *)
From Coq Require Import String ZArith Floats.SpecFloat.
From stdpp Require Import gmap.
From Verif Require Import Scalar ScalarF Geometry Joint Link Prog NodeM ChainM FuncsM IkM SpecJoint SpecNode
  Api SpecHist SpecGuard GuardProofs Sched Ex ExApi PropLock.

(** C56.  A thread takes a guard, looks at the node, makes any calls whatsoever
    (depending on what they return), and looks again, while other threads execute
    any programs whatsoever: it sees the same node. *)
Theorem C56_guard_stable {T} `{Scalar T} {A} (ths : list (thread T (node T * node T * A))) s t a (cl : client T A) c n n' x :
  ths !! t = Some (Running (while_holding a (denote cl))) -> a < nxt s ->
  tsteps (ths, s) c -> c.1 !! t = Some (Running (Ret (n, n', x))) -> n' = n.
Proof. apply guard_stable. apply bal_denote. Qed.
Print Assumptions C56_guard_stable.

Section Calls.
  Context {T : Type} `{Sc : Scalar T}.
  Implicit Types (h : gmap nat (node T)) (L : gmap nat nat).

  (** C56.  A call made while guards are held (the mutexes [L] are locked, by
      whomever): if it locks none of the guarded nodes it does exactly what it does
      without the guards; *)
  Theorem C56_other_nodes {R} (k : api T R) t h nx L :
    (forall a, a ∈ acquired t (interp k) (quiet h nx) -> L !! a = None) ->
    same_outcome L (run t (interp k) (quiet h nx)) (run t (interp k) (Sh h nx L ∅)).
  Proof.
    intros HL. pose proof (run_held t L (interp k) (quiet h nx) ∅ _ (bal_interp k ∅)) as H.
    destruct (list_find _ _) as [[i a]|] eqn:E.
    - apply list_find_Some in E as (E & [u Hu] & _). apply elem_of_list_lookup_2, HL in E. congruence.
    - replace (Sh h nx L ∅) with (with_locks L (quiet h nx)); [apply H|]; try (cbn; set_solver).
      + intros a [u Hu]. cbn in Hu. rewrite lookup_empty in Hu. discriminate.
      + unfold with_locks, set_locks. cbn. rewrite map_union_empty. reflexivity.
  Qed.
  (** C56.  ... and if it locks a guarded node it hangs, at the first such node. *)
  Theorem C56_guarded_node_hangs {R} (k : api T R) t h nx L l1 a l2 :
    acquired t (interp k) (quiet h nx) = l1 ++ a :: l2 ->
    (forall b, b ∈ l1 -> L !! b = None) -> is_Some (L !! a) ->
    exists s, run t (interp k) (Sh h nx L ∅) = Deadlock a s.
  Proof.
    intros Hacq Hl1 Ha. pose proof (run_held t L (interp k) (quiet h nx) ∅ _ (bal_interp k ∅)) as H.
    destruct (list_find _ _) as [[i b]|] eqn:E.
    - assert (b = a) as ->.
      { apply list_find_Some in E as (E1 & E2 & E3). rewrite Hacq in E1, E3. 
        destruct (decide (i < length l1)) as [Hi|Hi].
        - rewrite lookup_app_l in E1 by assumption. apply elem_of_list_lookup_2, Hl1 in E1. destruct E2; congruence.
        - destruct (decide (i = length l1)) as [->|Hne].
          + rewrite list_lookup_middle in E1 by reflexivity. congruence.
          + exfalso. apply (E3 (length l1) a); [apply list_lookup_middle; reflexivity|lia|assumption]. }
      replace (Sh h nx L ∅) with (with_locks L (quiet h nx)); [apply H|]; try (cbn; set_solver).
      + intros c [u Hu]. cbn in Hu. rewrite lookup_empty in Hu. discriminate.
      + unfold with_locks, set_locks. cbn. rewrite map_union_empty. reflexivity.
    - exfalso. apply list_find_None in E. rewrite Hacq in E. rewrite Forall_forall in E. apply (E a); [set_solver|assumption].
  Qed.

  (** the node whose method the call is *)
  Definition method_of {R} (k : api T R) : option nat :=
    match k with
    | KJoint a | KJointPosition a | KParent a | KChildren a | KAncestors (S _) a | KDescendants (S _) a
    | KSetParent a _ | KRemoveParent a _ | KIsRoot a | KIsEnd a | KSetOrigin a _ | KOrigin a | KSetPosition a _
    | KSetClamped a _ | KSetUnchecked a _ | KWorldTransform a | KWorldVelocity a | KMimicParent a
    | KSetMimicParent a _ _ | KSetLink a _ | KLink a | KFmt a => Some a
    | _ => None
    end.
  (** C56.  In particular every method of a guarded node hangs, even one that only
      reads, and changes nothing; *)
  Theorem C56_own_method_hangs {R} (k : api T R) t h nx L a :
    method_of k = Some a -> is_Some (h !! a) -> is_Some (L !! a) ->
    run t (interp k) (Sh h nx L ∅) = Deadlock a (Sh h nx L ∅).
  Proof.
    intros Hk [n Hn] [u Hu].
    destruct k; cbn in Hk; try discriminate; try (destruct fuel; [discriminate|]); injection Hk as ->; cbn; rewrite Hn, Hu; reflexivity.
  Qed.
  (** C56.  ... and so do [joint_positions] and [end_transform] of a chain through it. *)
  Theorem C56_chain_hangs t h nx L c a :
    is_Some (L !! a) -> (forall b, b ∈ c_nodes c -> is_Some (h !! b)) ->
    (forall b, b ∈ c_movable c -> exists n, h !! b = Some n /\ is_movable (n_joint n) = true) ->
    (a ∈ c_movable c -> exists b s, run t (joint_positions c) (Sh h nx L ∅) = Deadlock b s /\ is_Some (L !! b)) /\
    (a ∈ c_nodes c -> exists b s, run t (end_transform c) (Sh h nx L ∅) = Deadlock b s /\ is_Some (L !! b)).
  Proof.
    intros Ha Hn Hm. split; intros Hin.
    - unfold joint_positions, iter_joints. revert Hm Hin. clear Hn. induction (c_movable c) as [|b l IH]; intros Hm Hin; [inversion Hin|].
      destruct (Hm b) as (n & Hb & Hmv); [set_solver|]. cbn. rewrite Hb.
      destruct (L !! b) as [u|] eqn:EL; [exists b; eexists; split; [reflexivity|rewrite EL; eauto]|].
      rewrite decide_False by set_solver. cbn. rewrite lookup_insert, decide_True by reflexivity. rewrite ?Hb.
      assert (Hp : joint_position (n_joint n) = Some (j_position (n_joint n))).
      { unfold is_movable, joint_position in *. destruct (j_type (n_joint n)); [discriminate|reflexivity..]. }
      rewrite Hp. cbn. rewrite lookup_insert, decide_True by reflexivity. rewrite delete_insert by assumption.
      destruct IH as (b' & s' & IH & Hb').
      + intros b' Hb'. apply Hm. set_solver.
      + apply elem_of_cons in Hin as [->|Hin]; [destruct Ha; congruence|assumption].
      + exists b'. unfold set_locks; cbn [heap nxt locks poison].
        match goal with |- exists s, run t (bind ?p ?k) ?s0 = _ /\ _ => assert (Hbind : forall q : prog T (list T), (exists s, run t q s0 = Deadlock b' s) -> exists s, run t (bind q k) s0 = Deadlock b' s) end.
        { clear. intros q. set (s1 := Sh h nx L ∅). generalize s1. clear s1.
          induction q; intros s1 [s Hs]; cbn in Hs |- *; try discriminate.
          - destruct (heap s1 !! a); [|discriminate]. destruct (locks s1 !! a); [eauto|].
            destruct (decide _); [discriminate|eauto].
          - destruct (decide _); [eauto|discriminate].
          - destruct (decide _); [|discriminate]. destruct (heap s1 !! a); [eauto|discriminate].
          - destruct (decide _); [eauto|discriminate].
          - eauto.
          - eauto. }
        destruct (Hbind _ (ex_intro _ s' IH)) as [s2 Hs2]. exists s2. split; assumption.
    - unfold end_transform. generalize (@iso1 T Sc). revert Hn Hin. clear Hm. induction (c_nodes c) as [|b l IH]; intros Hn Hin acc; [inversion Hin|].
      destruct (Hn b) as (n & Hb); [set_solver|]. cbn. rewrite Hb.
      destruct (L !! b) as [u|] eqn:EL; [exists b; eexists; split; [reflexivity|rewrite EL; eauto]|].
      rewrite decide_False by set_solver. cbn. rewrite lookup_insert, decide_True by reflexivity. rewrite ?Hb.
      unfold set_locks; cbn [heap nxt locks poison]. rewrite delete_insert by assumption.
      rewrite decide_True by reflexivity. apply IH.
      + intros b' Hb'. apply Hn. set_solver.
      + apply elem_of_cons in Hin as [->|Hin]; [destruct Ha; congruence|assumption].
  Qed.
End Calls.
Print Assumptions C56_other_nodes.
Print Assumptions C56_guarded_node_hangs.
Print Assumptions C56_own_method_hangs.
Print Assumptions C56_chain_hangs.

(** C56.  Two threads, each looking at one node while it asks for the position of
    the other's: they can wait for each other for ever. *)
Theorem C56_two_guards_deadlock_refuted :
  let s := after r_two in
  let cross a b : prog spec_float _ := while_holding a (denote (Call (KJointPosition b) Finish)) in
  exists c, tsteps ([Running (cross 0 1); Running (cross 1 0)], quiet (heap s) (nxt s)) c /\ deadlocked c.1 c.2 [0; 1].
Proof. apply (deadlock_reached [(0, 2); (1, 2)] _ [(0, 1); (1, 0)]). vm_compute. reflexivity. Qed.
Print Assumptions C56_two_guards_deadlock_refuted.

(** the hypotheses are met: with a guard of node 0 held, set_joint_position on node
    1 works as usual, on a chain through both it hangs *)
Example C56_case :
  let h := heap (after r_two) in let nx := nxt (after r_two) in
  acquired 0 (interp (KSetPosition 1 (f 1))) (quiet h nx) = [1] /\
  acquired 0 (interp (KSetPositions two_chain [f 1; f 1])) (quiet h nx) = [0; 1].
Proof. vm_compute. auto. Qed.
