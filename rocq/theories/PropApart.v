(** * C68: threads working on separate robots do not affect each other *)
From Coq Require Import String ZArith Floats.SpecFloat.
From stdpp Require Import gmap.
From Verif Require Import Scalar ScalarF Geometry Joint Link Prog NodeM ChainM FuncsM IkM SpecJoint SpecNode
  Api SpecHist SpecAtomic Sched Ex ExApi PropLock PropAtomic SpecApart ApartProofs.

Section Apart.
  Context {T : Type} `{Sc : Scalar T} {A : Type}.
  Implicit Types (h : gmap nat (node T)) (cls : list (client T A)) (F : nat -> gset nat).

  (** thread [t] has the nodes [F t]: they are alive, refer to no live node outside,
      belong to no other thread, and [t] makes any calls on them that create no
      node *)
  Record separate h cls F : Prop := {
    sp_live : forall t a, t < length cls -> a ∈ F t -> is_Some (h !! a);
    sp_island : forall t, t < length cls -> island h (F t);
    sp_disjoint : forall t u, t < length cls -> u < length cls -> t <> u -> F t ## F u;
    sp_calls : forall t cl, cls !! t = Some cl -> obeys creates_nothing (fun _ => []) (fun a => a ∈ F t) cl;
  }.

  (** C68.  A thread that has returned has returned what it returns when it runs
      alone, a thread that has panicked does so alone, and its nodes are in the
      same state. *)
  Theorem C68_as_alone h nx po cls F c t cl :
    heap_ok h nx -> separate h cls F -> tsteps (spawn cls, Sh h nx ∅ po) c -> cls !! t = Some cl ->
    (forall x, c.1 !! t = Some (Running (Ret x)) ->
       exists s, run t (denote cl) (Sh h nx ∅ po) = Done x s /\ forall a, a ∈ F t -> heap c.2 !! a = heap s !! a) /\
    (forall msg, c.1 !! t = Some (Dead msg) ->
       exists s, run t (denote cl) (Sh h nx ∅ po) = Panicked msg s /\
       forall a, a ∈ F t -> heap c.2 !! a = heap s !! a /\ (a ∈ poison c.2 <-> a ∈ poison s)).
  Proof.
    intros Hok [S1 S2 S3 S4] Hst Hcl.
    assert (Hwin : forall (s s' : sh T) a, part (F t) s = part (F t) s' -> a ∈ F t ->
      heap s !! a = heap s' !! a /\ (a ∈ poison s <-> a ∈ poison s')).
    { intros s s' a E Ha. split.
      - rewrite <- (part_heap_in (F t) s a Ha), <- (part_heap_in (F t) s' a Ha), E. reflexivity.
      - assert (Ep : poison s ∩ F t = poison s' ∩ F t) by exact (f_equal poison E).
        split; intros Hp; [assert (a ∈ poison s' ∩ F t) by (rewrite <- Ep; set_solver)|assert (a ∈ poison s ∩ F t) by (rewrite Ep; set_solver)];
          set_solver. }
    split.
    - intros x Hx. destruct (apart_runs h nx po cls F Hok S1 S2 S3 S4 c t cl _ Hst Hcl Hx) as (H1 & H2 & _).
      rewrite H2 in H1. cbn in H1. destruct (run t (denote cl) _) as [y s| | | |]; cbn in H1; try discriminate.
      injection H1 as -> H1. exists s. split; [reflexivity|]. intros a Ha. apply (Hwin _ _ a); [|exact Ha].
      unfold part. congruence.
    - intros msg Hm. destruct (apart_runs h nx po cls F Hok S1 S2 S3 S4 c t cl _ Hst Hcl Hm) as (H1 & H2 & _).
      rewrite H2 in H1. cbn in H1. destruct (run t (denote cl) _) as [y s|msg' s| | |]; cbn in H1; try discriminate.
      injection H1 as -> H1. exists s. split; [reflexivity|]. intros a Ha. apply (Hwin _ _ a); [|exact Ha].
      unfold part. congruence.
  Qed.

  (** C68.  A thread never waits for another one: it can make its next step,
      unless it has come to the point where it ends alone (returned, panicked,
      waiting for a mutex it holds itself, or out of fuel). *)
  Theorem C68_no_waiting h nx po cls F c t cl th :
    heap_ok h nx -> separate h cls F -> tsteps (spawn cls, Sh h nx ∅ po) c -> cls !! t = Some cl -> c.1 !! t = Some th ->
    moves t c \/ at_end (run t (denote cl) (Sh h nx ∅ po)) th.
  Proof.
    intros Hok [S1 S2 S3 S4] Hst Hcl Hth.
    destruct (apart_runs h nx po cls F Hok S1 S2 S3 S4 c t cl th Hst Hcl Hth) as (_ & _ & H). exact H.
  Qed.

  (** C68.  At every moment, what a thread still has to do leads to what its run
      leads to, in a world where there are only its own nodes; and that is what its
      run among all the other nodes leads to. *)
  Theorem C68_own_world h nx po cls F c t cl th :
    heap_ok h nx -> separate h cls F -> tsteps (spawn cls, Sh h nx ∅ po) c -> cls !! t = Some cl -> c.1 !! t = Some th ->
    from_here t th (part (F t) c.2) = run t (denote cl) (part (F t) (Sh h nx ∅ po)) /\
    run t (denote cl) (part (F t) (Sh h nx ∅ po)) = part_outcome (F t) (run t (denote cl) (Sh h nx ∅ po)).
  Proof.
    intros Hok [S1 S2 S3 S4] Hst Hcl Hth.
    destruct (apart_runs h nx po cls F Hok S1 S2 S3 S4 c t cl th Hst Hcl Hth) as (H1 & H2 & _). split; assumption.
  Qed.

  (** C68.  Nodes that belong to no thread stay as they are. *)
  Theorem C68_rest h nx po cls F c a :
    heap_ok h nx -> separate h cls F -> tsteps (spawn cls, Sh h nx ∅ po) c ->
    (forall t, t < length cls -> a ∉ F t) -> heap c.2 !! a = h !! a.
  Proof. intros Hok [S1 S2 S3 S4] Hst Ha. exact (apart_rest h nx po cls F Hok S1 S2 S3 S4 c a Hst Ha). Qed.
End Apart.
Print Assumptions C68_as_alone.
Print Assumptions C68_no_waiting.
Print Assumptions C68_own_world.
Print Assumptions C68_rest.

(** ** The hypotheses are met: two arms, one per thread *)
Definition r_arms : prog spec_float unit :=
  a <- node_new (lin "a" (-10) 10) ;; b <- node_new (lin "b" (-10) 10) ;; node_set_parent b a ;;;
  c <- node_new (lin "c" (-10) 10) ;; d <- node_new (lin "d" (-10) 10) ;; node_set_parent d c ;;;
  e <- node_new (lin "e" (-10) 10) ;; Ret tt.
Definition arms : sh spec_float := after r_arms.
Definition arm_of (t : nat) : gset nat := list_to_set (match t with 0 => [0; 1] | _ => [2; 3] end).
Definition one_arm : client spec_float unit := Call (KJacobian (Chain [0; 1] [0; 1] 2)) (fun _ => Finish tt).
Definition other_arm : client spec_float unit :=
  Call (KFromEnd 3 3) (fun c => Call (KSetPositions c [f 1; f 2]) (fun _ => Call (KUpdateTransforms c) (fun _ => Finish tt))).
Definition islandb {T} (h : gmap nat (node T)) (F : list nat) : bool :=
  forallb (fun a => match h !! a with
    | Some n => forallb (fun b => bool_decide (b ∈ F)) (n_children n ++ n_mimic_children n) &&
        forallb (fun b => bool_decide (b ∈ F) || negb (isS (h !! b))) (opt_handles (n_parent n) ++ opt_handles (n_mimic_parent n))
    | None => true end) F.
Lemma islandb_sound {T} (h : gmap nat (node T)) (F : list nat) : islandb h F = true -> island h (list_to_set F).
Proof.
  unfold islandb. rewrite forallb_forall. intros H a n Ha Hn. apply elem_of_list_to_set, elem_of_list_In in Ha.
  specialize (H a Ha). rewrite Hn in H. apply andb_prop in H as [H1 H2]. rewrite forallb_forall in H1, H2. split.
  - intros b Hb. apply elem_of_list_In in Hb. apply elem_of_list_to_set. specialize (H1 b Hb). apply bool_decide_eq_true in H1. exact H1.
  - intros b Hb. assert (Hin : In b (opt_handles (n_parent n) ++ opt_handles (n_mimic_parent n))).
    { apply in_or_app. destruct Hb as [-> | ->]; cbn; auto. }
    specialize (H2 b Hin). apply orb_prop in H2 as [H2|H2].
    + left. apply elem_of_list_to_set. apply bool_decide_eq_true in H2. exact H2.
    + right. destruct (h !! b); [discriminate|reflexivity].
Qed.
Lemma arm_of_0 : arm_of 0 = list_to_set [0; 1]. Proof. reflexivity. Qed.
Lemma arm_of_1 : arm_of 1 = list_to_set [2; 3]. Proof. reflexivity. Qed.
Example C68_hyp : heap_ok (heap arms) (nxt arms) /\ separate (heap arms) [one_arm; other_arm] arm_of /\
  (forall t, t < 2 -> 4 ∉ arm_of t) /\ is_Some (heap arms !! 4).
Proof.
  split; [apply heap_okb_sound; vm_compute; reflexivity|]. split; [|split].
  - split.
    + intros t a Ht Ha. cbn in Ht. destruct t as [|[|t]]; [| |lia].
      * rewrite arm_of_0 in Ha. apply elem_of_list_to_set in Ha. repeat (apply elem_of_cons in Ha as [->|Ha]; [vm_compute; eauto|]).
        apply elem_of_nil in Ha. contradiction.
      * rewrite arm_of_1 in Ha. apply elem_of_list_to_set in Ha. repeat (apply elem_of_cons in Ha as [->|Ha]; [vm_compute; eauto|]).
        apply elem_of_nil in Ha. contradiction.
    + intros t Ht. cbn in Ht. destruct t as [|[|t]]; [| |lia].
      * rewrite arm_of_0. apply islandb_sound. vm_compute. reflexivity.
      * rewrite arm_of_1. apply islandb_sound. vm_compute. reflexivity.
    + intros t u Ht Hu Hne. cbn in Ht, Hu. destruct t as [|[|t]], u as [|[|u]]; try lia; unfold arm_of; cbn; set_solver.
    + intros t cl Hcl. destruct t as [|[|t]]; [| |discriminate]; injection Hcl as <-.
      * cbn. split; [exact I|]. split; [|intros _ a Ha; set_solver]. unfold arm_of. cbn. intros a Ha. set_solver.
      * cbn. split; [exact I|]. split; [unfold arm_of; cbn; intros a Ha; set_solver|]. intros c. split; [exact I|].
        split; [auto|]. intros r. split; [exact I|]. split; [auto|]. intros r' a Ha. set_solver.
  - intros t Ht. destruct t as [|[|t]]; [| |lia]; unfold arm_of; cbn; set_solver.
  - vm_compute. eauto.
Qed.
(** the schedule under which the same two calls on one arm make the Jacobian panic
    (C42_jacobian_race), both on arms of their own *)
Example C68_run : exists c, tsteps (spawn [one_arm; other_arm], quiet (heap arms) (nxt arms)) c /\
  c.1 = [Running (Ret tt); Running (Ret tt)].
Proof.
  destruct (sched [(0, 30); (1, 24); (0, 6); (1, 21)] (spawn [one_arm; other_arm], quiet (heap arms) (nxt arms))) as [c|] eqn:E;
    [|vm_compute in E; discriminate].
  exists c. split; [eapply sched_sound; exact E|].
  assert (E' : fst <$> sched [(0, 30); (1, 24); (0, 6); (1, 21)] (spawn [one_arm; other_arm], quiet (heap arms) (nxt arms)) =
    Some [Running (Ret tt); Running (Ret tt)]) by (vm_compute; reflexivity).
  rewrite E in E'. cbn in E'. congruence.
Qed.

(** ** Chains without a common node are not enough *)
(** node 1 mimics node 0: setting joint 0 on one thread moves joint 1 under the
    other one, and the two threads hold different nodes. *)
Definition r_follow : prog spec_float unit :=
  p <- node_new (lin "p" (-10) 10) ;; a <- node_new (lin "a" (-10) 10) ;; node_set_mimic_parent a p (Mimic (f 1) (f 0)).
Definition lead : client spec_float (list (option spec_float)) := Call (KSetPosition 0 (f 1)) (fun _ => Finish []).
Definition look : client spec_float (list (option spec_float)) := Call (KJointPosition 1) (fun x => Finish [x]).
Definition sawz (z : Z) (l : list (option spec_float)) : bool := match l with [Some x] => isz z x | _ => false end.
Theorem C68_mimic_link_refuted :
  let s := after r_follow in
  (exists c x, tsteps (spawn [look; lead], quiet (heap s) (nxt s)) c /\ c.1 !! 0 = Some (Running (Ret x)) /\ sawz 1 x = true) /\
  exists x s', run 0 (denote look) (quiet (heap s) (nxt s)) = Done x s' /\ sawz 0 x = true.
Proof.
  cbv zeta. split.
  - apply (returned_reached [(1, 8); (0, 3)]). vm_compute. reflexivity.
  - destruct (run 0 (denote look) (quiet (heap (after r_follow)) (nxt (after r_follow)))) as [x s'| | | |] eqn:E;
      try (vm_compute in E; discriminate).
    exists x, s'. split; [reflexivity|].
    assert (E' : match run 0 (denote look) (quiet (heap (after r_follow)) (nxt (after r_follow))) with Done x _ => sawz 0 x | _ => false end = true)
      by (vm_compute; reflexivity).
    rewrite E in E'. exact E'.
Qed.
Print Assumptions C68_mimic_link_refuted.
