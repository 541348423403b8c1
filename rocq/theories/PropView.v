(** * C75: weak memory does not show *)
From Coq Require Import String ZArith Floats.SpecFloat.
From stdpp Require Import gmap.
From Verif Require Import Scalar ScalarF Geometry Joint Link Prog NodeM ChainM FuncsM IkM SpecJoint SpecNode SpecGraph
  SpecChain Api SpecHist SpecRace SpecView ViewProofs RaceProofs Sched Ex ExApi PropNode PropFK PropHist PropLock PropRace.

(** C75.  Any number of threads running client programs of any calls, from any
    heap Rust's ownership allows, on the machine whose threads each see their own
    part of what was written: no thread ever uses a node, or a mutex, before it
    can be sure that it exists, and wherever the threads get to on that machine,
    the machine with one memory gets them there too, its nodes holding what was
    written to each last. *)
Theorem C75_one_memory {T} `{Scalar T} {A} (h : gmap nat (node T)) nx po (cls : list (client T A)) ths m :
  heap_ok h nx -> (forall cl, cl ∈ cls -> obeys any_call (fun _ => []) (alive h) cl) ->
  vsteps (spawn cls, vstart h nx po) (ths, m) ->
  ~ undefined (ths, m) /\ exists s, tsteps (spawn cls, Sh h nx ∅ po) (ths, s) /\ shows m s.
Proof. exact (clients_views h nx po cls (ths, m)). Qed.
Print Assumptions C75_one_memory.
(** Nothing is lost either: what the machine with one memory can do, this one can. *)
Theorem C75_nothing_lost {T} `{Scalar T} {A} (h : gmap nat (node T)) nx po (cls : list (client T A)) ths s :
  heap_ok h nx -> (forall cl, cl ∈ cls -> obeys any_call (fun _ => []) (alive h) cl) ->
  tsteps (spawn cls, Sh h nx ∅ po) (ths, s) -> exists m, vsteps (spawn cls, vstart h nx po) (ths, m) /\ shows m s.
Proof. exact (clients_views_all h nx po cls ths s). Qed.
Print Assumptions C75_nothing_lost.
(** A thread about to read a node can read one write only, the newest, whatever
    else is on record. *)
Theorem C75_reads_newest {T} `{Scalar T} {A} (h : gmap nat (node T)) nx po (cls : list (client T A)) ths m t a k o :
  heap_ok h nx -> (forall cl, cl ∈ cls -> obeys any_call (fun _ => []) (alive h) cl) ->
  vsteps (spawn cls, vstart h nx po) (ths, m) -> ths !! t = Some (Running (Get a k)) ->
  vstep1 t (Get a k) m o -> exists y n m', newest m a y /\ writes m a !! y = Some n /\ o = Moves (k n) m'.
Proof.
  intros H1 H2 H3 H4 H5. destruct (clients_views_newest h nx po cls (ths, m) t a k H1 H2 H3 H4) as (x & Hx & Hn). cbn [snd] in Hx, Hn.
  inversion H5 as [| | | | |a' k' m0 x' y n Hx' Hxy Hy| a' k' m0 Hx'| | | | | | |]; subst.
  - rewrite Hx in Hx'. injection Hx' as <-. pose proof (proj2 Hn y ltac:(eauto)). assert (y = x) as -> by lia. eauto 10.
  - congruence.
Qed.
Print Assumptions C75_reads_newest.
(** A thread that is about to lock a mutex, perhaps of a node another thread has
    made, knows of the node: its view has come to it from its maker, from mutex to
    mutex. *)
Theorem C75_knows {T} `{Scalar T} {A} (h : gmap nat (node T)) nx po (cls : list (client T A)) ths m t a k :
  heap_ok h nx -> (forall cl, cl ∈ cls -> obeys any_call (fun _ => []) (alive h) cl) ->
  vsteps (spawn cls, vstart h nx po) (ths, m) -> ths !! t = Some (Running (Lock a k)) -> is_Some (seen m t !! a).
Proof.
  intros H1 H2 H3 H4. destruct (clients_views h nx po cls (ths, m) H1 H2 H3) as [Hu _].
  destruct (seen m t !! a) eqn:E; [eauto|]. exfalso. apply Hu. exists t, (Lock a k). split; [exact H4|]. apply v_lock_unknown. exact E.
Qed.
Print Assumptions C75_knows.

(** ** Without the mutexes weak memory would show *)
(** Thread 0 writes node 0 and then node 1; thread 1 reads node 1 and then node 0. *)
Definition unlocked {T} (a1 b1 : node T) : list (thread T (list (node T))) :=
  [Running (Put 0 a1 (Put 1 b1 (Ret []))); Running (Get 1 (fun y => Get 0 (fun x => Ret [x; y])))].
(** On the machine of this file it may read the new node 1 and the old node 0 ... *)
Theorem C75_stale_read {T} (h : gmap nat (node T)) nx (a0 b0 a1 b1 : node T) :
  h !! 0 = Some a0 -> h !! 1 = Some b0 ->
  exists m, vsteps (unlocked a1 b1, vstart h nx ∅) ([Running (Ret []); Running (Ret [a0; b1])], m).
Proof.
  intros Ha Hb. eexists. unfold unlocked.
  eapply rtc_l. { eapply (vstep_moves 0); [reflexivity|]. eapply (v_put 0 0 a1 _ _ 0 1); cbn [vstart seen writes]; [rewrite lookup_fmap, Ha; reflexivity|lia|rewrite Ha; reflexivity]. }
  eapply rtc_l. { eapply (vstep_moves 0); [reflexivity|]. eapply (v_put 0 1 b1 _ _ 0 1); cbn [vstart seen writes];
    [rewrite upd_eq, lookup_insert_ne, lookup_fmap, Hb by lia; reflexivity|lia|rewrite upd_ne, Hb by lia; reflexivity]. }
  eapply rtc_l. { eapply (vstep_moves 1); [reflexivity|]. eapply (v_get 1 1 _ _ 0 1 b1); cbn [vstart seen writes];
    [rewrite !upd_ne, lookup_fmap, Hb by lia; reflexivity|lia|rewrite upd_eq, lookup_insert; reflexivity]. }
  eapply rtc_l. { eapply (vstep_moves 1); [reflexivity|]. eapply (v_get 1 0 _ _ 0 0 a0); cbn [vstart seen writes];
    [rewrite upd_eq, lookup_insert_ne, !upd_ne, lookup_fmap, Ha by lia; reflexivity|lia|].
    rewrite upd_ne, upd_eq, lookup_insert_ne, Ha by lia. reflexivity. }
  apply rtc_refl.
Qed.
Print Assumptions C75_stale_read.
(** ... which cannot happen on a machine with one memory, even if that machine
    does not check mutexes. *)
Theorem C75_no_stale_read {T} (h : gmap nat (node T)) nx (a0 b0 a1 b1 : node T) tr s :
  h !! 0 = Some a0 -> h !! 1 = Some b0 -> a0 <> a1 -> b0 <> b1 ->
  ~ traced raw1 (unlocked a1 b1, quiet h nx) tr ([Running (Ret []); Running (Ret [a0; b1])], s).
Proof.
  intros Ha Hb Hna Hnb Htr.
  assert (G : forall c tr c', traced raw1 c tr c' ->
    (exists p0 p1, c.1 = [Running p0; Running p1] /\
      (p0 = Put 0 a1 (Put 1 b1 (Ret [])) /\ heap c.2 !! 0 = Some a0 /\ heap c.2 !! 1 = Some b0 \/
       p0 = Put 1 b1 (Ret []) /\ heap c.2 !! 0 = Some a1 /\ heap c.2 !! 1 = Some b0 \/
       p0 = Ret [] /\ heap c.2 !! 0 = Some a1 /\ heap c.2 !! 1 = Some b1) /\
      (p1 = Get 1 (fun y => Get 0 (fun x => Ret [x; y])) \/
       (exists y, p1 = Get 0 (fun x => Ret [x; y]) /\ (y = b1 -> heap c.2 !! 0 = Some a1)) \/
       exists x y, p1 = Ret [x; y] /\ (y = b1 -> x = a1))) ->
    c'.1 <> [Running (Ret []); Running (Ret [a0; b1])]).
  { clear tr s Htr. intros c tr c'.
    induction 1 as [c|t ths s p p' s' e tr c H1 H2 H3 _ IH|t ths s p msg s' e tr c H1 H2 H3 _ IH]; intros (p0 & p1 & Ec & I0 & I1).
    - rewrite Ec. intros E. injection E as -> ->. destruct I1 as [?|[(y & ? & _)|(x & y & E1 & E2)]]; [discriminate..|].
      injection E1 as <- <-. apply Hna. auto.
    - cbn [fst snd] in *. subst ths. apply IH. clear IH. destruct t as [|[|t]]; cbn in H1; [..|discriminate]; injection H1 as <-; cbn.
      + destruct I0 as [(-> & E0 & E1)|[(-> & E0 & E1)|(-> & E0 & E1)]]; cbn in H2; [| |discriminate]; injection H2 as <- <-; eexists _, _;
          (split; [reflexivity|]); cbn [heap set_heap].
        * split; [right; left; rewrite lookup_insert, lookup_insert_ne by lia; auto|].
          destruct I1 as [?|[(y & ? & ?)|(x & y & ? & ?)]]; [auto| |eauto 10]. right; left. exists y. split; [assumption|]. intros _. apply lookup_insert.
        * split; [right; right; rewrite lookup_insert, lookup_insert_ne by lia; auto|].
          destruct I1 as [?|[(y & ? & ?)|(x & y & ? & ?)]]; [auto| |eauto 10]. right; left. exists y. rewrite lookup_insert_ne by lia. auto.
      + destruct I1 as [->|[(y & -> & Hy)|(x & y & -> & _)]]; cbn in H2; [| |discriminate].
        * destruct (heap s !! 1) as [n|] eqn:E; [|discriminate]. injection H2 as <- <-. eexists _, _. split; [reflexivity|]. split.
          { rewrite E. exact I0. }
          right; left. exists n. split; [reflexivity|]. intros ->. destruct I0 as [(_ & _ & E1)|[(_ & E0 & E1)|(_ & E0 & _)]]; congruence.
        * destruct (heap s !! 0) as [n|] eqn:E; [|discriminate]. injection H2 as <- <-. eexists _, _. split; [reflexivity|]. split.
          { rewrite E. exact I0. }
          right; right. exists n, y. split; [reflexivity|]. intros Hb1. specialize (Hy Hb1). congruence.
    - exfalso. cbn [fst snd] in *. subst ths. destruct t as [|[|t]]; cbn in H1; [..|discriminate]; injection H1 as <-.
      + destruct I0 as [(-> & _)|[(-> & _)|(-> & _)]]; discriminate.
      + destruct I1 as [->|[(y & -> & _)|(x & y & -> & _)]]; cbn in H2; [destruct (heap s !! 1)|destruct (heap s !! 0)|]; discriminate. }
  refine (G _ _ _ Htr _ eq_refl). eexists _, _. split; [reflexivity|]. cbn [snd quiet heap]. auto 10.
Qed.
Print Assumptions C75_no_stale_read.
(** A thread that uses a node another has just made, without its having been
    handed over, does what has no meaning. *)
Theorem C75_not_handed_over {T} (h : gmap nat (node T)) nx (n : node T) :
  h !! nx = None ->
  exists c, vsteps ([Running (New n (fun _ => Ret tt)); Running (Lock nx (Ret tt))], vstart h nx ∅) c /\ undefined c.
Proof.
  intros Hn. eexists. split.
  - eapply rtc_l; [|apply rtc_refl]. eapply (vstep_moves 0); [reflexivity|apply v_new].
  - exists 1, (Lock nx (Ret tt)). split; [reflexivity|]. apply v_lock_unknown. cbn [snd seen vstart vnxt].
    rewrite upd_ne, lookup_fmap, Hn by lia. reflexivity.
Qed.
Print Assumptions C75_not_handed_over.

(** ** Concrete cases *)
(** thread 0 makes a node and links it below node 0; thread 1 asks node 0 for its
    children, gets the new node, and uses it *)
Definition maker : client spec_float (list nat) :=
  Call (KNew (lin "c" (-10) 10)) (fun a => Call (KSetParent a 0) (fun _ => Finish [])).
Definition user : client spec_float (list nat) :=
  Call (KChildren 0) (fun l => match l with [_; c] => Call (KChildren c) (fun _ => Finish l) | _ => Finish l end).
Example C75_case_hypotheses : heap_ok (heap (after r_two)) (nxt (after r_two)) /\
  forall cl, cl ∈ [maker; user] -> obeys any_call (fun _ => []) (alive (heap (after r_two))) cl.
Proof.
  split; [apply heap_okb_sound; vm_compute; reflexivity|].
  assert (H0 : alive (heap (after r_two)) 0) by (vm_compute; eauto).
  intros cl Hcl. apply elem_of_cons in Hcl as [-> | Hcl]; [|apply elem_of_list_singleton in Hcl as ->]; cbn.
  - split; [exact I|]. split; [set_solver|]. intros a. split; [exact I|]. split; [|set_solver].
    intros b Hb. apply elem_of_cons in Hb as [-> | Hb]; [right; apply elem_of_list_here|]. apply elem_of_list_singleton in Hb as ->. left. exact H0.
  - split; [exact I|]. split; [intros a Ha; apply elem_of_list_singleton in Ha as ->; exact H0|].
    intros [|x [|c [|y l]]]; cbn; intros; set_solver.
Qed.
Example C75_case : exists ths m k,
  vsteps (spawn [maker; user], vstart (heap (after r_two)) (nxt (after r_two)) ∅) (ths, m) /\
  ths !! 1 = Some (Running (Lock 2 k)) /\ is_Some (seen m 1 !! 2).
Proof.
  destruct C75_case_hypotheses as [H1 H2].
  assert (G : exists ths s k, tsteps (spawn [maker; user], quiet (heap (after r_two)) (nxt (after r_two))) (ths, s) /\
    ths !! 1 = Some (Running (Lock 2 k))).
  { assert (E : match sched [(0, 9); (1, 3)] (spawn [maker; user], quiet (heap (after r_two)) (nxt (after r_two))) with
                | Some (ths, s) => match ths !! 1 with Some (Running (Lock 2 k)) => True | _ => False end | None => False end)
      by (vm_compute; exact I).
    destruct (sched _ _) as [[ths s]|] eqn:Es; [|contradiction]. apply sched_sound in Es.
    destruct (ths !! 1) as [[p|]|] eqn:Et; try contradiction. destruct p as [|a k| | | | | | |]; try contradiction.
    destruct a as [|[|[|a]]]; try contradiction. exists ths, s, k. auto. }
  destruct G as (ths & s & k & Hts & Ht). destruct (C75_nothing_lost _ _ ∅ _ _ _ H1 H2 Hts) as (m & Hm & _).
  exists ths, m, k. split; [exact Hm|]. split; [exact Ht|]. exact (C75_knows _ _ _ _ _ _ _ _ _ H1 H2 Hm Ht).
Qed.
