(** * C43: reference counting, dropped handles, dropped parents *)
From Coq Require Import String Permutation.
From stdpp Require Import gmap.
From Verif Require Import Scalar Geometry Joint Link Prog NodeM ChainM FuncsM IkM Api Own SpecNode SpecGraph SpecChain SpecFK
  SpecOwn OwnProofs FKProofs.

(** C43.  [ohistory t o]: [o] is reached from nothing by any number of calls of
    the public API (returning or panicking), clones of handles and drops of
    handles.  The counters are right and no reference dangles. *)
Theorem C43_counts {T} `{Scalar T} (t : nat) (o : own T) :
  ohistory t o -> counts_right (o_mine o) (o_heap o) (o_rc o) /\ no_dangling (o_mine o) (o_heap o).
Proof. intros Ho. destruct (ohistory_ok t o Ho) as [_ Hc]. split; [exact Hc|exact (counts_no_dangling _ _ _ Hc)]. Qed.
Print Assumptions C43_counts.

(** C43: whatever is strongly reachable from a handle that is held is alive. *)
Theorem C43_held_is_alive {T} `{Scalar T} (t : nat) (o : own T) x :
  ohistory t o -> reached_from (o_heap o) (o_mine o) x -> is_Some (o_heap o !! x).
Proof. intros Ho. exact (reach_alive _ _ _ x (proj2 (ohistory_ok t o Ho))). Qed.
Print Assumptions C43_held_is_alive.
Theorem C43_chain_is_alive {T} `{Scalar T} (t : nat) (o : own T) c a b :
  ohistory t o -> (forall x, x ∈ chain_handles c -> x ∈ o_mine o) -> a ∈ c_nodes c -> reaches (o_heap o) a b ->
  is_Some (o_heap o !! a) /\ is_Some (o_heap o !! b).
Proof.
  intros Ho Hc Ha Hb. assert (Hm : a ∈ o_mine o) by (apply Hc; apply elem_of_app; auto).
  split; apply (C43_held_is_alive t o _ Ho); exists a; (split; [exact Hm|]); [apply rtc_refl|exact Hb].
Qed.
Print Assumptions C43_chain_is_alive.

(** C43: a handle can always be cloned and dropped.  Dropping one deallocates
    exactly the nodes that no handle, and no node that is kept, refers to; the
    nodes kept are not modified. *)
Theorem C43_clone {T} `{Scalar T} (t : nat) (o : own T) a :
  ohistory t o -> a ∈ o_mine o -> is_Some (arc_clone a (o_rc o)).
Proof. intros Ho Ha. destruct (clone_step_ok o a (ohistory_ok t o Ho) Ha) as (rc & E & _). rewrite E. eauto. Qed.
Print Assumptions C43_clone.
Theorem C43_drop {T} `{Scalar T} (t : nat) (o : own T) a mine :
  ohistory t o -> o_mine o ≡ₚ a :: mine ->
  exists h' rc', drop_refs [a] (o_heap o) (o_rc o) = Some (h', rc') /\
    (forall x n, h' !! x = Some n -> o_heap o !! x = Some n) /\
    (forall x, reached_from (o_heap o) mine x -> is_Some (h' !! x)) /\
    (forall x, is_Some (h' !! x) <-> exists S, supported S mine (o_heap o) /\ S x) /\
    (no_cycle (o_heap o) -> forall x, is_Some (h' !! x) <-> reached_from (o_heap o) mine x).
Proof.
  intros Ho Hp. pose proof (ohistory_ok t o Ho) as Hok.
  destruct (drop_step_ok o a mine Hok Hp) as (h' & rc' & E & Hok' & Hs & Hex). exists h', rc'.
  split; [exact E|]. split; [intros x n Hx; exact (lookup_weaken _ _ _ _ Hx Hs)|].
  split; [intros x Hx; exact (proj1 (drop_survivors o a mine h' rc' Hok Hp E x Hx))|]. split; [exact Hex|].
  intros Hc x. split; [|intros Hx; exact (proj1 (drop_survivors o a mine h' rc' Hok Hp E x Hx))].
  intros Hx. destruct (no_leak mine h' rc' (proj2 Hok')) with (x := x) as (b & Hb & Hr); [|exact Hx|].
  - intros b Hb. apply (Hc b). exact (tc_sub _ _ _ _ Hs Hb).
  - exists b. split; [exact Hb|exact (reaches_sub _ _ _ _ Hs Hr)].
Qed.
Print Assumptions C43_drop.

(** C43: no call ever uses a dangling reference, and the counters do not change
    what it does: it goes exactly as in the semantics without counters (Prog.v),
    in which all other properties are stated. *)
Theorem C43_calls {T} `{Scalar T} (t : nat) (o : own T) {R} (k : api T R) :
  ohistory t o -> (forall a, a ∈ args k -> a ∈ o_mine o) ->
  erase (orun t (interp k) (at_call o) (o_rc o) []) = run t (interp k) (at_call o) /\
  run t (interp k) (at_call o) <> Stuck.
Proof.
  intros Ho Ha. destruct (call_ok o t k (ohistory_ok t o Ho) Ha) as [He Hm].
  split; [exact He|]. intros E. rewrite <- He in E.
  destruct (orun t (interp k) (at_call o) (o_rc o) []); try discriminate. exact Hm.
Qed.
Print Assumptions C43_calls.
(** ... a call that ends, by returning or panicking, ends in a state of the
    history; every node that was alive when it began still is. *)
Theorem C43_calls_end {T} `{Scalar T} (t : nat) (o : own T) {R} (k : api T R) :
  ohistory t o -> (forall a, a ∈ args k -> a ∈ o_mine o) ->
  match run t (interp k) (at_call o) with
  | Done x s => locks s = ∅ /\ exists h' rc', ohistory t (Own h' (nxt s) (poison s) rc' (rets k x ++ o_mine o)) /\
      h' ⊆ heap s /\ forall a, is_Some (o_heap o !! a) -> is_Some (h' !! a)
  | Panicked _ s => locks s = ∅ /\ exists h' rc', ohistory t (Own h' (nxt s) (poison s) rc' (o_mine o)) /\
      h' ⊆ heap s /\ forall a, is_Some (o_heap o !! a) -> is_Some (h' !! a)
  | Deadlock _ _ | OutOfFuel _ => True
  | Stuck => False
  end.
Proof. exact (calls_end_lemma t o k). Qed.
Print Assumptions C43_calls_end.

(** C43: without cycles of strong references the live nodes are exactly those
    reached from the handles held; when the last handle is gone nothing is left. *)
Theorem C43_collected {T} `{Scalar T} (t : nat) (o : own T) :
  ohistory t o -> no_cycle (o_heap o) -> forall x, is_Some (o_heap o !! x) <-> reached_from (o_heap o) (o_mine o) x.
Proof.
  intros Ho Hc x. split; [exact (no_leak _ _ _ (proj2 (ohistory_ok t o Ho)) Hc x)|exact (C43_held_is_alive t o x Ho)].
Qed.
Print Assumptions C43_collected.
Theorem C43_nothing_left {T} `{Scalar T} (t : nat) (o : own T) :
  ohistory t o -> no_cycle (o_heap o) -> o_mine o = [] -> o_heap o = ∅.
Proof.
  intros Ho Hc Hm. apply map_empty. intros x. destruct (o_heap o !! x) as [n|] eqn:E; [|reflexivity].
  destruct (proj1 (C43_collected t o Ho Hc x)) as (a & Ha & _); [rewrite E; eauto|].
  rewrite Hm in Ha. inversion Ha.
Qed.
Print Assumptions C43_nothing_left.

(** C43: [parent()] of a node whose parent is held (by a chain, or reached from a
    handle) returns it. *)
Theorem C43_parent {T} `{Scalar T} (t : nat) (o : own T) a n p :
  ohistory t o -> o_poison o = ∅ -> o_heap o !! a = Some n -> n_parent n = Some p ->
  reached_from (o_heap o) (o_mine o) p ->
  run t (node_parent a) (at_call o) = Done (Some p) (at_call o).
Proof. intros Ho. exact (held_parent_lemma t o a n p (ohistory_ok t o Ho)). Qed.
Print Assumptions C43_parent.
Theorem C43_parent_in_chain {T} `{Scalar T} (t : nat) (o : own T) c a n p :
  ohistory t o -> o_poison o = ∅ -> (forall x, x ∈ chain_handles c -> x ∈ o_mine o) ->
  p ∈ c_nodes c -> o_heap o !! a = Some n -> n_parent n = Some p ->
  run t (node_parent a) (at_call o) = Done (Some p) (at_call o).
Proof.
  intros Ho Hpo Hc Hp Hn Hpar. apply (C43_parent t o a n p Ho Hpo Hn Hpar). exists p.
  split; [apply Hc; apply elem_of_app; auto|apply rtc_refl].
Qed.
Print Assumptions C43_parent_in_chain.

(** C43: dropping the last handle to a parent that nothing else keeps deallocates
    it; its child, held by another handle, stays as it was and still names it. *)
Theorem C43_drop_parent {T} `{Scalar T} (t : nat) (o : own T) mine a n p :
  ohistory t o -> o_mine o ≡ₚ p :: mine -> o_heap o !! a = Some n -> n_parent n = Some p -> a ∈ mine ->
  no_cycle (o_heap o) -> ~ reached_from (o_heap o) mine p ->
  exists h' rc', ohistory t (Own h' (o_next o) (o_poison o) rc' mine) /\ h' !! p = None /\ h' !! a = Some n.
Proof.
  intros Ho Hp Hn Hpar Ha Hc Hnr. pose proof (ohistory_ok t o Ho) as Hok.
  destruct (drop_step_ok o p mine Hok Hp) as (h' & rc' & E & _). exists h', rc'. split; [|split].
  - eapply rtc_r; [exact Ho|]. exact (os_drop t o p mine h' rc' Hp E).
  - exact (drop_last o p mine h' rc' Hok Hp E Hc p Hnr).
  - destruct (drop_survivors o p mine h' rc' Hok Hp E a) as [_ E2]; [exists a; split; [exact Ha|apply rtc_refl]|].
    rewrite E2. exact Hn.
Qed.
Print Assumptions C43_drop_parent.
(** C43: a node whose parent was dropped: [parent()] is [None], [is_root()] is
    nevertheless false, and its world transform is that of a root. *)
Theorem C43_orphan {T} `{Scalar T} (t : nat) (o : own T) a n w :
  ohistory t o -> o_poison o = ∅ -> o_heap o !! a = Some n -> n_parent n = Some w -> o_heap o !! w = None ->
  run t (node_parent a) (at_call o) = Done None (at_call o) /\
  run t (node_is_root a) (at_call o) = Done false (at_call o) /\
  (forall W, world (o_heap o) a W <-> W = iso_mul iso1 (local_transform (n_joint n))) /\
  forall c, c_nodes c = [a] -> exists h', run t (update_transforms c) (at_call o) =
    Done [iso_mul iso1 (local_transform (n_joint n))] (quiet h' (o_next o)).
Proof.
  intros Ho Hpo Hn Hw Hd. destruct (orphan_lemma t o a n w (ohistory_ok t o Ho) Hpo Hn Hw Hd) as (H1 & H2 & H3).
  split; [exact H1|]. split; [exact H2|]. split; [exact H3|].
  intros c Hc. exact (orphan_update t o a n w c Hc Hpo Hn Hw Hd H3).
Qed.
Print Assumptions C43_orphan.

(** ** Concrete histories *)
Section Cases.
  Context {T : Type} `{Scalar T}.
  Let j0 : joint T := joint_new "base" Fixed.
  Let j1 : joint T := joint_new "tip" Fixed.
  Lemma call_step {R} (k : api T R) (o o' : own T) x s rc tmp rc1 h2 rc2 :
    bool_decide (Forall (fun a => a ∈ o_mine o) (args k)) = true ->
    orun 0 (interp k) (at_call o) (o_rc o) [] = ODone x s rc tmp -> arc_clones (rets k x) rc = Some rc1 ->
    drop_refs tmp (heap s) rc1 = Some (h2, rc2) -> o' = Own h2 (nxt s) (poison s) rc2 (rets k x ++ o_mine o) -> ostep 0 o o'.
  Proof.
    intros Ha E1 E2 E3 ->. eapply os_call; [|exact E1|exact E2|exact E3].
    apply Forall_forall. exact (bool_decide_eq_true_1 _ Ha).
  Qed.
  Lemma drop_step (o o' : own T) a mine h2 rc2 :
    o_mine o ≡ₚ a :: mine -> drop_refs [a] (o_heap o) (o_rc o) = Some (h2, rc2) ->
    o' = Own h2 (o_next o) (o_poison o) rc2 mine -> ostep 0 o o'.
  Proof. intros Hp E ->. exact (os_drop 0 o a mine h2 rc2 Hp E). Qed.

  Ltac call k := eapply rtc_l; [eapply (call_step k); vm_compute; reflexivity|].
  Ltac dropping a mine := eapply rtc_l; [eapply (drop_step _ _ a mine); [vm_compute; solve_Permutation|vm_compute; reflexivity|vm_compute; reflexivity]|].
  Notation parent_node := (Node None [1] j0 None [] None None).
  Notation child_node := (Node (Some 0) [] j1 None [] None None).

  (** two nodes, the second under the first, both held *)
  Example C43_case_two : exists o : own T, ohistory 0 o /\ o_poison o = ∅ /\ o_mine o = [1; 0] /\
    o_heap o !! 0 = Some parent_node /\ o_heap o !! 1 = Some child_node /\
    o_rc o !! 0 = Some 1 /\ o_rc o !! 1 = Some 2 /\
    no_cycle (o_heap o) /\ ~ reached_from (o_heap o) [1] 0.
  Proof.
    eexists. split.
    { call (KNew j0). call (KNew j1). call (KSetParent (T := T) 1 0). apply rtc_refl. }
    repeat (split; [reflexivity|]).
    split; [apply no_cycle_up|].
    - intros a n Hn. apply elem_of_map_to_list in Hn. vm_compute in Hn.
      repeat (apply elem_of_cons in Hn as [Hn|Hn]; [injection Hn as -> ->; repeat constructor|]). inversion Hn.
    - intros (a & Ha & Hr). apply elem_of_list_singleton in Ha as ->.
      inversion Hr as [|? y ? (n & Hn & Hy) _]. subst. vm_compute in Hn. injection Hn as <-. destruct Hy as [Hy|Hy]; inversion Hy.
  Qed.
  (** the parent dropped: the child is an orphan *)
  Example C43_case_orphan : exists o : own T, ohistory 0 o /\ o_poison o = ∅ /\ o_mine o = [1] /\
    o_heap o !! 0 = None /\ o_heap o !! 1 = Some child_node /\ o_rc o !! 1 = Some 1.
  Proof.
    eexists. split.
    { call (KNew j0). call (KNew j1). call (KSetParent (T := T) 1 0). dropping 0 [1]. apply rtc_refl. }
    repeat (split; [reflexivity|]). reflexivity.
  Qed.
  (** the same with a chain from the child up: it keeps the parent *)
  Example C43_case_chain : exists (o : own T) c, ohistory 0 o /\ o_poison o = ∅ /\ o_mine o = chain_handles c /\
    c_nodes c = [0; 1] /\ o_heap o !! 0 = Some parent_node /\ o_heap o !! 1 = Some child_node.
  Proof.
    eexists. exists (Chain [0; 1] [] 0). split.
    { call (KNew j0). call (KNew j1). call (KSetParent (T := T) 1 0). call (KFromEnd (T := T) 10 1).
      dropping 0 [0; 1; 1]. dropping 1 [0; 1]. apply rtc_refl. }
    repeat (split; [reflexivity|]). reflexivity.
  Qed.
  (** C43: two nodes made parents of each other are never deallocated *)
  Theorem C43_cycle_leaks : exists o : own T, ohistory 0 o /\ o_mine o = [] /\ is_Some (o_heap o !! 0) /\ is_Some (o_heap o !! 1).
  Proof.
    eexists. split.
    { call (KNew j0). call (KNew j1). call (KSetParent (T := T) 1 0). call (KSetParent (T := T) 0 1).
      dropping 0 [1]. dropping 1 (@nil nat). apply rtc_refl. }
    split; [reflexivity|]. split; eexists; reflexivity.
  Qed.
End Cases.
Print Assumptions C43_cycle_leaks.
