(** * C78: queries of chains, and the SerialChain wrapper *)
From Coq Require Import String ZArith Floats.SpecFloat NArith.
From stdpp Require Import gmap.
From Verif Require Import Scalar ScalarF Geometry Joint Link Prog NodeM ChainM Api RunLemmas SpecPoison SpecJoint SpecNode
  SpecGraph GraphProofs LinkProofs SpecChain ChainProofs Ex PropGraph PropFK PropChain PropClone Sched PropLock PropAtomic.

Section C78.
  Context {T : Type} `{Sc : Scalar T}.
  Implicit Types (h : gmap nat (node T)).

  (** C78: iter_links gives the links of the chain's nodes, of fixed joints as well, in the
      order of the nodes; nodes without a link are passed over. *)
  Theorem C78_links t h nx c : all_live h (c_nodes c) ->
    run t (iter_links c) (quiet h nx) = Done (omap (fun a => h !! a ≫= n_link) (c_nodes c)) (quiet h nx).
  Proof.
    unfold iter_links. generalize (c_nodes c) as l. induction l as [|a l IH]; intros Hl; [reflexivity|].
    assert (Hl' : all_live h l) by (intros b Hb; apply Hl; set_solver). destruct (Hl a ltac:(set_solver)) as [n Hn]. specialize (IH Hl'). cbn [links_loop].
    assert (E : h !! a ≫= n_link = n_link n) by (rewrite Hn; reflexivity). cbn [omap list_omap]. rewrite E.
    rewrite run_bind. unfold quiet at 1. rewrite (run_read t a _ h nx ∅ n Hn (lookup_empty a)). cbn [obind]. destruct (n_link n) as [x|] eqn:El; [|exact IH].
    rewrite (run_lock_bind t a _ h nx ∅ n Hn (lookup_empty a)). rewrite (run_get_bind t a _ h nx _ n Hn) by apply lookup_insert.
    rewrite El. cbn [expect]. rewrite run_bind. cbn [run obind]. rewrite run_unlock_bind by apply lookup_insert. rewrite delete_insert by apply lookup_empty.
    change (Sh h nx ∅ ∅) with (quiet h nx). rewrite run_bind, IH. reflexivity.
  Qed.

  (** C78: the origin of a chain is the origin of its first node, whatever its position; set_origin
      sets this one and nothing else but its cached transform; on a chain without nodes both
      panic. *)
  Theorem C78_origin t h nx c a l n : c_nodes c = a :: l -> h !! a = Some n ->
    run t (chain_origin c) (quiet h nx) = Done (j_origin (n_joint n)) (quiet h nx) /\
    (forall o, exists h' n', run t (chain_set_origin c o) (quiet h nx) = Done tt (quiet h' nx) /\
      run t (chain_origin c) (quiet h' nx) = Done o (quiet h' nx) /\
      h' !! a = Some n' /\ (forall b, b <> a -> h' !! b = h !! b) /\
      n_parent n' = n_parent n /\ n_children n' = n_children n /\ n_link n' = n_link n /\
      n_mimic_parent n' = n_mimic_parent n /\ n_mimic_children n' = n_mimic_children n /\ n_mimic n' = n_mimic n /\
      j_name (n_joint n') = j_name (n_joint n) /\ j_type (n_joint n') = j_type (n_joint n) /\
      j_position (n_joint n') = j_position (n_joint n) /\ j_velocity (n_joint n') = j_velocity (n_joint n) /\
      j_limits (n_joint n') = j_limits (n_joint n) /\ j_wt_cache (n_joint n') = None).
  Proof.
    intros Hc Hn. assert (R : forall h m, h !! a = Some m -> run t (chain_origin c) (quiet h nx) = Done (j_origin (n_joint m)) (quiet h nx)).
    { intros h0 m Hm. unfold chain_origin, first_node. rewrite Hc. cbn [head expect]. rewrite run_bind. cbn [run obind].
      unfold node_origin, quiet. apply (run_read t a (fun n => j_origin (n_joint n))); [exact Hm|apply lookup_empty]. }
    split; [apply R, Hn|]. intros o.
    exists (<[a := set_n_joint n (joint_set_origin (n_joint n) o)]> h), (set_n_joint n (joint_set_origin (n_joint n) o)).
    split; [|split; [|split; [apply lookup_insert|split; [intros b Hb; apply lookup_insert_ne; congruence|repeat split]]]].
    - unfold chain_set_origin, first_node. rewrite Hc. cbn [head expect]. rewrite run_bind. cbn [run obind]. unfold node_set_origin, quiet.
      apply (run_modify t a (fun n => set_n_joint n (joint_set_origin (n_joint n) o))); [exact Hn|apply lookup_empty].
    - rewrite (R _ _ (lookup_insert h a _)). reflexivity.
  Qed.
  Theorem C78_no_nodes t s c : c_nodes c = [] ->
    (exists m s', run t (chain_origin c) s = Panicked m s') /\
    (forall o, exists m s', run t (chain_set_origin c o) s = Panicked m s') /\
    run t (iter_links c) s = Done [] s /\ run t (end_transform c) s = Done iso1 s.
  Proof.
    intros E. unfold chain_origin, chain_set_origin, first_node, iter_links, end_transform. rewrite E. cbn [head expect].
    split; [|split; [|split]]; try (intros; eexists _, _); reflexivity.
  Qed.

  (** C78: a SerialChain built from its end, or from its end up to a given root, has the nodes of
      the path, from the root's side to the end; its clone is the clone of the chain. *)
  Theorem C78_serial t h nx e l fuel : path_up h e l -> length l < fuel ->
    (exists c, run t (serial_from_end fuel e) (quiet h nx) = Done c (quiet h nx) /\ chain_of h (rev l) c) /\
    (forall r, exists c, run t (serial_from_end_to_root fuel e r) (quiet h nx) = Done c (quiet h nx) /\
      (forall l1 l2, l = l1 ++ r :: l2 -> chain_of h (rev (l1 ++ [r])) c) /\ (r ∉ l -> chain_of h (rev l) c)) /\
    (forall fuel c (s : sh T), run t (serial_clone fuel c) s = run t (chain_clone fuel c) s).
  Proof.
    intros Hp Hf. split; [exact (C13_from_end t h nx e l fuel Hp Hf)|]. split; [|reflexivity]. intros r. exact (C13_from_end_to_root t h nx e r l fuel Hp Hf).
  Qed.
End C78.
Print Assumptions C78_links.
Print Assumptions C78_origin.
Print Assumptions C78_no_nodes.
Print Assumptions C78_serial.

(** C78, refuted for several threads: between the check whether a node has a link and the use of
    it, another thread may take the link away; the iteration then panics, with the node locked,
    and the node's mutex is poisoned for good. *)
Definition r_link : prog spec_float unit :=
  a <- node_new (lin "a" (-10) 10) ;; node_set_link a (Some (ex_link "l" (trans 1 0 0))).
Definition one_node : chain := Chain [0] [0] 1.
Theorem C78_links_refuted :
  exists c m, tsteps (race (after r_link) (call1 (KIterLinks one_node)) (call1 (KSetLink 0 None))) c /\
    c.1 !! 0 = Some (Dead m) /\ 0 ∈ poison c.2.
Proof.
  destruct (sched [(0, 3); (1, 4); (0, 3)] (race (after r_link) (call1 (KIterLinks one_node)) (call1 (KSetLink 0 None)))) as [c|] eqn:E; [|exfalso; revert E; vm_compute; discriminate].
  assert (D : match c.1 !! 0 with Some (Dead m) => bool_decide (0 ∈ poison c.2) | _ => false end = true).
  { assert (D : match sched [(0, 3); (1, 4); (0, 3)] (race (after r_link) (call1 (KIterLinks one_node)) (call1 (KSetLink 0 None))) with
      Some c => match c.1 !! 0 with Some (Dead m) => bool_decide (0 ∈ poison c.2) | _ => false end | None => false end = true) by (vm_compute; reflexivity).
    rewrite E in D. exact D. }
  destruct (c.1 !! 0) as [[p|m]|] eqn:E2; try discriminate. exists c, m. split; [eapply sched_sound; exact E|]. split; [exact E2|]. apply bool_decide_eq_true in D. exact D.
Qed.
Print Assumptions C78_links_refuted.

(** a fixed base with a link, an arm without, a hand with a link; the base stands at (1, 0, 0) *)
Definition r_three : prog spec_float unit :=
  a <- node_new (fix_ "base") ;; b <- node_new (lin "arm" 0 5) ;; d <- node_new (lin "hand" 0 5) ;;
  node_set_parent b a ;;; node_set_parent d b ;;; node_set_origin a (trans 1 0 0) ;;;
  node_set_link a (Some (ex_link "l0" (trans 7 0 0))) ;;; node_set_link d (Some (ex_link "l2" (trans 8 0 0))).
Example C78_case : let s := after r_three in
  (forall a, a ∈ [0; 1; 2] -> is_Some (heap s !! a)) /\
  (map l_name <$> (fst <$> final (run 0 (c <- serial_from_end 9 2 ;; iter_links c) (quiet (heap s) (nxt s))))) = Some ["l0"; "l2"]%string /\
  (fst <$> final (run 0 (c <- serial_from_end 9 2 ;; chain_origin c) (quiet (heap s) (nxt s)))) = Some (trans 1 0 0) /\
  (fst <$> final (run 0 (c <- serial_from_end_to_root 9 2 1 ;; chain_origin c) (quiet (heap s) (nxt s)))) = Some iso1.
Proof.
  cbv zeta. split; [|split; [|split]]; try (vm_compute; reflexivity).
  intros a Ha. assert (a = 0 \/ a = 1 \/ a = 2) as [-> | [-> | ->]] by set_solver; vm_compute; eauto.
Qed.
