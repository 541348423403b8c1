(** * C23, C24, C25: cloning a chain *)
From Coq Require Import String ZArith Floats.SpecFloat.
From stdpp Require Import gmap.
From Verif Require Import Scalar ScalarF Geometry Joint Link Prog NodeM ChainM FuncsM IkM RunLemmas SpecJoint SpecNode SpecGraph GraphProofs
  SpecChain ChainProofs Api SpecHist HistProofs SpecClone CloneProofs CloneProofs2 CloneProofs3 CloneProofs4 Ex ExApi PropNode PropGraph PropChain PropEnd.

(** C23.  When [Chain::clone] returns, every handle of the clone is to a node
    that did not exist before, a node made by the call mentions (as child, parent,
    mimic child or mimic parent) only nodes made by the call, and every node that
    existed before is as it was. *)
Theorem C23_clone_is_fresh {T} `{Scalar T} (t : nat) (h : gmap nat (node T)) nx c fuel c' s' :
  heap_ok h nx -> all_live h (c_nodes c) -> run t (chain_clone fuel c) (quiet h nx) = Done c' s' ->
  exists h' nx', s' = quiet h' nx' /\ heap_ok h' nx' /\
    (forall a n, h !! a = Some n -> h' !! a = Some n) /\
    (forall b, b ∈ chain_handles c' -> created h h' b) /\
    (forall b n', created h h' b -> h' !! b = Some n' -> mentions_only (created h h') n').
Proof. exact (clone_fresh_lemma t h nx c fuel c' s'). Qed.
Print Assumptions C23_clone_is_fresh.

(** C23.  Afterwards no client program [cl] that starts with handles to nodes of
    the clone only changes a node of the original ... *)
Theorem C23_using_the_clone {T} `{Scalar T} {A} (t : nat) (h : gmap nat (node T)) nx c fuel c' s' (cl : client T A) :
  heap_ok h nx -> all_live h (c_nodes c) -> run t (chain_clone fuel c) (quiet h nx) = Done c' s' ->
  obeys any_call (fun _ => []) (created h (heap s')) cl ->
  forall s'', final_state (run t (denote cl) s') = Some s'' ->
  forall a n, h !! a = Some n -> heap s'' !! a = Some n.
Proof. intros Hok Hl Hr. apply (clone_independent_lemma t h nx c fuel c' s' cl Hok Hl Hr). Qed.
Print Assumptions C23_using_the_clone.
(** ... and none that starts with handles to the nodes that existed before the
    call changes a node of the clone. *)
Theorem C23_using_the_original {T} `{Scalar T} {A} (t : nat) (h : gmap nat (node T)) nx c fuel c' s' (cl : client T A) :
  heap_ok h nx -> all_live h (c_nodes c) -> run t (chain_clone fuel c) (quiet h nx) = Done c' s' ->
  obeys any_call (fun _ => []) (alive h) cl ->
  forall s'', final_state (run t (denote cl) s') = Some s'' ->
  forall b n, created h (heap s') b -> heap s' !! b = Some n -> heap s'' !! b = Some n.
Proof. intros Hok Hl Hr. apply (clone_independent_lemma t h nx c fuel c' s' cl Hok Hl Hr). Qed.
Print Assumptions C23_using_the_original.

(** C24.  Cloning the chain of a tree (what [Chain::from_root] makes of its root):
    [f] maps the nodes onto the nodes of the clone, preserving joint, link, parent
    and mimic relation, and turning every child list around.  The clone lists the
    copies in the first-child-first order; it has as many nodes and as many degrees of freedom. *)
Theorem C24_isomorphic_copy {T} `{Scalar T} (t : nat) (h : gmap nat (node T)) nx tr c fuel :
  heap_ok h nx -> forest h -> tree_in h tr -> (forall n, h !! troot tr = Some n -> n_parent n = None) ->
  (forall a m, a ∈ preorder_last tr -> live_mimic_parent h a m -> m ∈ preorder_last tr) ->
  mimics_complete h (preorder_last tr) -> chain_of h (preorder_last tr) c -> tsize tr < fuel ->
  exists c' h' nx' f, run t (chain_clone fuel c) (quiet h nx) = Done c' (quiet h' nx') /\
    copy_by f h h' (preorder_last tr) /\ chain_of h' (map f (preorder_first tr)) c' /\
    length (c_nodes c') = length (c_nodes c) /\ c_dof c' = c_dof c.
Proof.
  intros Hok Hf Ht Hr Hm Hmc Hc Hfu.
  destruct (clone_tree_lemma t h nx tr c fuel Hok Hf Ht Hr Hm Hmc Hc Hfu) as (c' & h' & f & H1 & H2 & H3 & H4 & H5 & _). eauto 10.
Qed.
Print Assumptions C24_isomorphic_copy.

(** C24.  Without branching the clone reports the same positions, in the same order. *)
Theorem C24_unbranched_positions {T} `{Scalar T} (t : nat) (h : gmap nat (node T)) nx tr c fuel :
  heap_ok h nx -> forest h -> tree_in h tr -> (forall n, h !! troot tr = Some n -> n_parent n = None) ->
  (forall a m, a ∈ preorder_last tr -> live_mimic_parent h a m -> m ∈ preorder_last tr) ->
  mimics_complete h (preorder_last tr) -> chain_of h (preorder_last tr) c -> tsize tr < fuel ->
  unbranched h (preorder_last tr) ->
  exists c' s' ps, run t (chain_clone fuel c) (quiet h nx) = Done c' s' /\
    run t (joint_positions c) (quiet h nx) = Done ps (quiet h nx) /\
    run t (joint_positions c') s' = Done ps s'.
Proof.
  intros Hok Hf Ht Hr Hm Hmc Hc Hfu Hu.
  destruct (clone_tree_lemma t h nx tr c fuel Hok Hf Ht Hr Hm Hmc Hc Hfu) as (c' & h' & f & H1 & H2 & H3 & _).
  rewrite (unbranched_order h tr Ht Hu) in H3.
  destruct (same_joints_same_positions t h nx _ c h' (nx + length (c_nodes c)) _ c' Hc H3) as (ps & P1 & P2).
  { symmetry. apply (copy_joints f h h' (preorder_last tr)); [exact H2|apply tree_all_live; exact Ht|auto]. }
  eauto 10.
Qed.
Print Assumptions C24_unbranched_positions.

(** C24.  Cloning twice restores the order of the joints and of the positions. *)
Theorem C24_twice {T} `{Scalar T} (t : nat) (h : gmap nat (node T)) nx tr c fuel :
  heap_ok h nx -> forest h -> tree_in h tr -> (forall n, h !! troot tr = Some n -> n_parent n = None) ->
  (forall a m, a ∈ preorder_last tr -> live_mimic_parent h a m -> m ∈ preorder_last tr) ->
  mimics_complete h (preorder_last tr) -> chain_of h (preorder_last tr) c -> tsize tr < fuel ->
  exists c' s' c'' s'' ps, run t (chain_clone fuel c) (quiet h nx) = Done c' s' /\
    run t (chain_clone fuel c') s' = Done c'' s'' /\
    map (joint_of (heap s'')) (c_nodes c'') = map (joint_of h) (c_nodes c) /\
    run t (joint_positions c) (quiet h nx) = Done ps (quiet h nx) /\
    run t (joint_positions c'') s'' = Done ps s''.
Proof.
  intros Hok Hf Ht Hr Hm Hmc Hc Hfu.
  destruct (clone_tree_lemma t h nx tr c fuel Hok Hf Ht Hr Hm Hmc Hc Hfu)
    as (c' & h' & g & H1 & H2 & H3 & _ & _ & H6 & H7 & H8 & H9 & H10 & H11).
  assert (Eo : preorder_last (rename g (mirror tr)) = map g (preorder_first tr)) by (rewrite rename_last, mirror_order; reflexivity).
  assert (Hl : all_live h (preorder_last tr)) by (apply tree_all_live; exact Ht).
  assert (Hr' : forall n, h' !! troot (rename g (mirror tr)) = Some n -> n_parent n = None).
  { intros n' Hn'. rewrite troot_rename, troot_mirror in Hn'.
    assert (Hin : troot tr ∈ preorder_last tr) by (destruct tr; cbn; set_solver). destruct (Hl _ Hin) as [n Hn].
    destruct (cb_node _ _ _ _ H2 _ n Hin Hn) as (n2 & Hn2 & _ & _ & Hp & _). assert (n' = n2) as -> by congruence.
    rewrite Hp, (Hr n Hn). reflexivity. }
  rewrite <- Eo in H10, H11, H3.
  destruct (clone_tree_lemma t h' _ _ c' fuel H6 H7 H8 Hr' H10 H11 H3 ltac:(rewrite H9; exact Hfu))
    as (c'' & h'' & g' & G1 & G2 & G3 & _).
  assert (Hl' : all_live h' (preorder_last (rename g (mirror tr)))) by (apply tree_all_live; exact H8).
  rewrite rename_first, mirror_order2 in G3.
  assert (Ej : map (joint_of h'') (map g' (map g (preorder_last tr))) = map (joint_of h) (preorder_last tr)).
  { rewrite (copy_joints g' h' h'' (preorder_last (rename g (mirror tr)))); [|exact G2|exact Hl'|].
    - apply (copy_joints g h h' (preorder_last tr)); auto.
    - intros a Ha. rewrite Eo. rewrite (preorder_perm tr). exact Ha. }
  destruct (same_joints_same_positions t h nx _ c h'' (nx + length (c_nodes c) + length (c_nodes c')) _ c'' Hc G3) as (ps & P1 & P2); [symmetry; exact Ej|].
  exists c', (quiet h' (nx + length (c_nodes c))), c'', (quiet h'' (nx + length (c_nodes c) + length (c_nodes c'))), ps.
  split; [exact H1|]. split; [exact G1|]. split; [|auto].
  destruct Hc as [-> _], G3 as [-> _]. exact Ej.
Qed.
Print Assumptions C24_twice.

(** C25.  An empty chain gives an empty chain. *)
Theorem C25_empty {T} `{Scalar T} (t : nat) (s : sh T) fuel c : c_nodes c = [] ->
  run t (chain_clone fuel c) s = Done (Chain [] [] 0) s.
Proof. intros E. unfold chain_clone. rewrite E. reflexivity. Qed.
Print Assumptions C25_empty.
(** C25.  It panics if the first node has a parent link, if a live parent or
    live mimic parent is not in the chain, or if a node has a live mimic parent
    without a [Mimic] ... *)
Theorem C25_panics {T} `{Scalar T} (t : nat) (h : gmap nat (node T)) nx c fuel :
  heap_ok h nx -> all_live h (c_nodes c) -> c_nodes c <> [] ->
  ~ (starts_at_root h (c_nodes c) /\ self_contained h (c_nodes c) /\ mimics_complete h (c_nodes c)) ->
  exists m s, run t (chain_clone fuel c) (quiet h nx) = Panicked m s.
Proof. exact (clone_panics_lemma t h nx c fuel). Qed.
Print Assumptions C25_panics.
(** ... and otherwise returns. *)
Theorem C25_returns {T} `{Scalar T} (t : nat) (h : gmap nat (node T)) nx c :
  heap_ok h nx -> all_live h (c_nodes c) ->
  starts_at_root h (c_nodes c) -> self_contained h (c_nodes c) -> mimics_complete h (c_nodes c) ->
  exists f0, forall fuel, f0 <= fuel -> exists c' s', run t (chain_clone fuel c) (quiet h nx) = Done c' s'.
Proof. exact (clone_returns_lemma t h nx c). Qed.
Print Assumptions C25_returns.
(** C25.  For example: a chain cut out by [from_end_to_root] below the real root cannot be cloned. *)
Theorem C25_cut_chain_panics {T} `{Scalar T} (t : nat) (h : gmap nat (node T)) nx e l1 r l2 p fuel fuel2 :
  heap_ok h nx -> path_up h e (l1 ++ r :: l2) -> length (l1 ++ r :: l2) < fuel -> live_parent h r p ->
  exists m s, run t (c <- from_end_to_root fuel e r ;; chain_clone fuel2 c) (quiet h nx) = Panicked m s.
Proof.
  intros Hok Hp Hfu Hr. destruct (run_from_end_to_root t h nx e r _ fuel Hp Hfu) as (c & Hc & Hof & _).
  specialize (Hof l1 l2 eq_refl). rewrite run_bind, Hc. cbn [obind]. destruct Hof as (En & _). rewrite rev_app_distr in En. cbn in En.
  apply clone_panics_lemma; [exact Hok| |rewrite En; discriminate|].
  - rewrite En. intros a Ha. apply (path_all_live h e _ Hp). apply elem_of_cons in Ha as [->|Ha]; [set_solver|].
    apply elem_of_list_In, in_rev, elem_of_list_In in Ha. set_solver.
  - rewrite En. intros [H1 _]. destruct Hr as [(n & Hn & Hpn) _]. rewrite (H1 r n eq_refl Hn) in Hpn. discriminate.
Qed.
Print Assumptions C25_cut_chain_panics.

(** ** Concrete cases.  0 -> {1 -> {3, 4}, 2}, and 2 follows 1 (mimic). *)
Definition clone_tree : tree := TNode 0 [TNode 1 [TNode 3 []; TNode 4 []]; TNode 2 []].
Definition clone_build : prog spec_float unit :=
  node_new (fix_ "r") ;;; node_new (lin "a" 0 10) ;;; node_new (lin "b" 0 10) ;;; node_new (lin "c" 0 10) ;;; node_new (rot "d") ;;;
  node_set_parent 1 0 ;;; node_set_parent 2 0 ;;; node_set_parent 3 1 ;;; node_set_parent 4 1 ;;;
  node_set_joint_position 3 (f 5) ;;; node_set_mimic_parent 2 1 (Mimic (f 2) (f 1)) ;;; node_set_joint_position 1 (f 3) ;;; Ret tt.
Definition hc : gmap nat (node spec_float) := heap (after clone_build).
Definition cc : chain := Chain [0; 2; 1; 4; 3] [2; 1; 4; 3] 4.
Lemma hc_ok : heap_ok hc 5. Proof. apply heap_okb_sound. vm_compute. reflexivity. Qed.
Lemma hc_forest : forest hc. Proof. apply forestb_sound. vm_compute. reflexivity. Qed.
Lemma hc_tree : tree_in hc clone_tree.
Proof. repeat (econstructor; [vm_compute; reflexivity|reflexivity|]); repeat constructor; repeat (econstructor; [vm_compute; reflexivity|reflexivity|repeat constructor]). Qed.
Lemma hc_chain : chain_of hc (preorder_last clone_tree) cc.
Proof. unfold chain_of. vm_compute. repeat split. Qed.
Lemma hc_live_mimic a m : live_mimic_parent hc a m -> a = 2 /\ m = 1.
Proof.
  intros (n & Hn & Hm & _). assert (Ha : a < 5) by (apply (hk_bound _ _ hc_ok); eauto).
  destruct a as [|[|[|[|[|a]]]]]; [..|lia]; vm_compute in Hn; injection Hn as <-; vm_compute in Hm; try discriminate. injection Hm as <-. auto.
Qed.
(** the hypotheses of C24 hold, and so do those of C23 and C25 *)
Example C24_case : heap_ok hc 5 /\ forest hc /\ tree_in hc clone_tree /\
  (forall n, hc !! troot clone_tree = Some n -> n_parent n = None) /\
  (forall a m, a ∈ preorder_last clone_tree -> live_mimic_parent hc a m -> m ∈ preorder_last clone_tree) /\
  mimics_complete hc (preorder_last clone_tree) /\ chain_of hc (preorder_last clone_tree) cc /\ tsize clone_tree < 9.
Proof.
  split; [exact hc_ok|]. split; [exact hc_forest|]. split; [exact hc_tree|]. split.
  { intros n Hn. vm_compute in Hn. injection Hn as <-. reflexivity. }
  split. { intros a m _ Hm. apply hc_live_mimic in Hm as [_ ->]. clear. vm_compute. set_solver. }
  split. { intros a n m _ Hn Hm. apply hc_live_mimic in Hm as [-> _]. vm_compute in Hn. injection Hn as <-. eexists. reflexivity. }
  split; [exact hc_chain|vm_compute; lia].
Qed.
(** the clone 5..9 is in the order 0 1 3 4 2 of the original, its nodes 6 and 9 listing mimicry as 1 and 2 did *)
Example C23_case : 
  (fst <$> final (run 0 (chain_clone 9 cc) (quiet hc 5))) = Some (Chain [5; 7; 9; 8; 6] [7; 9; 8; 6] 4) /\
  (fst <$> final (run 0 (c <- chain_clone 9 cc ;; ps <- joint_positions c ;; qs <- joint_positions cc ;; Ret (ps, qs)) (quiet hc 5)))
    = Some ([f 3; f 5; f 0; f 7], [f 7; f 3; f 0; f 5]).
Proof. vm_compute. repeat split. Qed.
(** a client using the clone: it obeys, so the original stays as it was *)
Example C23_case_client : forall c' s', run 0 (chain_clone 9 cc) (quiet hc 5) = Done c' s' ->
  c_nodes c' = [5; 7; 9; 8; 6] ->
  obeys any_call (fun _ : unit => []) (created hc (heap s'))
    (Call (KSetPositions c' [f 1; f 1; f 1; f 1]) (fun _ => Call (KSetParent 6 9) (fun _ => Finish tt))).
Proof.
  intros c' s' Hrun E1. assert (Hl : all_live hc (c_nodes cc)) by (apply (tree_all_live hc clone_tree hc_tree)).
  destruct (C23_clone_is_fresh 0 hc 5 cc 9 c' s' hc_ok Hl Hrun) as (h' & nx' & -> & _ & _ & Hcr & _).
  cbn [heap quiet]. cbn [obeys]. split; [exact I|]. split; [exact Hcr|]. intros r.
  split; [exact I|]. cbn [args]. split; [|intros r2 a Ha; inversion Ha].
  intros a Ha. left. apply Hcr. unfold chain_handles. rewrite E1. clear -Ha. set_solver.
Qed.

(** C24: for branching chains [clone.joint_positions() == chain.joint_positions()] is false *)
Theorem C24_branching_positions_refuted :
  ~ forall (h : gmap nat (node spec_float)) nx tr c fuel c' s' ps ps',
      heap_ok h nx -> forest h -> tree_in h tr -> (forall n, h !! troot tr = Some n -> n_parent n = None) ->
      (forall a m, a ∈ preorder_last tr -> live_mimic_parent h a m -> m ∈ preorder_last tr) ->
      mimics_complete h (preorder_last tr) -> chain_of h (preorder_last tr) c -> tsize tr < fuel ->
      run 0 (chain_clone fuel c) (quiet h nx) = Done c' s' ->
      run 0 (joint_positions c) (quiet h nx) = Done ps (quiet h nx) ->
      run 0 (joint_positions c') s' = Done ps' s' -> ps = ps'.
Proof.
  intros H. destruct C24_case as (K1 & K2 & K3 & K4 & K5 & K6 & K7 & K8).
  destruct (C24_isomorphic_copy 0 hc 5 clone_tree cc 9 K1 K2 K3 K4 K5 K6 K7 K8) as (c' & h' & nx' & g & R1 & _ & Hc' & _).
  destruct (run_joint_positions 0 hc hc 5 cc _ K7 (types_kept_refl hc)) as (ps & R2 & _).
  destruct (run_joint_positions 0 h' h' nx' c' _ Hc' (types_kept_refl h')) as (ps' & R3 & _).
  specialize (H hc 5 clone_tree cc 9 c' _ ps ps' K1 K2 K3 K4 K5 K6 K7 K8 R1 R2 R3). subst ps'.
  destruct C23_case as [_ E]. rewrite run_bind, R1 in E. cbn [obind] in E. rewrite run_bind, R3 in E. cbn [obind] in E.
  rewrite run_bind in E. 
  assert (R4 : run 0 (joint_positions cc) (quiet h' nx') = Done ps (quiet h' nx')).
  { destruct (C23_clone_is_fresh 0 hc 5 cc 9 c' _ K1 ltac:(intros a Ha; apply (tree_all_live hc clone_tree hc_tree); exact Ha) R1) as (h1 & nx1 & Es & _ & Hold & _).
    injection Es as <- <-.
    destruct (run_joint_positions 0 hc h' nx' cc _ K7) as (ps1 & Q1 & _ & Q2).
    { intros a n Hn. exists n. split; [apply Hold; exact Hn|reflexivity]. }
    destruct (run_joint_positions 0 hc hc 5 cc _ K7 (types_kept_refl hc)) as (ps2 & Q3 & _ & Q4).
    assert (ps2 = ps) as -> by congruence. rewrite Q1. f_equal.
    assert (map Some ps1 = map Some ps) as Em.
    { rewrite Q2, Q4. apply map_ext_in. intros a Ha. unfold position_at. destruct (K3). 
      assert (Hal : is_Some (hc !! a)). { apply (tree_all_live hc clone_tree hc_tree). apply elem_of_list_In in Ha. clear -Ha. revert Ha. vm_compute. set_solver. }
      destruct Hal as [n2 Hn2]. rewrite Hn2, (Hold a n2 Hn2). reflexivity. }
    clear -Em. revert ps Em. induction ps1 as [|x l IH]; intros [|y l'] E; cbn in E; try discriminate; [reflexivity|]. injection E as -> E. f_equal; auto. }
  rewrite R4 in E. cbn in E. vm_compute in E. congruence.
Qed.
Print Assumptions C24_branching_positions_refuted.

(** an unbranched chain: 0 -> 1 -> 2 *)
Definition line_build : prog spec_float unit :=
  node_new (fix_ "r") ;;; node_new (lin "a" 0 10) ;;; node_new (lin "b" 0 10) ;;; node_set_parent 1 0 ;;; node_set_parent 2 1 ;;; node_set_joint_position 2 (f 5) ;;; Ret tt.
Example C24_unbranched_case : unbranched (heap (after line_build)) (preorder_last (TNode 0 [TNode 1 [TNode 2 []]])) /\
  tree_in (heap (after line_build)) (TNode 0 [TNode 1 [TNode 2 []]]).
Proof.
  split.
  - intros a n Ha Hn. cbn in Ha. repeat (apply elem_of_cons in Ha as [->|Ha]; [vm_compute in Hn; injection Hn as <-; vm_compute; lia|]). set_solver.
  - repeat (econstructor; [vm_compute; reflexivity|reflexivity|]; repeat constructor).
Qed.
(** C25: cloning the chain 1 -> 3 of the tree panics, and so does cloning the chain [0; 2], whose node 2 follows 1 *)
Definition panics {T A} (o : outcome T A) : bool := match o with Panicked _ _ => true | _ => false end.
Example C25_case :
  panics (run 0 (c <- from_end_to_root 9 3 1 ;; chain_clone 9 c) (quiet hc 5)) = true /\
  panics (run 0 (c <- from_end 9 2 ;; chain_clone 9 c) (quiet hc 5)) = true /\
  panics (run 0 (c <- from_end 9 3 ;; chain_clone 9 c) (quiet hc 5)) = false /\
  path_up hc 3 ([3] ++ 1 :: [0]) /\ live_parent hc 1 0.
Proof.
  assert (Hp : forall a p, par hc a = Some p -> live_parent hc a p) by (intros a p; apply par_iff).
  split; [vm_compute; reflexivity|]. split; [vm_compute; reflexivity|]. split; [vm_compute; reflexivity|].
  split; [|apply Hp; vm_compute; reflexivity].
  apply path_step with (p := 1); [apply Hp; vm_compute; reflexivity|]. apply path_step with (p := 0); [apply Hp; vm_compute; reflexivity|].
  apply path_root. split; [eexists; vm_compute; reflexivity|]. intros p Hl. apply par_iff in Hl. vm_compute in Hl. discriminate.
Qed.
