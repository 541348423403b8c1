(** * C52: solve on a branch, read the result from the whole tree *)
From Coq Require Import String NArith ZArith Floats.SpecFloat.
From stdpp Require Import gmap.
From Verif Require Import Scalar ScalarF Geometry Joint Link Prog NodeM ChainM FuncsM IkM RunLemmas
  SpecJoint SpecNode SpecGraph GraphProofs LinkProofs SpecChain ChainProofs SpecFK FKProofs SpecIk IkProofs IkProofs2
  Ex PropGraph PropChain PropFK PropIk.

Section End.
  Context {T : Type} `{Sc : Scalar T}.
  Implicit Types (h : gmap nat (node T)).
  Lemma frozen_parents h h' : frozen h h' -> same_parents h h'.
  Proof.
    intros H a. specialize (H a). destruct (h' !! a) as [n'|], (h !! a) as [n|]; cbn in *; try congruence.
    apply Some_inj, bare_eq in H. destruct H as (_ & _ & _ & _ & _ & H & _). congruence.
  Qed.
  Lemma frozen_children h h' : frozen h h' -> forall a, n_children <$> h' !! a = n_children <$> h !! a.
  Proof.
    intros H a. specialize (H a). destruct (h' !! a) as [n'|], (h !! a) as [n|]; cbn in *; try congruence.
    apply Some_inj, bare_eq in H. destruct H as (_ & _ & _ & _ & _ & _ & H & _). congruence.
  Qed.
  Lemma only_moved_frozen m h h' : only_moved m h h' -> frozen h h'.
  Proof. intros [H _]. apply frozen_heaps. assumption. Qed.

  (** what a caller does: chain to the end node, chain of the whole tree, solve,
      update the tree, read the world transform of the end node *)
  Definition solve_and_read ovf (la : linalg T) (sv : solver T) fuel (root e : nat) (target : iso T) (c : constraints)
      : prog T (result T unit * option (iso T)) :=
    tree <- from_root fuel root ;; arm <- from_end fuel e ;;
    r <- solve_with_constraints ovf la sv arm target c ;;
    update_transforms tree ;;;
    w <- node_world_transform e ;;
    Ret (r, w).

  Lemma solve_and_read_lemma {OL : OrdLaws T} t ovf la sv fuel h nx tr e l target c o s :
    forest h -> tree_in h tr -> no_parent h (troot tr) -> e ∈ preorder_last tr -> path_up h e l ->
    tsize tr < fuel -> length l < fuel ->
    limits_ok h l -> inside_limits h l ->
    run t (solve_and_read ovf la sv fuel (troot tr) e target c) (quiet h nx) = Done (Ok tt, o) s ->
    exists w, o = Some w /\ on_target sv c target w.
  Proof.
    intros Hfo Htr Hroot He Hp Hf1 Hf2 Hlim Hin E. unfold solve_and_read in E.
    destruct (run_from_root t h nx tr fuel Htr Hf1) as (tree & Htree & Hct). rewrite run_bind, Htree in E. cbn [obind] in E.
    destruct (run_from_end t h nx e l fuel Hp Hf2) as (arm & Harm & Hca). rewrite run_bind, Harm in E. cbn [obind] in E.
    apply run_bind_inv in E as (r & s1 & Es & E).
    pose proof Hca as (Hna & Hma & _). pose proof Hct as (Hnt & _ & _).
    assert (Hsub : forall a, a ∈ c_movable arm -> a ∈ l).
    { intros a Ha. rewrite Hma in Ha. apply elem_of_list_In, filter_In in Ha as [Ha _]. apply in_rev in Ha.
      apply elem_of_list_In. assumption. }
    assert (Hlive : all_live h (c_nodes arm)).
    { rewrite Hna. apply all_live_rev. eapply path_all_live; eauto. }
    assert (Hr : r = Ok tt).
    { apply run_bind_inv in E as (ws & s2 & _ & E). apply run_bind_inv in E as (w & s3 & _ & E). injection E. auto. }
    subst r. apply C31_ok_means_on_target in Es as (h' & w & -> & Hw & Hon & Hmv);
      [|rewrite Hna; assumption|assumption|intros a n Ha; apply Hlim; auto|intros a n Ha; apply Hin; auto].
    pose proof (only_moved_frozen _ _ _ Hmv) as Hfz. pose proof (frozen_parents _ _ Hfz) as Hsp.
    assert (Hlt : all_live h' (c_nodes tree)).
    { rewrite Hnt. eapply frozen_live; [exact Hfz|]. apply tree_all_live. assumption. }
    assert (Hpf : parents_first h' (c_nodes tree)).
    { rewrite Hnt. eapply same_parents_pf; [exact Hsp|]. apply from_root_parents_first; assumption. }
    destruct (update_transforms_lemma t h' nx tree Hlt Hpf) as (ws & h'' & Hu & Hws & Hch & _).
    rewrite run_bind, Hu in E. cbn [obind] in E.
    assert (Hpe : path_up h' e l) by (eapply same_parents_path; eauto).
    destruct (end_transform_lemma t h' nx arm e l Hpe Hna) as (w' & _ & _ & Hw' & _ & _ & Hworld).
    assert (w' = w) as -> by (rewrite Hw' in Hw; congruence).
    assert (Hee : e ∈ c_nodes tree) by (rewrite Hnt; assumption).
    apply elem_of_list_lookup in Hee as (i & Hi).
    destruct (Forall2_lookup_l _ _ _ _ _ Hws Hi) as (w2 & Hi2 & Hw2).
    destruct (Forall2_lookup_lr _ _ _ _ _ _ Hch Hi Hi2) as (n & n' & _ & Hn' & Hwt).
    assert (w2 = w) as -> by (eapply world_fun; eauto).
    unfold node_world_transform in E. rewrite run_bind in E. unfold quiet in E.
    rewrite (run_read t e _ h'' nx ∅ n' Hn' (lookup_empty _)) in E. cbn [obind run] in E.
    destruct Hwt as (Hc & _). rewrite Hc in E. exists w. split; [|assumption].
    apply (f_equal (fun o => match o with Done x _ => Some (snd x) | _ => None end)) in E. cbn [snd] in E. congruence.
  Qed.
End End.

(** C52, for every scalar arithmetic with the laws of IEEE comparisons, every linear
    algebra, and any tree. *)
Theorem C52_end_to_end {T} `{Scalar T} `{!OrdLaws T} t ovf (la : linalg T) (sv : solver T) fuel
    (h : gmap nat (node T)) nx tr e l target c o s :
  forest h -> tree_in h tr -> no_parent h (troot tr) -> e ∈ preorder_last tr -> path_up h e l ->
  tsize tr < fuel -> length l < fuel ->
  limits_ok h l -> inside_limits h l ->
  run t (tree <- from_root fuel (troot tr) ;; arm <- from_end fuel e ;;
         r <- solve_with_constraints ovf la sv arm target c ;;
         update_transforms tree ;;; w <- node_world_transform e ;; Ret (r, w)) (quiet h nx) = Done (Ok tt, o) s ->
  exists w, o = Some w /\ on_target sv c target w.
Proof. exact (solve_and_read_lemma t ovf la sv fuel h nx tr e l target c o s). Qed.
Print Assumptions C52_end_to_end.

(** checking [forest] of a concrete heap by computation: children have larger
    addresses than their parents *)
Definition forestb {T} (h : gmap nat (node T)) : bool :=
  forallb (fun an =>
    bool_decide (NoDup (n_children an.2)) &&
    forallb (fun c => match h !! c with Some cn => bool_decide (n_parent cn = Some an.1) | None => false end) (n_children an.2) &&
    match n_parent an.2 with
    | Some p => bool_decide (p < an.1) &&
        match h !! p with Some pn => bool_decide (an.1 ∈ n_children pn) | None => false end
    | None => true
    end) (map_to_list h).
Lemma forestb_sound {T} (h : gmap nat (node T)) : forestb h = true -> forest h.
Proof.
  unfold forestb. rewrite forallb_forall. intros H.
  assert (Hat : forall a n, h !! a = Some n ->
    NoDup (n_children n) /\ (forall c, c ∈ n_children n -> has_parent h c a) /\
    (forall p, n_parent n = Some p -> p < a /\ lists_child h p a)).
  { intros a n Hn. assert (Hin : In (a, n) (map_to_list h)) by (apply elem_of_list_In, elem_of_map_to_list; exact Hn).
    specialize (H _ Hin). cbn in H. apply andb_prop in H as [H H3]. apply andb_prop in H as [H1 H2].
    apply bool_decide_eq_true in H1. rewrite forallb_forall in H2. split; [assumption|]. split.
    - intros c Hc. apply elem_of_list_In, H2 in Hc. destruct (h !! c) as [cn|] eqn:E; [|discriminate].
      apply bool_decide_eq_true in Hc. exists cn. auto.
    - intros p Hp. rewrite Hp in H3. apply andb_prop in H3 as [H3 H4]. apply bool_decide_eq_true in H3. split; [assumption|].
      destruct (h !! p) as [pn|] eqn:E; [|discriminate]. apply bool_decide_eq_true in H4. exists pn. auto. }
  assert (Hlt : forall a b, tc (has_parent h) a b -> b < a).
  { induction 1 as [a b (n & Hn & Hp)|a b c (n & Hn & Hp) Hr IH].
    - apply (Hat a n Hn). assumption.
    - assert (b < a) by (apply (Hat a n Hn); assumption). lia. }
  constructor.
  - intros p c. split.
    + intros (n & Hn & Hc). apply (Hat p n Hn). assumption.
    + intros (n & Hn & Hp). apply (Hat c n Hn). assumption.
  - intros p n Hn. apply (Hat p n Hn).
  - intros c p (n & Hn & Hp). destruct (Hat c n Hn) as (_ & _ & Hx). destruct (Hx p Hp) as (_ & m & Hm & _). eauto.
  - intros a Ha. apply Hlt in Ha. lia.
Qed.
(** a tree with two branches; the solver moves the joint of one of them *)
Definition mast : prog spec_float unit :=
  a <- node_new (fix_ "base") ;; b <- node_new (lin "lift" 0 10) ;;
  c <- node_new (rot "flag") ;; d <- node_new (fix_at "tip" (trans 0 0 2)) ;;
  node_set_parent b a ;;; node_set_parent c a ;;; node_set_parent d b.
Definition mast_tree : tree := TNode 0 [TNode 1 [TNode 3 []]; TNode 2 []].
Example C52_case : let s := after mast in let h := heap s in
  forest h /\ tree_in h mast_tree /\ path_up h 3 [3; 1; 0] /\ no_parent h 0 /\ 3 ∈ preorder_last mast_tree /\
  limits_ok h [3; 1; 0] /\ inside_limits h [3; 1; 0] /\
  (match run 0 (solve_and_read true la1 (sv1 5) 9 0 3 (up 6) (only_z [])) s with
   | Done (Ok _, Some w) _ => Some (vz (tr w)) | _ => None end) = Some (f 6).
Proof.
  cbn zeta. split; [|split; [|split; [|split; [|split; [|split; [|split]]]]]].
  - apply forestb_sound. vm_compute. reflexivity.
  - repeat first [apply tree_in_check; [vm_compute; reflexivity|] | constructor].
  - apply path_step with 1; [apply live_parent_check; vm_compute; reflexivity|].
    apply path_step with 0; [apply live_parent_check; vm_compute; reflexivity|].
    apply path_root, no_parent_check. vm_compute. reflexivity.
  - apply no_parent_check. vm_compute. reflexivity.
  - cbn. set_solver.
  - apply limits_ok_check; vm_compute; reflexivity.
  - apply inside_check; vm_compute; reflexivity.
  - vm_compute. reflexivity.
Qed.
