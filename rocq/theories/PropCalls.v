(** * C18 and C28 seen from a client: what is read after an update *)
From Coq Require Import String Lia Floats.SpecFloat.
From stdpp Require Import gmap.
From Verif Require Import Scalar ScalarF Geometry Joint Link Prog NodeM ChainM RunLemmas Api SpecNode SpecGraph GraphProofs SpecChain ChainProofs SpecFK FKProofs
  Ex PropGraph PropChain PropFK LinkProofs PropEnd.

Section Calls.
  Context {T : Type} `{Sc : Scalar T}.
  (** the client builds the chain of all nodes below [root], updates it, and asks node [b] *)
  Definition ask_frame (fuel root b : nat) : client T (list (iso T) * option (iso T)) :=
    Call (KFromRoot fuel root) (fun c => Call (KUpdateTransforms c) (fun ws => Call (KWorldTransform b) (fun w => Finish (ws, w)))).
  Definition ask_link (fuel root b : nat) : client T (option (link T)) :=
    Call (KFromRoot fuel root) (fun c => Call (KUpdateLinks c) (fun _ => Call (KLink b) Finish)).
  Theorem C18_client (t : nat) (h : gmap nat (node T)) nx tr fuel b w :
    forest h -> tree_in h tr -> no_parent h (troot tr) -> tsize tr < fuel -> b ∈ preorder_last tr -> world h b w ->
    exists ws h', run t (denote (ask_frame fuel (troot tr) b)) (quiet h nx) = Done (ws, Some w) (quiet h' nx) /\
      Forall2 (world h) (preorder_last tr) ws.
  Proof.
    intros Hfo Htr Hnp Hf Hb Hw. destruct (run_from_root t h nx tr fuel Htr Hf) as (c & Hr & Hc & _ & _).
    assert (Hl : all_live h (c_nodes c)) by (rewrite Hc; apply tree_all_live; assumption).
    assert (Hpf : parents_first h (c_nodes c)) by (rewrite Hc; apply from_root_parents_first; assumption).
    destruct (update_transforms_lemma t h nx c Hl Hpf) as (ws & h' & Hu & Hws & Hch & _). rewrite Hc in Hws, Hch.
    exists ws, h'. split; [|exact Hws]. cbn [ask_frame denote interp]. rewrite (run_bind_done _ _ _ _ _ _ Hr), (run_bind_done _ _ _ _ _ _ Hu).
    apply elem_of_list_lookup in Hb as (i & Hi). destruct (Forall2_lookup_l _ _ _ _ _ Hws Hi) as (w2 & Hi2 & Hw2).
    destruct (Forall2_lookup_lr _ _ _ _ _ _ Hch Hi Hi2) as (n & n' & _ & Hn' & Hwt).
    assert (w2 = w) as -> by (eapply world_fun; eauto).
    erewrite run_bind_done; [|exact (run_read t b _ h' nx ∅ n' Hn' (lookup_empty _))]. cbn. do 3 f_equal. apply Hwt.
  Qed.
  Theorem C28_client (t : nat) (h : gmap nat (node T)) nx tr fuel b n pw :
    forest h -> tree_in h tr -> no_parent h (troot tr) -> tsize tr < fuel -> b ∈ preorder_last tr -> h !! b = Some n -> parent_frame h b pw ->
    exists o h', run t (denote (ask_link fuel (troot tr) b)) (quiet h nx) = Done o (quiet h' nx) /\
      match n_link n, o with Some l, Some l' => link_placed pw l l' | None, None => True | _, _ => False end.
  Proof.
    intros Hfo Htr Hnp Hf Hb Hn Hpw. destruct (run_from_root t h nx tr fuel Htr Hf) as (c & Hr & Hc & _ & _).
    assert (Hl : all_live h (c_nodes c)) by (rewrite Hc; apply tree_all_live; assumption).
    assert (Hpf : parents_first h (c_nodes c)) by (rewrite Hc; apply from_root_parents_first; assumption).
    destruct (update_links_lemma t h nx c Hl Hpf) as (h' & Hu & Hin & _). rewrite <- Hc in Hb.
    destruct (Hin b Hb) as (n0 & n' & w & pw' & Hn0 & Hn' & _ & Hpw' & _ & Hpl). rewrite Hn in Hn0. apply Some_inj in Hn0 as <-.
    assert (pw' = pw) as -> by (eapply parent_frame_fun; eauto).
    exists (n_link n'), h'. split; [|exact Hpl]. cbn [ask_link denote interp].
    rewrite (run_bind_done _ _ _ _ _ _ Hr), (run_bind_done _ _ _ _ _ _ Hu). erewrite run_bind_done; [|exact (run_read t b _ h' nx ∅ n' Hn' (lookup_empty _))]. reflexivity.
  Qed.
End Calls.
Print Assumptions C18_client.
Print Assumptions C28_client.

(** ** Concrete case: 0 -> {1 -> {3}, 2} of [PropFK], with a link on node 1 *)
Definition fk_tree : tree := TNode 0 [TNode 1 [TNode 3 []]; TNode 2 []].
Example C28_client_case : let h := heap (after ex_fk) in
  forest h /\ tree_in h fk_tree /\ no_parent h (troot fk_tree) /\ tsize fk_tree < 9 /\ 1 ∈ preorder_last fk_tree /\
  (exists w, world h 1 w) /\ (exists pw, parent_frame h 1 pw) /\
  (o ← (fst <$> final (run 0 (denote (ask_link 9 0 1)) (after ex_fk))); l ← o; tr <$> in_wt (l_inertial l)) = Some (V3 (f 8) (f 0) (f 0)) /\
  (r ← (fst <$> final (run 0 (denote (ask_frame 9 0 1)) (after ex_fk))); tr <$> snd r) = Some (V3 (f 1) (f 2) (f 0)).
Proof.
  cbn zeta. assert (Hf : forest (heap (after ex_fk))) by (apply forestb_sound; vm_compute; reflexivity).
  assert (Ht : tree_in (heap (after ex_fk)) fk_tree).
  { repeat (econstructor; [vm_compute; reflexivity|vm_compute; reflexivity|]); repeat constructor;
    repeat (econstructor; [vm_compute; reflexivity|vm_compute; reflexivity|]); repeat constructor;
    repeat (econstructor; [vm_compute; reflexivity|vm_compute; reflexivity|]); repeat constructor. }
  assert (Hn : no_parent (heap (after ex_fk)) 0) by (apply no_parent_check; vm_compute; reflexivity).
  assert (H1 : 1 ∈ preorder_last fk_tree) by (apply (bool_decide_unpack _); vm_compute; exact I).
  destruct C18_case_hypotheses as (Hl & Hpf & _).
  split; [exact Hf|]. split; [exact Ht|]. split; [exact Hn|]. split; [cbn; lia|]. split; [exact H1|]. 
  destruct (update_links_lemma 0 (heap (after ex_fk)) 4 c1 Hl Hpf) as (h' & _ & Hin & _).
  destruct (Hin 1 ltac:(cbn; set_solver)) as (n0 & n' & w & pw & _ & _ & Hw & Hpw & _).
  split; [eauto|]. split; [eauto|]. split; vm_compute; reflexivity.
Qed.
