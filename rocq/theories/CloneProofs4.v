(** * Cloning: the lemmas behind the properties *)
From Coq Require Import String.
From stdpp Require Import gmap.
From Verif Require Import Scalar Geometry Joint Link Prog NodeM ChainM FuncsM IkM RunLemmas SpecJoint SpecNode JointProofs NodeProofs
  SpecGraph GraphProofs SpecChain ChainProofs Safe SafeSound SafeNode SafeChain Api ApiProofs ApiSound SpecHist HistProofs SpecClone CloneProofs CloneProofs2 CloneProofs3.

Section CloneProofs4.
  Context {T : Type} `{Sc : Scalar T}.
  Implicit Types (h : gmap nat (node T)).

  Lemma run_from_root_inv t h nx fuel a c s : run t (from_root fuel a) (quiet h nx) = Done c s ->
    s = quiet h nx /\ exists tr, troot tr = a /\ tree_in h tr /\ chain_of h (preorder_last tr) c.
  Proof.
    intros H. unfold from_root in H. apply run_bind_inv in H as (l & s1 & H1 & H2).
    apply run_descendants_inv_lemma in H1 as (-> & tr & Hr & Ht & ->). apply run_from_nodes_inv in H2 as (-> & Hc & _). eauto.
  Qed.

  (** ** C25 *)
  Lemma clone_panics_lemma t h nx c fuel : heap_ok h nx -> all_live h (c_nodes c) -> c_nodes c <> [] ->
    ~ (starts_at_root h (c_nodes c) /\ self_contained h (c_nodes c) /\ mimics_complete h (c_nodes c)) ->
    exists m s, run t (chain_clone fuel c) (quiet h nx) = Panicked m s.
  Proof.
    intros Hok Hl Hne Hno. destruct (c_nodes c) as [|a0 l'] eqn:El; [congruence|]. rewrite <- El in *.
    destruct (clone_cases t h nx c a0 l' Hok Hl El) as [(H1 & H2 & H3 & _)|[_ H]]; [tauto|apply H].
  Qed.
  Lemma clone_returns_lemma t h nx c : heap_ok h nx -> all_live h (c_nodes c) ->
    starts_at_root h (c_nodes c) -> self_contained h (c_nodes c) -> mimics_complete h (c_nodes c) ->
    exists f0, forall fuel, f0 <= fuel -> exists c' s', run t (chain_clone fuel c) (quiet h nx) = Done c' s'.
  Proof.
    intros Hok Hl H1 H2 H3. destruct (c_nodes c) as [|a0 l'] eqn:El.
    - exists 0. intros fuel _. unfold chain_clone. rewrite El. cbn. eauto.
    - rewrite <- El in *. destruct (clone_cases t h nx c a0 l' Hok Hl El) as [(_ & _ & _ & h2 & Hh & Hrun)|[Hno _]]; [|tauto].
      destruct (after_tree h h2 nx (c_nodes c) Hl Hh H1) as (tr & Hr & Ht); [rewrite El; discriminate|].
      exists (S (tsize tr)). intros fuel Hfu. destruct (run_from_root t h2 (nx + length (c_nodes c)) tr fuel Ht Hfu) as (c' & Hc' & _).
      rewrite Hr in Hc'. exists c'. rewrite Hrun, Hc'. eauto.
  Qed.

  (** ** C23 *)
  Lemma clone_done_cases t h nx c fuel c' s' : heap_ok h nx -> all_live h (c_nodes c) ->
    run t (chain_clone fuel c) (quiet h nx) = Done c' s' ->
    (c_nodes c' = [] /\ c_movable c' = [] /\ s' = quiet h nx) \/
    exists h2, is_heap h nx (c_nodes c) (length (c_nodes c)) (length (c_nodes c)) (length (c_nodes c)) h2 /\
      s' = quiet h2 (nx + length (c_nodes c)) /\ exists tr, troot tr = nx /\ tree_in h2 tr /\ chain_of h2 (preorder_last tr) c'.
  Proof.
    intros Hok Hl Hrun. destruct (c_nodes c) as [|a0 l'] eqn:El.
    - left. unfold chain_clone in Hrun. rewrite El in Hrun. cbn in Hrun. injection Hrun as <- <-. auto.
    - right. rewrite <- El in *. destruct (clone_cases t h nx c a0 l' Hok Hl El) as [(_ & _ & _ & h2 & Hh & Hrun2)|[_ Hp]].
      + exists h2. rewrite Hrun2 in Hrun. apply run_from_root_inv in Hrun as (-> & Htr). auto.
      + destruct (Hp fuel) as (m & s & E). congruence.
  Qed.
  Lemma created_iff h h2 nx l b : heap_ok h nx -> all_live h l -> is_heap h nx l (length l) (length l) (length l) h2 ->
    created h h2 b <-> new_addr nx l b.
  Proof.
    intros Hok Hl Hh. unfold created, new_addr. split.
    - intros [H1 [n Hn]]. destruct (decide (b < nx)) as [Hb|Hb]; [rewrite (ih_old _ _ _ _ _ _ _ Hh) in Hn by exact Hb; congruence|].
      pose proof (hk_bound _ _ (after_heap_ok h h2 nx l Hok Hl Hh) b (mk_is_Some _ _ Hn)). lia.
    - intros [H1 H2]. split.
      + destruct (h !! b) as [n|] eqn:E; [|reflexivity]. pose proof (hk_bound _ _ Hok b (mk_is_Some _ _ E)). lia.
      + replace b with (nx + (b - nx)) by lia. apply (new_alive h h2 nx l Hl Hh). lia.
  Qed.
  Lemma clone_fresh_lemma t h nx c fuel c' s' : heap_ok h nx -> all_live h (c_nodes c) ->
    run t (chain_clone fuel c) (quiet h nx) = Done c' s' ->
    exists h' nx', s' = quiet h' nx' /\ heap_ok h' nx' /\
      (forall a n, h !! a = Some n -> h' !! a = Some n) /\
      (forall b, b ∈ chain_handles c' -> created h h' b) /\
      (forall b n', created h h' b -> h' !! b = Some n' -> mentions_only (created h h') n').
  Proof.
    intros Hok Hl Hrun. destruct (clone_done_cases t h nx c fuel c' s' Hok Hl Hrun) as [(H1 & H2 & ->)|(h2 & Hh & -> & tr & Hr & Ht & Hc)].
    - exists h, nx. split; [reflexivity|]. split; [exact Hok|]. split; [auto|]. split.
      + intros b Hb. unfold chain_handles in Hb. rewrite H1, H2 in Hb. set_solver.
      + intros b n' [E1 E2]. congruence.
    - exists h2, (nx + length (c_nodes c)). split; [reflexivity|]. split; [apply (after_heap_ok h h2 nx (c_nodes c) Hok Hl Hh)|].
      split; [apply (after_old h h2 nx (c_nodes c) Hok Hh)|].
      pose proof (created_iff h h2 nx (c_nodes c)) as Hcr. split.
      + intros b Hb. assert (Hbl : b ∈ preorder_last tr).
        { destruct Hc as (C1 & C2 & _). unfold chain_handles in Hb. apply elem_of_app in Hb as [Hb|Hb]; [congruence|].
          rewrite C2 in Hb. apply elem_of_list_In, filter_In in Hb as [Hb _]. apply elem_of_list_In. exact Hb. }
        apply (preorder_last_in h2 tr Ht) in Hbl. rewrite Hr in Hbl.
        apply Hcr; [exact Hok|exact Hl|exact Hh|]. 
        assert (Hge : forall x y, rtc (lists_child h2) x y -> nx <= x -> nx <= y).
        { induction 1 as [x|x y z H1 H2 IH]; [auto|]. intros Hx. apply IH.
          apply (child_new h h2 nx (c_nodes c) Hl Hh) in H1 as (i & j & _ & _ & _ & -> & _); lia. }
        assert (Hlive : is_Some (h2 !! b)).
        { apply (tree_all_live h2 tr Ht). apply (preorder_last_in h2 tr Ht). rewrite Hr. exact Hbl. }
        split; [apply (Hge nx b Hbl); lia|]. apply (hk_bound _ _ (after_heap_ok h h2 nx (c_nodes c) Hok Hl Hh)). exact Hlive.
      + intros b n' Hb Hn'. apply Hcr in Hb; [|exact Hok|exact Hl|exact Hh].
        destruct (new_mentions h h2 nx (c_nodes c) Hl Hh b n' (proj1 Hb) Hn') as (S1 & S2 & S3 & S4).
        split; [|split; [|split]]; intros x Hx; apply Hcr; auto.
  Qed.
  Lemma obeys_mono {A} P hs (cl : client T A) : forall (K K' : nat -> Prop), (forall a, K a -> K' a) -> obeys P hs K cl -> obeys P hs K' cl.
  Proof.
    induction cl as [x|R k next IH]; intros K K' HK; cbn.
    - intros H a Ha. apply HK, H. exact Ha.
    - intros (H1 & H2 & H3). split; [auto|]. split; [auto|]. intros r. apply (IH r (fun a => K a \/ a ∈ rets k r)); [intros a [Ha|Ha]; auto|]. apply H3.
  Qed.
  Lemma clone_independent_lemma {A} t h nx c fuel c' s' (cl : client T A) : heap_ok h nx -> all_live h (c_nodes c) ->
    run t (chain_clone fuel c) (quiet h nx) = Done c' s' ->
    (obeys any_call (fun _ => []) (created h (heap s')) cl ->
      forall s'', final_state (run t (denote cl) s') = Some s'' -> forall a n, h !! a = Some n -> heap s'' !! a = Some n) /\
    (obeys any_call (fun _ => []) (alive h) cl ->
      forall s'', final_state (run t (denote cl) s') = Some s'' -> forall b n, created h (heap s') b -> heap s' !! b = Some n -> heap s'' !! b = Some n).
  Proof.
    intros Hok Hl Hrun. destruct (clone_done_cases t h nx c fuel c' s' Hok Hl Hrun) as [(H1 & H2 & ->)|(h2 & Hh & -> & _)].
    - cbn [heap quiet]. split.
      + intros Ho s'' Hs a n Ha. eapply (part_frame t h nx (fun _ => False) cl Hok).
        * intros b m Hb [].
        * eapply obeys_mono; [|exact Ho]. intros b [Hb1 [m Hb2]]. congruence.
        * exact Hs.
        * exact Ha.
        * tauto.
      + intros _ s'' _ b n [E1 [m E2]]. congruence.
    - cbn [heap quiet]. pose proof (after_heap_ok h h2 nx (c_nodes c) Hok Hl Hh) as Hok2. split.
      + intros Ho s'' Hs a n Ha.
        apply (part_frame t h2 (nx + length (c_nodes c)) (fun x => nx <= x) cl Hok2 (separate_new h h2 nx (c_nodes c) Hl Hh)) with (s := s'').
        * eapply obeys_mono; [|exact Ho]. intros b Hb. split; [apply Hb|]. apply (created_iff h h2 nx (c_nodes c) b Hok Hl Hh) in Hb. apply Hb.
        * exact Hs.
        * apply (after_old h h2 nx (c_nodes c) Hok Hh a n Ha).
        * pose proof (hk_bound _ _ Hok a (mk_is_Some _ _ Ha)). lia.
      + intros Ho s'' Hs b n Hb Hn.
        apply (part_frame t h2 (nx + length (c_nodes c)) (fun x => x < nx) cl Hok2 (separate_old h h2 nx (c_nodes c) Hok Hh)) with (s := s'').
        * eapply obeys_mono; [|exact Ho]. intros a [m Ha]. split; [exists m; apply (after_old h h2 nx (c_nodes c) Hok Hh a m Ha)|].
          apply (hk_bound _ _ Hok). eauto.
        * exact Hs.
        * exact Hn.
        * apply (created_iff h h2 nx (c_nodes c) b Hok Hl Hh) in Hb. destruct Hb. lia.
  Qed.

  (** ** C24 *)
  Lemma movable_length_perm h l1 l2 : l1 ≡ₚ l2 -> length (List.filter (node_movable h) l1) = length (List.filter (node_movable h) l2).
  Proof.
    induction 1 as [|x l1 l2 _ IH|x y l|l1 l2 l3 _ IH1 _ IH2]; cbn; [reflexivity| | |congruence].
    - destruct (node_movable h x); cbn; congruence.
    - destruct (node_movable h x), (node_movable h y); reflexivity.
  Qed.
  Lemma tree_self_contained h tr : forest h -> tree_in h tr -> (forall n, h !! troot tr = Some n -> n_parent n = None) ->
    (forall a m, a ∈ preorder_last tr -> live_mimic_parent h a m -> m ∈ preorder_last tr) -> self_contained h (preorder_last tr).
  Proof.
    intros Hf Ht Hr Hm a b Ha [Hb|Hb]; [|eauto]. destruct Hb as [Hb _].
    pose proof (preorder_last_in h tr Ht) as Hin. apply Hin in Ha. apply rtc_inv_r in Ha as [Ha|(p & Hp & Hpa)].
    - subst a. destruct Hb as (n & Hn & Hp). rewrite (Hr n Hn) in Hp. discriminate.
    - apply (forest_agree h Hf) in Hpa. assert (b = p) as ->. { destruct Hb as (n & Hn & E), Hpa as (n' & Hn' & E'). congruence. }
      apply Hin. exact Hp.
  Qed.
  Lemma clone_tree_lemma t h nx tr c fuel :
    heap_ok h nx -> forest h -> tree_in h tr -> (forall n, h !! troot tr = Some n -> n_parent n = None) ->
    (forall a m, a ∈ preorder_last tr -> live_mimic_parent h a m -> m ∈ preorder_last tr) -> mimics_complete h (preorder_last tr) ->
    chain_of h (preorder_last tr) c -> tsize tr < fuel ->
    exists c' h' f, run t (chain_clone fuel c) (quiet h nx) = Done c' (quiet h' (nx + length (c_nodes c))) /\
      copy_by f h h' (preorder_last tr) /\ chain_of h' (map f (preorder_first tr)) c' /\
      length (c_nodes c') = length (c_nodes c) /\ c_dof c' = c_dof c /\
      heap_ok h' (nx + length (c_nodes c)) /\ forest h' /\ tree_in h' (rename f (mirror tr)) /\
      tsize (rename f (mirror tr)) = tsize tr /\
      (forall b m, b ∈ map f (preorder_first tr) -> live_mimic_parent h' b m -> m ∈ map f (preorder_first tr)) /\
      mimics_complete h' (map f (preorder_first tr)).
  Proof.
    intros Hok Hf Ht Hr Hm Hmc Hc Hfu. pose proof (tree_self_contained h tr Hf Ht Hr Hm) as Hsc.
    pose proof (tree_all_live h tr Ht) as Hl. destruct Hc as (Ec & Em & Ed).
    assert (El : c_nodes c = troot tr :: tail (preorder_last tr)) by (rewrite Ec; destruct tr; reflexivity).
    assert (Hst : starts_at_root h (preorder_last tr)).
    { intros a n Ha Hn. apply Hr. destruct tr as [r cs]. cbn in Ha. injection Ha as ->. exact Hn. }
    destruct (clone_cases t h nx c _ _ Hok ltac:(rewrite Ec; exact Hl) El) as [(_ & _ & _ & h2 & Hh & Hrun)|[Hno _]].
    2:{ exfalso. apply Hno. rewrite Ec. auto. }
    rewrite Ec in Hh. set (f := copy_addr nx tr).
    pose proof (tree_copy h h2 nx tr Hf Ht Hh Hsc) as Hcopy. fold f in Hcopy.
    pose proof (copied_tree h h2 nx tr Hok Hf Ht Hh Hsc) as Htree. fold f in Htree.
    pose proof (copied_root h nx tr Hf Ht) as Hroot. fold f in Hroot.
    pose proof (copied_order nx tr) as Hord. fold f in Hord.
    pose proof (copied_size nx tr) as Hsz. fold f in Hsz.
    destruct (run_from_root t h2 (nx + length (c_nodes c)) (rename f (mirror tr)) fuel Htree ltac:(rewrite Hsz; exact Hfu)) as (c' & Hc' & Hof).
    rewrite Hroot in Hc'. rewrite Hord in Hof. exists c', h2, f.
    assert (Hperm : forall a, a ∈ preorder_first tr <-> a ∈ preorder_last tr) by (intros a; rewrite (preorder_perm tr); reflexivity).
    split; [rewrite Hrun; exact Hc'|]. split; [exact Hcopy|]. split; [exact Hof|]. destruct Hof as (O1 & O2 & O3).
    split; [rewrite O1, Ec, map_length, (Permutation_length (preorder_perm tr)); reflexivity|].
    split.
    { rewrite O3, Ed. unfold f. rewrite (filter_map_f h h2 nx tr Hok Hf Ht Hh Hsc (preorder_first tr) (fun a Ha => proj1 (Hperm a) Ha)).
      rewrite map_length. apply movable_length_perm, preorder_perm. }
    assert (Hok2 : heap_ok h2 (nx + length (c_nodes c))) by (rewrite Ec; apply (after_heap_ok h h2 nx _ Hok Hl Hh)).
    split; [exact Hok2|]. split; [apply (after_forest h h2 nx _ Hok Hl Hh Hf)|]. split; [exact Htree|]. split; [exact Hsz|]. split.
    - intros b m Hb (n' & Hn' & Hmp & _). apply elem_of_list_In, in_map_iff in Hb as (a & <- & Ha). apply elem_of_list_In, Hperm in Ha.
      destruct (Hl a Ha) as [n Hn]. destruct (cb_node _ _ _ _ Hcopy a n Ha Hn) as (n2 & Hn2 & _ & _ & _ & _ & H3 & _).
      assert (n' = n2) as -> by congruence. apply H3 in Hmp as (m0 & Hm0 & ->). apply elem_of_list_In, in_map, elem_of_list_In, Hperm. eapply Hm; eauto.
    - intros b n' m Hb Hn' Hlm. apply (copied_mimics h h2 nx tr Hf Ht Hh Hsc Hmc b n' m); [|exact Hn'|exact Hlm].
      apply elem_of_list_In, in_map_iff in Hb as (a & <- & Ha). apply elem_of_list_In, in_map, elem_of_list_In, Hperm, elem_of_list_In. exact Ha.
  Qed.
  Lemma copy_joints f h h' l L : copy_by f h h' l -> all_live h l -> (forall a, a ∈ L -> a ∈ l) -> map (joint_of h') (map f L) = map (joint_of h) L.
  Proof.
    intros Hc Hl HL. rewrite map_map. apply map_ext_in. intros a Ha. apply elem_of_list_In, HL in Ha. destruct (Hl a Ha) as [n Hn].
    destruct (cb_node _ _ _ _ Hc a n Ha Hn) as (n' & Hn' & Hj & _). unfold joint_of. rewrite Hn, Hn'. cbn. rewrite Hj. reflexivity.
  Qed.
  Lemma positions_of_joints h1 h2 l1 : forall l2, map (joint_of h1) l1 = map (joint_of h2) l2 ->
    map (position_at h1) (List.filter (node_movable h1) l1) = map (position_at h2) (List.filter (node_movable h2) l2).
  Proof.
    induction l1 as [|a l1 IH]; intros [|b l2] E; cbn in E; try discriminate; [reflexivity|]. injection E as E1 E2.
    assert (Em : node_movable h1 a = node_movable h2 b /\ position_at h1 a = position_at h2 b).
    { unfold joint_of, node_movable, position_at in *. destruct (h1 !! a) as [n|], (h2 !! b) as [m|]; cbn in E1; try discriminate; [|auto].
      injection E1 as ->. auto. }
    destruct Em as [Em Ep]. cbn. rewrite Em. destruct (node_movable h2 b); cbn; rewrite ?Ep, (IH l2 E2); reflexivity.
  Qed.
  Lemma types_kept_refl h : types_kept h h. Proof. intros a n Hn. eauto. Qed.
  Lemma same_joints_same_positions t h1 nx1 l1 c1 h2 nx2 l2 c2 : chain_of h1 l1 c1 -> chain_of h2 l2 c2 -> map (joint_of h1) l1 = map (joint_of h2) l2 ->
    exists ps, run t (joint_positions c1) (quiet h1 nx1) = Done ps (quiet h1 nx1) /\ run t (joint_positions c2) (quiet h2 nx2) = Done ps (quiet h2 nx2).
  Proof.
    intros H1 H2 E. destruct (run_joint_positions t h1 h1 nx1 c1 l1 H1 (types_kept_refl h1)) as (ps1 & R1 & _ & P1).
    destruct (run_joint_positions t h2 h2 nx2 c2 l2 H2 (types_kept_refl h2)) as (ps2 & R2 & _ & P2).
    destruct H1 as (_ & M1 & _), H2 as (_ & M2 & _). rewrite M1 in P1. rewrite M2 in P2.
    rewrite (positions_of_joints h1 h2 l1 l2 E) in P1. rewrite <- P2 in P1.
    assert (ps1 = ps2) as ->. { clear -P1. revert ps2 P1. induction ps1 as [|x l IH]; intros [|y l'] E; cbn in E; try discriminate; [reflexivity|]. injection E as -> E. f_equal; auto. }
    eauto.
  Qed.
End CloneProofs4.
