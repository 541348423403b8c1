(** * Loading URDF robots: the tree *)
From Coq Require Import String Sorted.
From stdpp Require Import gmap strings.
From Verif Require Import Scalar Geometry Joint Link Prog NodeM ChainM RunLemmas SpecJoint SpecNode JointProofs NodeProofs
  SpecGraph GraphProofs SpecChain ChainProofs SpecHist Api CloneProofs2 UrdfM SpecUrdf UrdfProofs UrdfProofs2 UrdfProofs3.

Section UrdfProofs4.
  Context {S T : Type} `{SS : Scalar S} `{ST : Scalar T} (conv : S -> T).
  Implicit Types (h : gmap nat (node T)) (r : robot S).
  Notation Sn := Datatypes.S.

  Lemma parent_joint_lt r i k : parent_joint r i k -> i < length (r_joints r) /\ k < length (r_joints r).
  Proof. intros (ji & jk & Hi & Hk & _). split; eapply lookup_lt_Some; eauto. Qed.
  Lemma parent_joint_fun r i k k' : well_named r -> parent_joint r i k -> parent_joint r i k' -> k = k'.
  Proof.
    intros Hwn (ji & jk & Hi & Hk & Hc & _) (ji' & jk' & Hi' & Hk' & Hc' & _). assert (ji' = ji) as -> by congruence.
    eapply (nodup_key uj_child); [apply wn_children; exact Hwn|exact Hk|exact Hk'|congruence].
  Qed.
  Lemma mimics_fun r i k k' m m' : well_named r -> mimics r i k m -> mimics r i k' m' -> k = k' /\ m = m'.
  Proof.
    intros Hwn (ji & jk & Hi & Hk & Hc & Hn) (ji' & jk' & Hi' & Hk' & Hc' & Hn'). assert (ji' = ji) as -> by congruence. assert (m' = m) as -> by congruence.
    split; [|reflexivity]. eapply (nodup_key uj_name); [apply wn_joints; exact Hwn|exact Hk|exact Hk'|congruence].
  Qed.

  Section L.
    Context (r : robot S) (nx : nat) (h h' : gmap nat (node T)) (Hwn : well_named r) (HL : loaded conv r nx h h').
    Let N := length (r_joints r).
    Lemma l_node i : i < N -> exists j n, r_joints r !! i = Some j /\ h' !! (Sn nx + i) = Some n /\ joint_node conv r nx i j n.
    Proof. intros Hi. destruct (lookup_lt_is_Some_2 _ i Hi) as [j Hj]. destruct (ld_joint _ _ _ _ _ HL i j Hj) as (n & Hn & Hjn). eauto 6. Qed.
    Lemma l_cases a n : h' !! a = Some n -> (a < nx /\ h !! a = Some n) \/ (a = nx /\ root_node conv r nx n) \/
      exists i j, i < N /\ a = Sn nx + i /\ r_joints r !! i = Some j /\ joint_node conv r nx i j n.
    Proof.
      intros Hn. destruct (decide (a < nx)) as [Hlt|Hge]; [left; split; [exact Hlt|]; rewrite <- (ld_old _ _ _ _ _ HL a Hlt); exact Hn|].
      destruct (decide (a = nx)) as [->|Hne].
      - right. left. split; [reflexivity|]. destruct (ld_root _ _ _ _ _ HL) as (n' & Hn' & Hr). congruence.
      - right. right. destruct (decide (Sn nx + N <= a)) as [Hbig|Hin]; [rewrite (ld_new _ _ _ _ _ HL a Hbig) in Hn; discriminate|].
        destruct (l_node (a - Sn nx) ltac:(lia)) as (j & n' & Hj & Hn' & Hjn). assert (Ea : a = Sn nx + (a - Sn nx)) by lia. rewrite <- Ea in Hn'.
        assert (n' = n) as -> by congruence. exists (a - Sn nx), j. split; [lia|]. auto.
    Qed.
    Lemma l_child a c : nx <= a -> lists_child h' a c <->
      exists i, i < N /\ c = Sn nx + i /\ ((a = nx /\ forall k, ~ parent_joint r i k) \/ exists k, a = Sn nx + k /\ parent_joint r i k).
    Proof.
      intros Ha. split.
      - intros (n & Hn & Hc). destruct (l_cases a n Hn) as [[? _]|[[-> Hr]|(k & j & Hk & -> & Hj & Hjn)]]; [lia| |].
        + apply (proj2 (rn_children _ _ _ _ Hr)) in Hc as (i & -> & Hi & Hno). exists i. auto.
        + apply (proj2 (jn_children _ _ _ _ _ _ Hjn)) in Hc as (i & -> & Hp). exists i. split; [apply (parent_joint_lt _ _ _ Hp)|]. split; [reflexivity|]. right. eauto.
      - intros (i & Hi & -> & [[-> Hno]|(k & -> & Hp)]).
        + destruct (ld_root _ _ _ _ _ HL) as (n & Hn & Hr). exists n. split; [exact Hn|]. apply (proj2 (rn_children _ _ _ _ Hr)). exists i. auto.
        + destruct (l_node k ltac:(apply (parent_joint_lt _ _ _ Hp))) as (j & n & Hj & Hn & Hjn). exists n. split; [exact Hn|]. apply (proj2 (jn_children _ _ _ _ _ _ Hjn)). eauto.
    Qed.
    Lemma l_parent c p : nx <= c -> has_parent h' c p <-> nx <= p /\ lists_child h' p c.
    Proof.
      intros Hc. split.
      - intros (n & Hn & Hp). destruct (l_cases c n Hn) as [[? _]|[[-> Hr]|(i & j & Hi & -> & Hj & Hjn)]]; [lia| |].
        + rewrite (rn_parent _ _ _ _ Hr) in Hp. discriminate.
        + destruct (jn_parent _ _ _ _ _ _ Hjn) as [(k & Hpk & Ep)|[Hno Ep]]; rewrite Ep in Hp; apply Some_inj in Hp as <-; (split; [lia|]); apply l_child; try lia; exists i; eauto 7.
      - intros [Hp Hl]. apply l_child in Hl as (i & Hi & -> & Hor); [|exact Hp]. destruct (l_node i Hi) as (j & n & Hj & Hn & Hjn). exists n. split; [exact Hn|].
        destruct (jn_parent _ _ _ _ _ _ Hjn) as [(k & Hpk & ->)|[Hno ->]]; destruct Hor as [[-> Hno']|(k' & -> & Hpk')].
        + exfalso. eapply Hno'; eauto.
        + rewrite (parent_joint_fun r i k k' Hwn Hpk Hpk'). reflexivity.
        + reflexivity.
        + exfalso. eapply Hno; eauto.
    Qed.
    Lemma l_child_new a c : nx <= a -> lists_child h' a c -> nx < c /\ is_Some (h' !! c).
    Proof. intros Ha H. apply l_child in H as (i & Hi & -> & _); [|exact Ha]. split; [lia|]. destruct (l_node i Hi) as (j & n & _ & Hn & _). eauto. Qed.
    Lemma l_one_parent x y z : nx <= x -> nx <= y -> lists_child h' x z -> lists_child h' y z -> x = y.
    Proof.
      intros Hx Hy H1 H2. assert (nx < z) by apply (l_child_new x z Hx H1).
      destruct (proj2 (l_parent z x ltac:(lia)) (conj Hx H1)) as (n & Hn & E1). destruct (proj2 (l_parent z y ltac:(lia)) (conj Hy H2)) as (n' & Hn' & E2). congruence.
    Qed.
    Lemma l_tree : exists tr, troot tr = nx /\ tree_in h' tr.
    Proof.
      apply (rooted_tree h' (fun a => nx <= a)).
      - intros x y Hx Hl. destruct (l_child_new x y Hx Hl) as [Hlt Hs]. split; [lia|exact Hs].
      - intros x y z Hx Hy. apply l_one_parent; assumption.
      - lia.
      - intros x Hx Hl. apply l_child_new in Hl as [Hlt _]; [lia|exact Hx].
      - destruct (ld_root _ _ _ _ _ HL) as (n & Hn & _). eauto.
    Qed.
    Lemma l_reach a : rtc (lists_child h') nx a -> nx <= a.
    Proof. revert a. apply (rtc_ind_r (fun a => nx <= a)); [lia|]. intros y z _ Hyz Hy. apply l_child_new in Hyz as [? _]; [lia|exact Hy]. Qed.
    Lemma l_reach_iff a : rtc (lists_child h') nx a <-> a = nx \/ exists i, a = Sn nx + i /\ hangs_from_root r i.
    Proof.
      split.
      - revert a. apply (rtc_ind_r (fun a => a = nx \/ exists i, a = Sn nx + i /\ hangs_from_root r i)); [auto|].
        intros y z Hy Hyz IH. right. apply l_child in Hyz as (i & Hi & -> & [[_ Hno]|(k & -> & Hp)]); [| |apply l_reach; exact Hy].
        + exists i. split; [reflexivity|]. split; [exact Hi|]. exists i. split; [reflexivity|exact Hno].
        + destruct IH as [E|(k' & E & _ & q & Hq & Hno)]; [lia|]. assert (k' = k) as -> by lia. exists i. split; [reflexivity|]. split; [exact Hi|]. exists q. split; [|exact Hno].
          eapply rtc_l; eauto.
      - intros [->|(i & -> & Hi & q & Hq & Hno)]; [reflexivity|]. revert Hi. induction Hq as [i|i k q Hik Hq IH]; intros Hi.
        + apply rtc_once, l_child; [lia|]. exists i. auto.
        + eapply rtc_r; [apply IH; [exact Hno|apply (parent_joint_lt _ _ _ Hik)]|]. apply l_child; [lia|]. exists i. split; [exact Hi|]. split; [reflexivity|]. right. eauto.
    Qed.
    Lemma l_nodup tr : troot tr = nx -> tree_in h' tr -> NoDup (preorder_last tr).
    Proof.
      intros Hroot Ht. set (l := preorder_last tr).
      assert (Hin : forall a, a ∈ l <-> rtc (lists_child h') nx a) by (intros a; rewrite <- Hroot; apply preorder_last_in; exact Ht).
      set (g := filter (fun an => an.1 ∈ l) h').
      assert (Hg : forall a n, g !! a = Some n <-> h' !! a = Some n /\ a ∈ l) by (intros a n; unfold g; rewrite map_filter_lookup_Some; reflexivity).
      assert (Hgl : forall p c, lists_child g p c <-> lists_child h' p c /\ p ∈ l).
      { intros p c. unfold lists_child. split.
        - intros (n & Hn & Hc). apply Hg in Hn as [Hn Hp]. eauto.
        - intros [(n & Hn & Hc) Hp]. exists n. rewrite Hg. auto. }
      assert (Hgp : forall p c, has_parent g c p <-> has_parent h' c p /\ c ∈ l).
      { intros p c. unfold has_parent. split.
        - intros (n & Hn & Hc). apply Hg in Hn as [Hn Hp]. eauto.
        - intros [(n & Hn & Hc) Hp]. exists n. rewrite Hg. auto. }
      assert (Hf : forest g).
      { assert (Hag : forall p c, lists_child g p c <-> has_parent g c p).
        { intros p c. rewrite Hgl, Hgp. split.
          - intros [Hpc Hp]. apply Hin in Hp. pose proof (l_reach p Hp) as Hge. split; [|apply Hin; eapply rtc_r; eauto].
            apply l_parent; [apply l_child_new in Hpc as [? _]; lia|]. auto.
          - intros [Hpc Hc]. apply Hin in Hc. pose proof (l_reach c Hc) as Hge. apply l_parent in Hpc as [Hpge Hpc]; [|exact Hge]. split; [exact Hpc|].
            apply rtc_inv_r in Hc as [E|(y & Hy & Hyc)]; [exfalso; apply l_child_new in Hpc as [? _]; lia|].
            assert (p = y) as -> by (eapply l_one_parent; eauto; apply l_reach; exact Hy). apply Hin. exact Hy. }
        constructor.
        - exact Hag.
        - intros p n Hn. apply Hg in Hn as [Hn Hp]. apply Hin, l_reach in Hp. destruct (l_cases p n Hn) as [[? _]|[[-> Hr]|(k & j & Hk & -> & Hj & Hjn)]]; [lia| |].
          + exact (in_order_nodup _ _ _ (rn_children _ _ _ _ Hr)).
          + exact (in_order_nodup _ _ _ (jn_children _ _ _ _ _ _ Hjn)).
        - intros c p Hc. apply Hag in Hc as (n & Hn & _). eauto.
        - assert (Hac : forall a, rtc (lists_child h') nx a -> ~ tc (has_parent g) a a).
          { apply (rtc_ind_r (fun a => ~ tc (has_parent g) a a)).
            - intros Ht'. assert (exists p, has_parent g nx p) as (p & Hp) by (inversion Ht'; eauto). apply Hag, Hgl in Hp as [Hp Hpl]. apply Hin, l_reach in Hpl. apply l_child_new in Hp as [? _]; lia.
            - intros y z Hy Hyz IH Ht'. apply IH. 
              assert (Hz : forall p, has_parent g z p -> p = y).
              { intros p Hp. apply Hag, Hgl in Hp as [Hp Hpl]. apply Hin, l_reach in Hpl. eapply l_one_parent; eauto. apply l_reach. exact Hy. }
              inversion Ht' as [x1 x2 H1|x1 x2 x3 H1 H2].
              + rewrite <- (Hz z H1). exact Ht'.
              + pose proof (Hz x2 H1) as ->. eapply tc_r; [exact H2|exact H1]. }
          intros a Ha. assert (exists p, has_parent g a p) as (p & Hp) by (inversion Ha; eauto). apply Hgp in Hp as [_ Hp]. apply Hin in Hp. apply (Hac a Hp Ha). }
      assert (Hsub : forall tr', (forall a, a ∈ preorder_last tr' -> a ∈ l) -> tree_in h' tr' -> tree_in g tr').
      { fix IHt 1. intros [a cs] Hs Ht'. inversion Ht' as [a' n cs' Hn Hch Hcs]; subst. apply (tree_in_node g a n).
        - apply Hg. split; [exact Hn|]. apply Hs. left.
        - exact Hch.
        - assert (Hcs' : forall tr', tr' ∈ cs -> forall a0, a0 ∈ preorder_last tr' -> a0 ∈ l).
          { intros tr' Htr' a0 Ha0. apply Hs. cbn [preorder_last]. right. apply elem_of_list_In, in_concat. exists (preorder_last tr'). split; [|apply elem_of_list_In; exact Ha0].
            apply -> in_rev. apply in_map. apply elem_of_list_In. exact Htr'. }
          clear Hch Ht' Hs Hn. induction cs as [|c cs IHc]; [constructor|]. apply Forall_cons in Hcs as [Hc Hcs]. constructor.
          + apply IHt; [|exact Hc]. apply Hcs'. left.
          + apply IHc; [exact Hcs|]. intros tr' Htr'. apply Hcs'. right. exact Htr'. }
      apply (preorder_last_nodup g); [exact Hf|]. apply Hsub; [auto|exact Ht].
    Qed.
    Lemma l_heap_ok : heap_ok h nx -> heap_ok h' (Sn nx + N).
    Proof.
      intros Hok. assert (Hold : forall a, is_Some (h !! a) -> is_Some (h' !! a)).
      { intros a Ha. rewrite (ld_old _ _ _ _ _ HL a (hk_bound _ _ Hok a Ha)). exact Ha. }
      assert (Hnew : forall i, i < N -> is_Some (h' !! (Sn nx + i))) by (intros i Hi; destruct (l_node i Hi) as (j & n & _ & Hn & _); eauto).
      assert (Hmi : forall i k m, mimics r i k m -> i < N /\ k < N).
      { intros i k m (ji & jk & Hi & Hk & _). split; eapply lookup_lt_Some; eauto. }
      constructor.
      - intros a [n Hn]. destruct (l_cases a n Hn) as [[? _]|[[-> Hr]|(k & j & Hk & -> & Hj & Hjn)]]; lia.
      - intros a n c Hn Hc. destruct (l_cases a n Hn) as [[_ Ho]|[[-> Hr]|(k & j & Hk & -> & Hj & Hjn)]].
        + apply Hold. eapply hk_children; eauto.
        + apply (l_child_new nx c ltac:(lia)). exists n. auto.
        + apply (l_child_new (Sn nx + k) c ltac:(lia)). exists n. auto.
      - intros a n c Hn Hc. destruct (l_cases a n Hn) as [[_ Ho]|[[-> Hr]|(k & j & Hk & -> & Hj & Hjn)]].
        + apply Hold. eapply hk_mimic_children; eauto.
        + destruct (rn_mimic _ _ _ _ Hr) as (_ & _ & E). rewrite E in Hc. inversion Hc.
        + apply (proj2 (jn_mimic_children _ _ _ _ _ _ Hjn)) in Hc as (i & -> & m & Hm). apply Hnew. apply (Hmi _ _ _ Hm).
      - intros a n w Hn Hw. destruct (l_cases a n Hn) as [[_ Ho]|[[-> Hr]|(k & j & Hk & -> & Hj & Hjn)]].
        + pose proof (hk_parent _ _ Hok a n w Ho Hw). lia.
        + rewrite (rn_parent _ _ _ _ Hr) in Hw. discriminate.
        + destruct (jn_parent _ _ _ _ _ _ Hjn) as [(q & Hp & E)|[_ E]]; rewrite E in Hw; apply Some_inj in Hw as <-; [|lia]. pose proof (proj2 (parent_joint_lt _ _ _ Hp)). unfold N. lia.
      - intros a n w Hn Hw. destruct (l_cases a n Hn) as [[_ Ho]|[[-> Hr]|(k & j & Hk & -> & Hj & Hjn)]].
        + pose proof (hk_mimic_parent _ _ Hok a n w Ho Hw). lia.
        + destruct (rn_mimic _ _ _ _ Hr) as (E & _). rewrite E in Hw. discriminate.
        + destruct (jn_mimic _ _ _ _ _ _ Hjn) as [(q & m & Hm & E & _)|(_ & E & _)]; rewrite E in Hw; [|discriminate]. apply Some_inj in Hw as <-. pose proof (proj2 (Hmi _ _ _ Hm)). lia.
    Qed.
    Lemma l_mimic_wf : mimic_wf h -> (forall b, is_Some (h !! b) -> b < nx) -> mimic_wf h'.
    Proof.
      intros Hm Hbd a n c Hn Hc. destruct (l_cases a n Hn) as [[_ Ho]|[[-> Hr]|(k & j & Hk & -> & Hj & Hjn)]].
      - destruct (Hm a n c Ho Hc) as (cn & Hcn & H1 & H2). exists cn. rewrite (ld_old _ _ _ _ _ HL c (Hbd c (mk_is_Some _ _ Hcn))). auto.
      - destruct (rn_mimic _ _ _ _ Hr) as (_ & _ & E). rewrite E in Hc. inversion Hc.
      - apply (proj2 (jn_mimic_children _ _ _ _ _ _ Hjn)) in Hc as (i & -> & m & Hmi). pose proof Hmi as (ji & jk & Hi & _ & Hmm & _).
        destruct (ld_joint _ _ _ _ _ HL i ji Hi) as (cn & Hcn & Hjc). exists cn. split; [exact Hcn|].
        destruct (jn_mimic _ _ _ _ _ _ Hjc) as [(q & m' & _ & E1 & E2)|(E & _)]; [rewrite E1, E2; eauto|congruence].
    Qed.
    Lemma acyclic_hangs : acyclic r -> forall i, i < N -> hangs_from_root r i.
    Proof.
      intros Hac i Hi. assert (Hsn : sn (parent_joint r) i).
      { apply tc_finite_sn; [intros x; apply Hac|]. exists (seq 0 N). intros y Hy. apply elem_of_seq. split; [lia|].
        assert (exists x, parent_joint r x y) as [x Hx].
        { clear -Hy. induction Hy as [x y H|x y z H _ IH]; eauto. }
        pose proof (proj2 (parent_joint_lt _ _ _ Hx)). unfold N. lia. }
      induction Hsn as [i _ IH]. split; [exact Hi|]. destruct (l_node i Hi) as (j & n & Hj & Hn & Hjn).
      destruct (jn_parent _ _ _ _ _ _ Hjn) as [(k & Hp & _)|[Hno _]].
      - destruct (IH k Hp (proj2 (parent_joint_lt _ _ _ Hp))) as (_ & q & Hq & Hno). exists q. split; [eapply rtc_l; eauto|exact Hno].
      - exists i. split; [reflexivity|exact Hno].
    Qed.
  End L.

  Lemma load_chain t r h nx fuel : well_named r -> joints_convert conv (r_joints r) -> mimics_known r -> (forall b, nx <= b -> h !! b = None) ->
    Sn (length (r_joints r)) < fuel ->
    exists c h', run t (chain_from_robot conv fuel r) (quiet h nx) = Done c (quiet h' (Sn nx + length (r_joints r))) /\
      loaded conv r nx h h' /\ chain_of h' (c_nodes c) c /\ head (c_nodes c) = Some nx /\ NoDup (c_nodes c) /\
      (forall a, a ∈ c_nodes c <-> a = nx \/ exists i, a = Sn nx + i /\ hangs_from_root r i) /\
      (acyclic r -> c_nodes c ≡ₚ seq nx (Sn (length (r_joints r)))) /\
      (forall l1 a l2, c_nodes c = l1 ++ a :: l2 -> a <> nx -> exists p, p ∈ l1 /\ has_parent h' a p).
  Proof.
    intros Hwn Hcv Hk Hb Hfu. destruct (load_lemma conv t r h nx Hwn Hcv Hb) as [HL _]. destruct (HL Hk) as (h' & Hl & Hrun).
    destruct (l_tree r nx h h' Hwn Hl) as (tr & Hroot & Ht).
    pose proof (l_nodup r nx h h' Hwn Hl tr Hroot Ht) as Hnd.
    assert (Hin : forall a, a ∈ preorder_last tr <-> a = nx \/ exists i, a = Sn nx + i /\ hangs_from_root r i).
    { intros a. rewrite (preorder_last_in h' tr Ht), Hroot. apply (l_reach_iff r nx h h' Hl). }
    assert (Hsub : forall a, a ∈ preorder_last tr -> a ∈ seq nx (Sn (length (r_joints r)))).
    { intros a Ha. apply Hin in Ha as [->|(i & -> & Hi & _)]; apply elem_of_seq; lia. }
    assert (Hsz : tsize tr <= Sn (length (r_joints r))).
    { rewrite <- preorder_last_length, <- (seq_length (Sn (length (r_joints r))) nx). apply submseteq_length, NoDup_submseteq; auto. }
    destruct (run_from_root t h' (Sn nx + length (r_joints r)) tr fuel Ht ltac:(lia)) as (c & Hc & Hof). rewrite Hroot in Hc.
    exists c, h'. pose proof Hof as (En & _ & _). rewrite En. split; [rewrite Hrun; exact Hc|]. split; [exact Hl|]. split; [exact Hof|].
    split; [destruct tr; cbn in *; congruence|]. split; [exact Hnd|]. split; [exact Hin|]. split.
    - intros Hac. apply NoDup_Permutation; [exact Hnd|apply NoDup_seq|]. intros a. split; [apply Hsub|]. intros Ha. apply Hin. apply elem_of_seq in Ha.
      destruct (decide (a = nx)) as [->|Hne]; [auto|]. right. exists (a - Sn nx). split; [lia|]. apply (acyclic_hangs r nx h h' Hl Hac). lia.
    - intros l1 a l2 E Hne. destruct (preorder_last_order h' tr Ht l1 a l2 E) as [Ea|(p & Hp & Hpa)]; [congruence|]. exists p. split; [exact Hp|].
      assert (Hpr : p ∈ preorder_last tr) by (rewrite E; set_solver). assert (nx <= p). { apply Hin in Hpr as [->|(i & -> & _)]; lia. }
      apply (l_parent r nx h h' Hwn Hl); [|auto]. apply (l_child_new r nx h h' Hl) in Hpa as [? _]; lia.
  Qed.
End UrdfProofs4.
