(** * Cloning the chain of a tree *)
From Coq Require Import String.
From stdpp Require Import gmap.
From Verif Require Import Scalar Geometry Joint Link Prog NodeM ChainM FuncsM IkM RunLemmas SpecJoint SpecNode JointProofs NodeProofs
  SpecGraph GraphProofs SpecChain ChainProofs Safe SafeSound SafeNode SafeChain Api ApiProofs ApiSound SpecHist HistProofs SpecClone CloneProofs CloneProofs2.

Section Lists.
  Context {A B : Type}.
  Lemma concat_rev_nil (g : A -> list B) l : (forall x, x ∈ l -> g x = []) -> concat (rev (map g l)) = [].
  Proof.
    induction l as [|x l IH]; intros H; [reflexivity|]. cbn. rewrite concat_app, IH by (intros; apply H; set_solver).
    cbn. rewrite H by set_solver. reflexivity.
  Qed.
  Lemma filter_concat_rev (q : B -> bool) (g : A -> list B) l :
    List.filter q (concat (rev (map g l))) = concat (rev (map (fun x => List.filter q (g x)) l)).
  Proof.
    induction l as [|x l IH]; [reflexivity|]. cbn. rewrite !concat_app, List.filter_app, IH. cbn. rewrite !app_nil_r. reflexivity.
  Qed.
  Lemma concat_rev_single (g : A -> list B) (u : A -> B) l : (forall x, x ∈ l -> g x = [u x]) -> concat (rev (map g l)) = rev (map u l).
  Proof.
    induction l as [|x l IH]; intros H; [reflexivity|]. cbn. rewrite concat_app, IH by (intros; apply H; set_solver).
    cbn. rewrite (H x) by set_solver. reflexivity.
  Qed.
End Lists.

Section CloneProofs3.
  Context {T : Type} `{Sc : Scalar T}.
  Implicit Types (h : gmap nat (node T)).

  Definition childb h (a b : nat) : bool := bool_decide (par h b = Some a).
  Lemma childb_iff h a b : forest h -> childb h a b = true <-> lists_child h a b.
  Proof.
    intros Hf. unfold childb. rewrite bool_decide_eq_true, par_iff. split.
    - intros [H _]. apply (forest_agree h Hf). exact H.
    - intros H. apply (forest_agree h Hf) in H. split; [exact H|]. eapply (forest_live h Hf); eauto.
  Qed.
  Lemma childb_false h a b : forest h -> ~ lists_child h a b -> childb h a b = false.
  Proof. intros Hf H. destruct (childb h a b) eqn:E; [|reflexivity]. apply childb_iff in E; [contradiction|exact Hf]. Qed.

  Lemma children_in_order h tr : forest h -> tree_in h tr -> forall a,
    (forall n, a ∈ preorder_last tr -> h !! a = Some n -> List.filter (childb h a) (preorder_last tr) = rev (n_children n)) /\
    (a ∉ preorder_last tr -> List.filter (childb h a) (preorder_last tr) = if childb h a (troot tr) then [troot tr] else []).
  Proof.
    intros Hf. induction tr as [r cs IH] using tree_ind'. intros Ht a. pose proof (preorder_last_in h _ Ht) as Hin.
    inversion Ht as [r' n0 cs' Hn0 Hch Hcs]; subst.
    assert (Hchild : forall t, t ∈ cs -> lists_child h r (troot t)).
    { intros t Hti. exists n0. split; [assumption|]. rewrite Hch. apply elem_of_list_In, in_map, elem_of_list_In. auto. }
    assert (Hsub : forall t, t ∈ cs -> forall b, b ∈ preorder_last t <-> rtc (lists_child h) (troot t) b).
    { intros t Hti. rewrite Forall_forall in Hcs. apply preorder_last_in. auto. }
    rewrite Forall_forall in IH, Hcs.
    assert (Hroot : a ∈ preorder_last (TNode r cs) -> childb h a r = false).
    { intros Ha. apply childb_false; [exact Hf|]. intros Hc. apply Hin in Ha. cbn [troot] in Ha.
      apply (forest_child_acyclic h Hf a). eapply tc_rtc_r; [apply tc_once; exact Hc|exact Ha]. }
    assert (Hother : forall t, t ∈ cs -> a ∉ preorder_last t -> a <> r -> List.filter (childb h a) (preorder_last t) = []).
    { intros t Hti Hn Hne. destruct (IH t Hti (Hcs t Hti) a) as [_ H2]. rewrite (H2 Hn). rewrite childb_false; [reflexivity|exact Hf|].
      intros Hc. apply Hne. eapply forest_parent_unique; eauto. }
    split.
    - intros n Ha Hn. cbn [preorder_last]. cbn [List.filter]. rewrite (Hroot Ha), filter_concat_rev.
      destruct (decide (a = r)) as [->|Hne].
      + assert (n = n0) as -> by congruence. rewrite Hch. apply concat_rev_single. intros t Hti.
        destruct (IH t Hti (Hcs t Hti) r) as [_ H2]. rewrite H2.
        * assert (childb h r (troot t) = true) as -> by (apply childb_iff; auto). reflexivity.
        * intros Hr. apply Hsub in Hr; [|exact Hti]. apply (forest_child_acyclic h Hf r).
          eapply tc_rtc_r; [apply tc_once, Hchild; exact Hti|exact Hr].
      + cbn [preorder_last] in Ha. apply elem_of_cons in Ha as [?|Ha]; [contradiction|].
        apply elem_of_list_In, in_concat in Ha as (l & Hl & Hb). apply in_rev, in_map_iff in Hl as (t & <- & Hti).
        apply elem_of_list_In in Hti, Hb. destruct (IH t Hti (Hcs t Hti) a) as [H1 _].
        pose proof (forest_once h Hf r n0 Hn0) as Hnd. rewrite Hch in Hnd.
        apply elem_of_list_split in Hti as (c1 & c2 & ->).
        rewrite map_app in Hnd. cbn in Hnd. apply NoDup_app in Hnd as (_ & N1 & N2). apply NoDup_cons in N2 as [N2 _].
        assert (Huniq : forall t', t' ∈ c1 ++ t :: c2 -> a ∈ preorder_last t' -> troot t' = troot t).
        { intros t' Ht' Ha'. apply Hsub in Ha'; [|exact Ht']. apply Hsub in Hb; [|set_solver].
          eapply forest_siblings; [exact Hf|apply Hchild; exact Ht'|apply Hchild; set_solver|exact Ha'|exact Hb]. }
        rewrite map_app, rev_app_distr. cbn [map rev]. rewrite !concat_app. cbn [concat]. rewrite app_nil_r.
        rewrite (H1 n Hb Hn), !concat_rev_nil, app_nil_r; [reflexivity| |].
        * intros t' Ht'. apply Hother; [set_solver| |exact Hne]. intros Ha'.
          apply (N1 (troot t')); [apply elem_of_list_fmap; eauto|]. rewrite (Huniq t') by set_solver. set_solver.
        * intros t' Ht'. apply Hother; [set_solver| |exact Hne]. intros Ha'. apply N2.
          rewrite <- (Huniq t') by set_solver. apply elem_of_list_fmap. eauto.
    - intros Ha. cbn [preorder_last List.filter troot] in *. rewrite filter_concat_rev, concat_rev_nil; [reflexivity|].
      apply not_elem_of_cons in Ha as [Hne Ha]. intros t Hti. apply Hother; [exact Hti| |exact Hne].
      intros Hb. apply Ha. apply elem_of_list_In, in_concat. exists (preorder_last t). split; [|apply elem_of_list_In; exact Hb].
      apply -> in_rev. apply in_map. apply elem_of_list_In. exact Hti.
  Qed.

  Lemma tree_in_inv h a cs : tree_in h (TNode a cs) -> exists n, h !! a = Some n /\ n_children n = map troot cs /\ Forall (tree_in h) cs.
  Proof. intros Ht. inversion Ht; subst. eauto. Qed.
  (** ** mirrored and renamed trees *)
  Lemma mirror_order tr : preorder_last (mirror tr) = preorder_first tr.
  Proof.
    induction tr as [a cs IH] using tree_ind'. cbn [mirror preorder_last preorder_first]. f_equal.
    rewrite <- map_rev, rev_involutive, map_map. f_equal. apply map_ext_in. intros t Hti.
    rewrite Forall_forall in IH. apply IH. apply elem_of_list_In. exact Hti.
  Qed.
  Lemma mirror_order2 tr : preorder_first (mirror tr) = preorder_last tr.
  Proof.
    induction tr as [a cs IH] using tree_ind'. cbn [mirror preorder_last preorder_first]. f_equal.
    rewrite map_rev, map_map. f_equal. f_equal. apply map_ext_in. intros t Hti.
    rewrite Forall_forall in IH. apply IH. apply elem_of_list_In. exact Hti.
  Qed.
  Lemma rename_last f tr : preorder_last (rename f tr) = map f (preorder_last tr).
  Proof.
    induction tr as [a cs IH] using tree_ind'. cbn [rename preorder_last map]. f_equal.
    rewrite concat_map, map_rev, !map_map. f_equal. f_equal. apply map_ext_in. intros t Hti.
    rewrite Forall_forall in IH. apply IH. apply elem_of_list_In. exact Hti.
  Qed.
  Lemma rename_first f tr : preorder_first (rename f tr) = map f (preorder_first tr).
  Proof.
    induction tr as [a cs IH] using tree_ind'. cbn [rename preorder_first map]. f_equal.
    rewrite concat_map, !map_map. f_equal. apply map_ext_in. intros t Hti.
    rewrite Forall_forall in IH. apply IH. apply elem_of_list_In. exact Hti.
  Qed.
  Lemma troot_rename f tr : troot (rename f tr) = f (troot tr). Proof. destruct tr; reflexivity. Qed.
  Lemma troot_mirror tr : troot (mirror tr) = troot tr. Proof. destruct tr; reflexivity. Qed.
  Lemma preorder_last_head tr : preorder_last tr !! 0 = Some (troot tr). Proof. destruct tr; reflexivity. Qed.
  Lemma unbranched_order h tr : tree_in h tr -> unbranched h (preorder_last tr) -> preorder_first tr = preorder_last tr.
  Proof.
    induction tr as [a cs IH] using tree_ind'. intros Ht Hu. inversion Ht as [a' n cs' Hn Hch Hcs]; subst.
    pose proof (Hu a n ltac:(cbn; set_solver) Hn) as Hle. rewrite Hch, map_length in Hle.
    destruct cs as [|t [|t' cs]]; cbn in Hle; [reflexivity| |lia]. cbn [preorder_first preorder_last map rev app concat].
    rewrite !app_nil_r. f_equal. apply Forall_cons in IH as [IH _]. apply Forall_cons in Hcs as [Hcs _]. apply IH; [exact Hcs|].
    intros b m Hb. apply Hu. cbn. rewrite app_nil_r. set_solver.
  Qed.
  Lemma map_filter_pair {A B C} (u : A -> C) (v : B -> C) (Q : A -> bool) (q : B -> bool) l1 l2 :
    Forall2 (fun x y => Q x = q y /\ u x = v y) l1 l2 -> map u (List.filter Q l1) = map v (List.filter q l2).
  Proof.
    induction 1 as [|x y l1 l2 [H1 H2] _ IH]; [reflexivity|]. cbn. rewrite H1. destruct (q y); cbn; [rewrite H2|]; rewrite IH; reflexivity.
  Qed.

  (** ** the copy of a tree *)
  Section Tree.
    Variables (h h2 : gmap nat (node T)) (nx : nat) (tr : tree).
    Hypothesis Hok : heap_ok h nx.
    Hypothesis Hf : forest h.
    Hypothesis Ht : tree_in h tr.
    Let l := preorder_last tr.
    Let k := length l.
    Hypothesis H2 : is_heap h nx l k k k h2.
    Hypothesis Hsc : self_contained h l.
    Definition copy_addr (a : nat) : nat := nx + default 0 (index_of a l).
    Let f := copy_addr.
    Lemma tree_live : all_live h l. Proof. apply tree_all_live. exact Ht. Qed.
    Lemma tree_nodup : NoDup l. Proof. eapply preorder_last_nodup; eauto. Qed.
    Lemma f_lookup i a : l !! i = Some a -> f a = nx + i.
    Proof. intros H. unfold f, copy_addr. rewrite (index_of_nodup l i a tree_nodup H). reflexivity. Qed.
    Lemma f_index i a : index_of a l = Some i -> f a = nx + i.
    Proof. intros H. unfold f, copy_addr. rewrite H. reflexivity. Qed.
    Lemma f_inj a b : a ∈ l -> b ∈ l -> f a = f b -> a = b.
    Proof.
      intros Ha Hb E. apply elem_of_list_lookup in Ha as [i Hi], Hb as [j Hj]. rewrite (f_lookup i a Hi), (f_lookup j b Hj) in E.
      assert (i = j) as -> by lia. congruence.
    Qed.
    Lemma pick_copy (g : nat -> option nat) (pa : nat -> option nat) i a :
      (forall j b, l !! j = Some b -> g j = match pa b with Some p => index_of p l | None => None end) ->
      l !! i = Some a -> pick nx g k i = map f (List.filter (fun b => bool_decide (pa b = Some a)) l).
    Proof.
      intros Hg Hi. unfold pick. apply map_filter_pair. apply Forall2_lookup. intros j.
      destruct (decide (j < k)) as [Hj|Hj].
      - destruct (lookup_lt_is_Some_2 l j Hj) as [b Hb]. rewrite lookup_seq_lt, Hb by exact Hj. constructor. rewrite Nat.add_0_l.
        split; [|rewrite (f_lookup j b Hb); reflexivity]. rewrite (Hg j b Hb). apply bool_decide_ext. destruct (pa b) as [p|]; [|split; discriminate]. split.
        + intros E. apply index_of_lookup in E. congruence.
        + intros E. injection E as ->. apply index_of_nodup; [exact tree_nodup|exact Hi].
      - rewrite (lookup_ge_None_2 l) by (unfold k in *; lia). rewrite lookup_seq_ge by lia. constructor.
    Qed.
    Lemma tree_copy : copy_by f h h2 l.
    Proof.
      split; [exact f_inj|]. intros a n Ha Hn. apply elem_of_list_lookup in Ha as [i Hi].
      assert (Hik : i < k) by (eapply lookup_lt_Some; eauto). rewrite (f_lookup i a Hi).
      exists (copied h nx l k k i n). split; [apply (ih_new _ _ _ _ _ _ _ H2 i a n Hik Hi Hn)|].
      unfold copied. cbn [n_joint n_link n_parent n_children n_mimic_parent n_mimic n_mimic_children].
      assert (Hal : a ∈ l) by (eapply elem_of_list_lookup_2; eauto).
      destruct (decide (i < k)) as [_|Hk']; [|contradiction].
      split; [reflexivity|]. split; [reflexivity|]. split; [|split; [|split; [|split]]].
      - unfold pidx. rewrite Hi. destruct (par h a) as [p|] eqn:Ep.
        + assert (Hp : p ∈ l) by (apply (Hsc a p Hal); left; apply par_iff; exact Ep).
          apply par_iff in Ep as [(n' & Hn' & Ep) _]. assert (n' = n) as -> by congruence. rewrite Ep.
          destruct (index_of_elem p l Hp) as [j Hj]. rewrite Hj. cbn. rewrite (f_index j p Hj). reflexivity.
        + destruct (n_parent n) as [p|] eqn:E; [|reflexivity]. exfalso. assert (Hp : has_parent h a p) by (exists n; auto).
          assert (live_parent h a p) as H by (split; [exact Hp|eapply (forest_live h Hf); eauto]). apply par_iff in H. congruence.
      - rewrite (pick_copy (pidx h l) (par h) i a); [|intros j b Hj; unfold pidx; rewrite Hj; reflexivity|exact Hi].
        f_equal. destruct (children_in_order h tr Hf Ht a) as [H1 _]. apply (H1 n Hal Hn).
      - intros m. unfold midx. rewrite Hi. split.
        + destruct (mpar h a) as [m0|] eqn:Em; [|discriminate]. destruct (index_of m0 l) as [j|] eqn:Ej; [|discriminate].
          cbn. intros E. injection E as <-. exists m0. split; [apply mpar_iff; exact Em|]. rewrite (f_index j m0 Ej). reflexivity.
        + intros (m0 & Hm & ->). assert (Hl : m0 ∈ l) by (apply (Hsc a m0 Hal); right; exact Hm). apply mpar_iff in Hm. rewrite Hm.
          destruct (index_of_elem m0 l Hl) as [j Hj]. rewrite Hj. cbn. rewrite (f_index j m0 Hj). reflexivity.
      - intros [m Hm]. unfold midx. rewrite Hi. assert (Hl : m ∈ l) by (apply (Hsc a m Hal); right; exact Hm). apply mpar_iff in Hm. rewrite Hm.
        destruct (index_of_elem m l Hl) as [j Hj]. rewrite Hj. reflexivity.
      - intros c. rewrite (pick_copy (midx h l) (mpar h) i a); [|intros j b Hj; unfold midx; rewrite Hj; reflexivity|exact Hi].
        rewrite elem_of_list_In, in_map_iff. split.
        + intros (c0 & <- & Hc). apply filter_In in Hc as [Hc1 Hc2]. apply bool_decide_eq_true, mpar_iff in Hc2.
          exists c0. split; [apply elem_of_list_In; exact Hc1|]. auto.
        + intros (c0 & Hc1 & Hc2 & ->). exists c0. split; [reflexivity|]. apply filter_In. split; [apply elem_of_list_In; exact Hc1|].
          apply bool_decide_eq_true, mpar_iff. exact Hc2.
    Qed.
    Lemma copied_tree : tree_in h2 (rename f (mirror tr)).
    Proof.
      assert (Hgo : forall t, tree_in h t -> (forall b, b ∈ preorder_last t -> b ∈ l) -> tree_in h2 (rename f (mirror t))).
      { induction t as [a cs IH] using tree_ind'. intros Hta Hsub. apply tree_in_inv in Hta as (n & Hn & Hch & Hcs).
        destruct (cb_node _ _ _ _ tree_copy a n) as (n' & Hn' & _ & _ & _ & Hc & _); [apply Hsub; cbn; set_solver|exact Hn|].
        cbn [mirror rename]. apply (tree_in_node h2 (f a) n'); [exact Hn'| |].
        - rewrite Hc, Hch, <- !map_rev, !map_map. apply map_ext. intros t. rewrite troot_rename, troot_mirror. reflexivity.
        - apply Forall_forall. intros t Hti. apply elem_of_list_In, in_map_iff in Hti as (t1 & <- & Hti).
          apply in_rev in Hti. apply in_map_iff in Hti as (t0 & <- & Hti). rewrite Forall_forall in IH, Hcs.
          apply elem_of_list_In in Hti. apply IH; [exact Hti|apply Hcs; exact Hti|].
          intros b Hb. apply Hsub. cbn [preorder_last]. apply elem_of_list_further. apply elem_of_list_In, in_concat.
          exists (preorder_last t0). split; [|apply elem_of_list_In; exact Hb]. apply -> in_rev. apply in_map. apply elem_of_list_In. exact Hti. }
      apply Hgo; [exact Ht|auto].
    Qed.
    Lemma copied_root : troot (rename f (mirror tr)) = nx.
    Proof. rewrite troot_rename, troot_mirror. rewrite (f_lookup 0); [lia|]. apply preorder_last_head. Qed.
    Lemma copied_order : preorder_last (rename f (mirror tr)) = map f (preorder_first tr).
    Proof. rewrite rename_last, mirror_order. reflexivity. Qed.
    Lemma copied_size : tsize (rename f (mirror tr)) = tsize tr.
    Proof.
      rewrite <- preorder_last_length, copied_order, map_length, (Permutation_length (preorder_perm tr)). apply preorder_last_length.
    Qed.
    Lemma copied_movable a : a ∈ l -> node_movable h2 (f a) = node_movable h a.
    Proof.
      intros Ha. destruct (tree_live a Ha) as [n Hn]. destruct (cb_node _ _ _ _ tree_copy a n Ha Hn) as (n' & Hn' & Hj & _).
      unfold node_movable. rewrite Hn, Hn', Hj. reflexivity.
    Qed.
    Lemma copied_joint a : a ∈ l -> joint_of h2 (f a) = joint_of h a.
    Proof.
      intros Ha. destruct (tree_live a Ha) as [n Hn]. destruct (cb_node _ _ _ _ tree_copy a n Ha Hn) as (n' & Hn' & Hj & _).
      unfold joint_of. rewrite Hn, Hn'. cbn. rewrite Hj. reflexivity.
    Qed.
    Lemma copied_mimics : mimics_complete h l -> mimics_complete h2 (map f l) .
    Proof.
      intros Hmc b n' m Hb Hn' (n1 & Hn1 & Hm1 & _). apply elem_of_list_In, in_map_iff in Hb as (a & <- & Ha). apply elem_of_list_In in Ha.
      destruct (tree_live a Ha) as [n Hn]. destruct (cb_node _ _ _ _ tree_copy a n Ha Hn) as (n2 & Hn2 & _ & _ & _ & _ & H3 & H4 & _).
      assert (n1 = n2) as -> by congruence. assert (n' = n2) as -> by congruence. apply H3 in Hm1 as (m0 & Hm0 & _).
      rewrite H4 by eauto. eapply Hmc; eauto.
    Qed.
    Lemma filter_map_f L : (forall a, a ∈ L -> a ∈ l) -> List.filter (node_movable h2) (map f L) = map f (List.filter (node_movable h) L).
    Proof.
      induction L as [|a L IH]; intros H; [reflexivity|]. cbn. rewrite copied_movable by (apply H; set_solver). rewrite IH by (intros; apply H; set_solver).
      destruct (node_movable h a); reflexivity.
    Qed.
  End Tree.

  (** ** the copy keeps the graph a forest *)
  Lemma after_forest h h2 nx l : heap_ok h nx -> all_live h l -> is_heap h nx l (length l) (length l) (length l) h2 -> forest h -> forest h2.
  Proof.
    intros Hok Hl H2 Hf. set (k := length l) in *.
    pose proof (after_heap_ok h h2 nx l Hok Hl H2) as Hok2. fold k in Hok2.
    assert (Hpn : forall c p, nx <= c -> has_parent h2 c p <-> exists i j, i < k /\ j < k /\ c = nx + j /\ p = nx + i /\ pidx h l j = Some i).
    { intros c p Hc. split.
      - intros (n & Hn & Hp). destruct (new_node h h2 nx l Hl H2 c n Hc Hn) as (j & a & n0 & Hj & -> & Ha & Hn0 & ->). cbn in Hp.
        fold k in Hp. destruct (decide (j < k)) as [_|?]; [|contradiction]. destruct (pidx h l j) as [i|] eqn:E; [|discriminate]. cbn in Hp. injection Hp as <-.
        exists i, j. split; [eapply pidx_bound; eauto|]. auto.
      - intros (i & j & Hi & Hj & -> & -> & Hp). destruct (node_of_index h l Hl j Hj) as (a & n & Ha & Hn).
        exists (copied h nx l k k j n). split; [apply (ih_new _ _ _ _ _ _ _ H2 j a n Hj Ha Hn)|]. cbn.
        destruct (decide (j < k)); [|contradiction]. rewrite Hp. reflexivity. }
    assert (Hpo : forall c p, c < nx -> has_parent h2 c p <-> has_parent h c p).
    { intros c p Hc. unfold has_parent. rewrite (ih_old _ _ _ _ _ _ _ H2) by exact Hc. reflexivity. }
    assert (Hco : forall p c, p < nx -> lists_child h2 p c <-> lists_child h p c).
    { intros p c Hp. unfold lists_child. rewrite (ih_old _ _ _ _ _ _ _ H2) by exact Hp. reflexivity. }
    assert (Hhb : forall c p, has_parent h c p -> c < nx /\ p < nx).
    { intros c p (n & Hn & Hp). split; [apply (hk_bound _ _ Hok); eauto|eapply (hk_parent _ _ Hok); eauto]. }
    split.
    - intros p c. destruct (decide (p < nx)) as [Hp|Hp].
      + rewrite Hco by exact Hp. rewrite (forest_agree h Hf). split.
        * intros H. apply Hpo; [apply (Hhb c p H)|exact H].
        * intros H. destruct (decide (c < nx)) as [Hc|Hc]; [apply Hpo; assumption|]. apply Hpn in H as (i & j & _ & _ & _ & -> & _); lia.
      + rewrite (child_new h h2 nx l Hl H2 p c) by lia. fold k. split.
        * intros (i & j & Hi & Hj & -> & -> & E). apply Hpn; [lia|]. exists i, j. auto.
        * intros H. destruct (decide (c < nx)) as [Hc|Hc]; [apply Hpo in H; [|exact Hc]; apply Hhb in H; lia|].
          apply Hpn in H as (i & j & Hi & Hj & -> & -> & E); [|lia]. exists i, j. auto.
    - intros p n Hn. destruct (decide (p < nx)) as [Hp|Hp].
      + rewrite (ih_old _ _ _ _ _ _ _ H2) in Hn by exact Hp. eapply (forest_once h Hf); eauto.
      + destruct (new_node h h2 nx l Hl H2 p n ltac:(lia) Hn) as (i & a & n0 & _ & _ & _ & _ & ->). cbn. unfold pick.
        apply NoDup_fmap_2; [intros x y; lia|]. apply NoDup_ListNoDup, List.NoDup_filter, NoDup_ListNoDup, NoDup_seq.
    - intros c p H. destruct (decide (c < nx)) as [Hc|Hc].
      + apply Hpo in H; [|exact Hc]. destruct (forest_live h Hf c p H) as [n Hn]. exists n. exact (after_old h h2 nx l Hok H2 p n Hn).
      + apply Hpn in H as (i & j & Hi & Hj & -> & -> & E); [|lia]. exact (new_alive h h2 nx l Hl H2 i Hi).
    - assert (Hcy : forall a b, tc (has_parent h2) a b -> (a < nx -> b < nx /\ tc (has_parent h) a b) /\
        (nx <= a -> exists i j x y, a = nx + i /\ b = nx + j /\ l !! i = Some x /\ l !! j = Some y /\ tc (has_parent h) x y)).
      { assert (Hstep : forall i j, pidx h l i = Some j -> exists x y, l !! i = Some x /\ l !! j = Some y /\ has_parent h x y).
        { intros i j E. unfold pidx in E. destruct (l !! i) as [x|] eqn:Ex; [|discriminate]. destruct (par h x) as [y|] eqn:Ey; [|discriminate].
          exists x, y. split; [reflexivity|]. split; [apply index_of_lookup; exact E|]. apply par_iff in Ey as [Ey _]. exact Ey. }
        induction 1 as [a b H|a b c H Htc [IH1 IH2]]; split; intros Ha.
        - apply Hpo in H; [|exact Ha]. split; [apply (Hhb a b H)|apply tc_once; exact H].
        - apply Hpn in H as (i & j & _ & _ & -> & -> & E); [|exact Ha]. destruct (Hstep j i E) as (x & y & Hx & Hy & H).
          exists j, i, x, y. split; [reflexivity|]. split; [reflexivity|]. split; [exact Hx|]. split; [exact Hy|]. apply tc_once. exact H.
        - apply Hpo in H; [|exact Ha]. destruct (IH1 (proj2 (Hhb a b H))) as [B1 B2]. split; [exact B1|]. eapply tc_l; eauto.
        - apply Hpn in H as (i & j & _ & _ & -> & -> & E); [|exact Ha]. destruct (Hstep j i E) as (x & y & Hx & Hy & H).
          destruct (IH2 ltac:(lia)) as (i' & j' & x' & y' & E1 & -> & Hx' & Hy' & Htc'). assert (i' = i) as -> by lia.
          assert (x' = y) as -> by congruence. exists j, j', x, y'. split; [reflexivity|]. split; [reflexivity|]. split; [exact Hx|]. split; [exact Hy'|].
          eapply tc_l; eauto. }
      intros a Ha. destruct (decide (a < nx)) as [Hlt|Hge].
      + destruct (proj1 (Hcy a a Ha) Hlt) as [_ Hc]. apply (forest_acyclic h Hf a Hc).
      + destruct (proj2 (Hcy a a Ha) ltac:(lia)) as (i & j & x & y & E1 & E2 & Hx & Hy & Hc). assert (i = j) as -> by lia.
        assert (x = y) as -> by congruence. apply (forest_acyclic h Hf y Hc).
  Qed.
End CloneProofs3.
