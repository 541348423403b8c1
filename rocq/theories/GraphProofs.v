(** * Proofs about parent links, child lists and the two iterators *)
From Coq Require Import String.
From stdpp Require Import gmap.
From Verif Require Import Scalar Geometry Joint Link Prog NodeM RunLemmas
  SpecJoint SpecNode JointProofs NodeProofs SpecGraph.

Section TreeInd.
  Variable P : tree -> Prop.
  Hypothesis H : forall a cs, Forall P cs -> P (TNode a cs).
  Fixpoint tree_ind' (t : tree) : P t :=
    match t with
    | TNode a cs => H a cs ((fix go l : Forall P l :=
        match l with [] => Forall_nil_2 _ | t :: l => Forall_cons_2 _ _ _ (tree_ind' t) (go l) end) cs)
    end.
End TreeInd.

Section GraphProofs.
  Context {T : Type} `{Sc : Scalar T}.
  Implicit Types (h : gmap nat (node T)).

  (** ** parent() *)
  Lemma live_parent_iff h a n p :
    h !! a = Some n -> (live h (n_parent n) = Some p <-> live_parent h a p).
  Proof.
    intros Hn. unfold live_parent, has_parent. split.
    - unfold live. destruct (n_parent n) as [w|] eqn:E; [|discriminate].
      destruct (h !! w) eqn:Ew; [|discriminate]. injection 1 as <-. eauto.
    - intros [(n' & Hn' & Hp) [x Hx]]. assert (n' = n) as -> by congruence.
      rewrite Hp. cbn. rewrite Hx. reflexivity.
  Qed.
  Lemma no_parent_iff h a n :
    h !! a = Some n -> (live h (n_parent n) = None <-> no_parent h a).
  Proof.
    intros Hn. split.
    - intros E. split; [eauto|]. intros p Hp. apply (live_parent_iff h a n p Hn) in Hp. congruence.
    - intros [_ Hp]. destruct (live h (n_parent n)) as [p|] eqn:E; [|reflexivity].
      exfalso. apply (Hp p). apply (live_parent_iff h a n p Hn). exact E.
  Qed.
  Lemma live_parent_fun h a p q : live_parent h a p -> live_parent h a q -> p = q.
  Proof. intros [(n & Hn & Hp) _] [(n' & Hn' & Hq) _]. congruence. Qed.
  Lemma live_parent_not_no h a p : live_parent h a p -> no_parent h a -> False.
  Proof. intros H [_ H2]. exact (H2 _ H). Qed.

  Lemma run_parent_spec t h nx a :
    is_Some (h !! a) ->
    exists o, run t (node_parent a) (quiet h nx) = Done o (quiet h nx) /\
      match o with Some p => live_parent h a p | None => no_parent h a end.
  Proof.
    intros [n Hn]. exists (live h (n_parent n)). split.
    - apply run_node_parent; [assumption|apply lookup_empty].
    - destruct (live h (n_parent n)) as [p|] eqn:E.
      + apply (live_parent_iff h a n p Hn). exact E.
      + apply (no_parent_iff h a n Hn). exact E.
  Qed.
  Lemma run_parent_some t h nx a p :
    live_parent h a p -> run t (node_parent a) (quiet h nx) = Done (Some p) (quiet h nx).
  Proof.
    intros H. destruct H as [(n & Hn & Hp) Hl] eqn:E.
    destruct (run_parent_spec t h nx a) as (o & Hr & Ho); [eauto|].
    rewrite Hr. destruct o as [q|].
    - rewrite (live_parent_fun h a p q); auto.
    - exfalso. eapply live_parent_not_no; eauto.
  Qed.
  Lemma run_parent_none t h nx a :
    no_parent h a -> run t (node_parent a) (quiet h nx) = Done None (quiet h nx).
  Proof.
    intros H. destruct (run_parent_spec t h nx a) as (o & Hr & Ho); [apply H|].
    rewrite Hr. destruct o as [q|]; [|reflexivity].
    exfalso. eapply live_parent_not_no; eauto.
  Qed.

  (** ** iter_ancestors *)
  Lemma path_up_live h a l : path_up h a l -> is_Some (h !! a).
  Proof. destruct 1 as [a [H _]|a p l [(n & Hn & _) _] _]; eauto. Qed.

  Lemma path_up_fun h a l1 : path_up h a l1 -> forall l2, path_up h a l2 -> l1 = l2.
  Proof.
    induction 1 as [a H|a p l H H1 IH]; intros l2 H2; inversion H2; subst; auto.
    - exfalso. eapply live_parent_not_no; eauto.
    - exfalso. eapply live_parent_not_no; eauto.
    - f_equal. apply IH. erewrite (live_parent_fun h a p); eauto.
  Qed.
  Lemma path_up_suffix h a l : path_up h a l -> forall b, b ∈ l -> exists l1 l2, l = l1 ++ l2 /\ path_up h b l2.
  Proof.
    induction 1 as [a H|a p l H H1 IH]; intros b Hb.
    - assert (b = a) as -> by set_solver. exists [], [a]. split; [reflexivity|]. by constructor.
    - apply elem_of_cons in Hb as [->|Hb].
      + exists [], (a :: l). split; [reflexivity|]. econstructor; eauto.
      + destruct (IH b Hb) as (l1 & l2 & -> & H2). exists (a :: l1), l2. auto.
  Qed.
  Lemma path_up_nodup h a l : path_up h a l -> NoDup l.
  Proof.
    induction 1 as [a H|a p l H H1 IH]; [apply NoDup_singleton|].
    constructor; [|assumption]. intros Hin.
    destruct (path_up_suffix _ _ _ H1 a Hin) as (l1 & l2 & -> & H2).
    assert (path_up h a (a :: l1 ++ l2)) as H3 by (econstructor; eauto).
    pose proof (path_up_fun _ _ _ H2 _ H3) as E. apply (f_equal length) in E.
    cbn in E. rewrite app_length in E. lia.
  Qed.
  Lemma path_up_rtc h a l : path_up h a l -> forall b, b ∈ l <-> rtc (live_parent h) a b.
  Proof.
    induction 1 as [a H|a p l H H1 IH]; intros b.
    - split.
      + intros Hb. assert (b = a) as -> by set_solver. reflexivity.
      + intros Hr. inversion Hr as [|x y z Hxy]; subst; [set_solver|].
        exfalso. eapply live_parent_not_no; eauto.
    - rewrite elem_of_cons, IH. split.
      + intros [->|Hb]; [reflexivity|]. econstructor; eauto.
      + intros Hr. inversion Hr as [|x y z Hxy]; subst; [auto|].
        right. rewrite (live_parent_fun h a p y); auto.
  Qed.

  Lemma run_ancestors_collect t h nx a l :
    path_up h a l -> forall fuel, length l < fuel ->
    run t (ancestors_collect fuel (Some a)) (quiet h nx) = Done l (quiet h nx).
  Proof.
    induction 1 as [a H|a p l H H1 IH]; intros fuel Hf; (destruct fuel as [|fuel]; [cbn in Hf; lia|]);
      cbn [ancestors_collect ancestors_next length] in *.
    - rewrite run_bind, run_bind, run_parent_none by assumption. cbn [obind run].
      destruct fuel as [|fuel]; [lia|].
      rewrite run_bind. cbn [ancestors_collect ancestors_next bind run obind]. reflexivity.
    - rewrite run_bind, run_bind, (run_parent_some _ _ _ _ p) by assumption. cbn [obind run].
      rewrite run_bind, IH by lia. reflexivity.
  Qed.
  Lemma run_ancestors_collect_inv t h nx fuel : forall a l s,
    run t (ancestors_collect fuel (Some a)) (quiet h nx) = Done l s ->
    path_up h a l /\ s = quiet h nx.
  Proof.
    induction fuel as [|fuel IH]; intros a l s H; [discriminate|].
    cbn [ancestors_collect ancestors_next] in H. rewrite run_bind, run_bind in H.
    destruct (h !! a) as [n|] eqn:Hn.
    2:{ unfold node_parent in H. rewrite run_bind in H. cbn [lock run heap quiet] in H.
        rewrite Hn in H. discriminate. }
    destruct (run_parent_spec t h nx a) as (o & Hr & Ho); [eauto|].
    rewrite Hr in H. cbn [obind run] in H. apply run_bind_inv in H as (l' & s1 & H1 & H2).
    injection H2 as <- <-. destruct o as [p|].
    - apply IH in H1 as [H1 ->]. split; [|reflexivity]. econstructor; eauto.
    - destruct fuel; [discriminate|]. injection H1 as <- <-. split; [|reflexivity]. by constructor.
  Qed.
  Lemma run_ancestors_lemma t h nx a l :
    path_up h a l ->
    NoDup l /\ (forall b, b ∈ l <-> rtc (live_parent h) a b) /\
    forall fuel, length l < fuel ->
      run t (iter_ancestors fuel a) (quiet h nx) = Done l (quiet h nx).
  Proof.
    intros H. split; [|split].
    - eapply path_up_nodup; eauto.
    - apply path_up_rtc; assumption.
    - apply run_ancestors_collect; assumption.
  Qed.
  Lemma run_ancestors_inv_lemma t h nx fuel a l s :
    run t (iter_ancestors fuel a) (quiet h nx) = Done l s ->
    path_up h a l /\ s = quiet h nx.
  Proof. apply run_ancestors_collect_inv. Qed.

  (** a relation on the live nodes that has no cycle is well founded *)
  Lemma acyclic_sn h (R : nat -> nat -> Prop) a :
    (forall x y, R x y -> is_Some (h !! y)) -> (forall x, ~ tc R x x) -> sn R a.
  Proof.
    intros Hlive Hac. apply tc_finite_sn.
    - intros x. apply Hac.
    - exists (elements (dom h)). intros y Hy. apply elem_of_elements, elem_of_dom.
      induction Hy as [x y Hxy|x y z Hxy Hyz IH]; [eapply Hlive; eauto|assumption].
  Qed.
  Lemma path_up_exists h a :
    (forall x, ~ tc (live_parent h) x x) -> is_Some (h !! a) -> exists l, path_up h a l.
  Proof.
    intros Hac. assert (Hsn : sn (live_parent h) a).
    { apply (acyclic_sn h); [|assumption]. intros x y [_ H]. exact H. }
    induction Hsn as [a _ IH]; intros Ha.
    destruct (run_parent_spec 0 h 0 a Ha) as ([p|] & _ & Ho).
    - destruct (IH p Ho) as [l Hl]; [apply Ho|]. exists (a :: l). econstructor; eauto.
    - exists [a]. by constructor.
  Qed.
  Lemma path_up_short h a l : path_up h a l -> length l <= size h.
  Proof.
    intros H. pose proof (path_up_nodup _ _ _ H) as Hnd.
    assert (Hsub : forall b, b ∈ l -> is_Some (h !! b)).
    { clear Hnd. induction H as [a H|a p l H H1 IH]; intros b Hb.
      - assert (b = a) as -> by set_solver. apply H.
      - apply elem_of_cons in Hb as [->|Hb]; [|auto]. destruct H as [(n & Hn & _) _]. eauto. }
    rewrite <- size_dom. rewrite <- (size_list_to_set (C:=gset nat) l) by assumption.
    apply subseteq_size. intros b Hb. apply elem_of_list_to_set in Hb. apply elem_of_dom. auto.
  Qed.

  (** on a cycle *)
  Lemma loops_next (R : nat -> nat -> Prop) x y :
    rtc R x y -> tc R y y -> exists z, R x z /\ exists w, rtc R z w /\ tc R w w.
  Proof.
    intros H1 H2. inversion H1 as [|x' z y' Hxz Hzy]; subst.
    - inversion H2 as [|x' z y' Hyz Hzy]; subst.
      + exists y. split; [assumption|]. exists y. split; [reflexivity|assumption].
      + exists z. split; [assumption|]. exists y. split; [apply tc_rtc; assumption|assumption].
    - eauto.
  Qed.
  Lemma run_ancestors_cycle t h nx fuel : forall a b,
    rtc (live_parent h) a b -> tc (live_parent h) b b ->
    run t (ancestors_collect fuel (Some a)) (quiet h nx) = OutOfFuel (quiet h nx).
  Proof.
    induction fuel as [|fuel IH]; intros a b H1 H2; [reflexivity|].
    destruct (loops_next _ _ _ H1 H2) as (z & Haz & w & Hzw & Hww).
    cbn [ancestors_collect ancestors_next]. rewrite run_bind, run_bind.
    rewrite (run_parent_some _ _ _ _ z) by assumption. cbn [obind run].
    rewrite run_bind, (IH z w) by assumption. reflexivity.
  Qed.

  (** ** iter_descendants *)
  Lemma run_children t h nx a n :
    h !! a = Some n -> run t (node_children a) (quiet h nx) = Done (n_children n) (quiet h nx).
  Proof. intros. unfold node_children, quiet. eapply run_read; eauto. Qed.

  Definition sizes (ts : list tree) : nat := sum_list (map tsize ts).
  Lemma sizes_app l1 l2 : sizes (l1 ++ l2) = sizes l1 + sizes l2.
  Proof. unfold sizes. induction l1; cbn; lia. Qed.
  Lemma sizes_rev l : sizes (rev l) = sizes l.
  Proof. induction l as [|x l IH]; [reflexivity|]. cbn [rev]. rewrite sizes_app, IH. unfold sizes. cbn. lia. Qed.

  Lemma run_descendants_collect t h nx : forall m ts fuel,
    sizes ts < m -> m <= fuel -> Forall (tree_in h) ts ->
    run t (descendants_collect fuel (map troot ts)) (quiet h nx)
    = Done (concat (map preorder_last ts)) (quiet h nx).
  Proof.
    induction m as [|m IH]; intros ts fuel Hm Hf Hts; [lia|].
    destruct fuel as [|fuel]; [lia|].
    destruct ts as [|[a cs] ts]; [reflexivity|].
    apply Forall_cons in Hts as [Ht Hts]. inversion Ht as [a' n cs' Hn Hch Hcs]; subst.
    cbn [map troot descendants_collect descendants_next].
    rewrite run_bind, run_bind, (run_children _ _ _ _ n) by assumption. cbn [obind run].
    rewrite Hch, <- map_rev, <- map_app, run_bind.
    rewrite IH; [|unfold sizes in *; cbn in Hm |lia|].
    - cbn [obind run map preorder_last concat]. rewrite map_app, concat_app, map_rev. reflexivity.
    - fold (sizes ts) in Hm. change (sum_list (map tsize cs)) with (sizes cs) in Hm.
      fold (sizes (rev cs ++ ts)). rewrite sizes_app, sizes_rev. lia.
    - apply Forall_app. split; [|assumption]. apply Forall_rev. assumption.
  Qed.
  Lemma run_descendants_inv t h nx fuel : forall st l s,
    run t (descendants_collect fuel st) (quiet h nx) = Done l s ->
    s = quiet h nx /\ exists ts, map troot ts = st /\ Forall (tree_in h) ts /\
      l = concat (map preorder_last ts).
  Proof.
    induction fuel as [|fuel IH]; intros st l s H; [discriminate|].
    destruct st as [|a st]; [injection H as <- <-; split; [reflexivity|]; exists []; auto|].
    cbn [descendants_collect descendants_next] in H. rewrite run_bind, run_bind in H.
    destruct (h !! a) as [n|] eqn:Hn.
    2:{ unfold node_children, read in H. cbn [run heap quiet] in H.
        rewrite Hn in H. discriminate. }
    rewrite (run_children _ _ _ _ n) in H by assumption. cbn [obind run] in H.
    apply run_bind_inv in H as (l' & s1 & H1 & H2). injection H2 as <- <-.
    apply IH in H1 as (-> & ts & Hmap & Hts & ->). split; [reflexivity|].
    apply map_eq_app in Hmap as (ts1 & ts2 & -> & Hr & <-).
    apply Forall_app in Hts as [H1 H2].
    exists (TNode a (rev ts1) :: ts2). split; [reflexivity|]. split.
    - constructor; [|assumption]. apply (tree_in_node h a n); [assumption| |].
      + rewrite map_rev, Hr, rev_involutive. reflexivity.
      + apply Forall_rev. assumption.
    - cbn [map preorder_last concat]. rewrite map_app, concat_app, map_rev, rev_involutive. reflexivity.
  Qed.
  Lemma run_descendants_lemma t h nx tr fuel :
    tree_in h tr -> tsize tr < fuel ->
    run t (iter_descendants fuel (troot tr)) (quiet h nx) = Done (preorder_last tr) (quiet h nx).
  Proof.
    intros Ht Hf. unfold iter_descendants.
    pose proof (run_descendants_collect t h nx fuel [tr] fuel) as H.
    cbn [map concat] in H. rewrite app_nil_r in H. apply H; [unfold sizes; cbn; lia|lia|].
    by repeat constructor.
  Qed.
  Lemma run_descendants_inv_lemma t h nx fuel a l s :
    run t (iter_descendants fuel a) (quiet h nx) = Done l s ->
    s = quiet h nx /\ exists tr, troot tr = a /\ tree_in h tr /\ l = preorder_last tr.
  Proof.
    intros H. apply run_descendants_inv in H as (-> & ts & Hmap & Hts & ->). split; [reflexivity|].
    destruct ts as [|tr [|? ?]]; cbn in Hmap; try discriminate. injection Hmap as Hr.
    apply Forall_cons in Hts as [Ht _]. exists tr. cbn. rewrite app_nil_r. auto.
  Qed.

  Lemma tree_in_fun h t1 : tree_in h t1 -> forall t2, tree_in h t2 -> troot t1 = troot t2 -> t1 = t2.
  Proof.
    induction t1 as [a cs IH] using tree_ind'; intros H1 t2 H2 Hr.
    inversion H1 as [a' n cs' Hn Hch Hcs]; subst. inversion H2 as [a' n' cs' Hn' Hch' Hcs']; subst.
    cbn in Hr. subst a'. assert (n' = n) as -> by congruence. f_equal.
    rewrite Hch in Hch'. clear H1 H2 Hch. revert cs' Hch' Hcs'.
    induction IH as [|t cs Ht IH IH2]; intros cs' E Hcs'; destruct cs' as [|t' cs']; cbn in E; try discriminate; auto.
    injection E as E1 E2. apply Forall_cons in Hcs as [? ?]. apply Forall_cons in Hcs' as [? ?].
    f_equal; auto.
  Qed.

  (** the nodes of a tree *)
  Lemma preorder_last_in h tr : tree_in h tr ->
    forall b, b ∈ preorder_last tr <-> rtc (lists_child h) (troot tr) b.
  Proof.
    induction tr as [a cs IH] using tree_ind'. intros Ht b.
    inversion Ht as [a' n cs' Hn Hch Hcs]; subst. cbn [preorder_last troot].
    rewrite elem_of_cons, elem_of_list_In, in_concat. split.
    - intros [->|(l & Hl & Hb)]; [reflexivity|].
      apply in_rev, in_map_iff in Hl as (t & <- & Hin). apply elem_of_list_In in Hin, Hb.
      rewrite Forall_forall in IH, Hcs. apply rtc_l with (troot t).
      + exists n. split; [assumption|]. rewrite Hch. apply elem_of_list_In, in_map, elem_of_list_In. assumption.
      + apply IH; auto.
    - intros Hr. inversion Hr as [|x y z Hxy Hyz]; subst; [auto|]. right.
      destruct Hxy as (n' & Hn' & Hin). assert (n' = n) as -> by congruence.
      rewrite Hch in Hin. apply elem_of_list_In, in_map_iff in Hin as (t & Htr & Hin). subst y.
      exists (preorder_last t). split.
      + apply -> in_rev. apply in_map. assumption.
      + apply elem_of_list_In in Hin. apply elem_of_list_In. rewrite Forall_forall in IH, Hcs. apply IH; auto.
  Qed.
  Lemma preorder_perm tr : preorder_first tr ≡ₚ preorder_last tr.
  Proof.
    induction tr as [a cs IH] using tree_ind'. cbn [preorder_first preorder_last]. constructor.
    rewrite <- map_rev, <- (rev_involutive cs) at 1.
    assert (Forall (fun t => preorder_first t ≡ₚ preorder_last t) (rev cs)) as H by (apply Forall_rev; assumption).
    clear IH. revert H. generalize (rev cs). clear cs. intros cs H.
    induction H as [|t l Ht Hl IH]; [reflexivity|].
    cbn [rev map concat]. rewrite map_app, concat_app, IH. cbn [map concat]. rewrite app_nil_r, Ht.
    apply Permutation_app_comm.
  Qed.
  Lemma preorder_last_length tr : length (preorder_last tr) = tsize tr.
  Proof.
    rewrite <- (Permutation_length (preorder_perm tr)).
    induction tr as [a cs IH] using tree_ind'. cbn [preorder_first tsize length]. f_equal.
    induction IH as [|t l Ht Hl IH]; [reflexivity|]. cbn. rewrite app_length, IH, Ht. reflexivity.
  Qed.

  (** in a forest every node is the root of a tree *)
  Lemma tc_flip {A} (R S : A -> A -> Prop) x y :
    (forall a b, R a b -> S b a) -> tc R x y -> tc S y x.
  Proof.
    intros HRS. induction 1 as [x y H|x y z H _ IH]; [apply tc_once; auto|].
    eapply tc_r; [exact IH|]. auto.
  Qed.
  Lemma forest_child_acyclic h : forest h -> forall a, ~ tc (lists_child h) a a.
  Proof.
    intros Hf a Ha. apply (forest_acyclic h Hf a). eapply tc_flip; [|exact Ha].
    intros x y. apply (forest_agree h Hf).
  Qed.
  Lemma forest_children_live h : forest h -> children_live h.
  Proof. intros Hf p c H. apply (forest_agree h Hf) in H as (n & Hn & _). eauto. Qed.
  Lemma tree_exists h a :
    children_live h -> (forall x, ~ tc (lists_child h) x x) -> is_Some (h !! a) ->
    exists tr, troot tr = a /\ tree_in h tr.
  Proof.
    intros Hlive Hac. assert (Hsn : sn (lists_child h) a).
    { apply (acyclic_sn h); [|assumption]. exact Hlive. }
    induction Hsn as [a _ IH]; intros [n Hn].
    assert (exists cs, map troot cs = n_children n /\ Forall (tree_in h) cs) as (cs & Hcs & Hts).
    { assert (Hall : forall c, c ∈ n_children n -> exists tr, troot tr = c /\ tree_in h tr).
      { intros c Hc. apply IH; [exists n; auto|]. apply (Hlive a c). exists n. auto. }
      clear -Hall. induction (n_children n) as [|c l IHl]; [exists []; auto|].
      destruct (Hall c) as (tr & <- & Htr); [set_solver|].
      destruct IHl as (cs & <- & Hcs); [intros; apply Hall; set_solver|].
      exists (tr :: cs). auto. }
    exists (TNode a cs). split; [reflexivity|]. apply (tree_in_node h a n); auto.
  Qed.

  (** ** order: parents before children *)
  Lemma elem_split_fun {A} (l1 l2 m1 m2 : list A) x :
    NoDup (l1 ++ x :: l2) -> l1 ++ x :: l2 = m1 ++ x :: m2 -> l1 = m1.
  Proof.
    revert m1. induction l1 as [|y l1 IH]; intros [|z m1] Hnd E; cbn in *; auto.
    - injection E as -> ->. apply NoDup_cons in Hnd as [H _]. set_solver.
    - injection E as -> <-. apply NoDup_cons in Hnd as [H _]. set_solver.
    - injection E as -> E. f_equal. apply NoDup_cons in Hnd as [_ H]. eauto.
  Qed.
  Definition child_after h (a : nat) (l : list nat) : Prop :=
    forall l1 b l2, l = l1 ++ b :: l2 -> b = a \/ exists p, p ∈ l1 /\ lists_child h p b.
  Lemma preorder_last_order h tr : tree_in h tr -> child_after h (troot tr) (preorder_last tr).
  Proof.
    induction tr as [a cs IH] using tree_ind'. intros Ht l1 b l2 E.
    inversion Ht as [a' n cs' Hn Hch Hcs]; subst. cbn [preorder_last troot] in *.
    destruct l1 as [|x l1]; cbn in E; injection E as -> E; [auto|]. right.
    rewrite <- map_rev in E. assert (Hin : forall t, t ∈ rev cs -> t ∈ cs).
    { intros t. rewrite !elem_of_list_In. apply in_rev. }
    assert (Forall (fun t => child_after h (troot t) (preorder_last t)) (rev cs)) as H.
    { apply Forall_rev. rewrite Forall_forall in *. auto. }
    assert (Hx : forall t, t ∈ rev cs -> lists_child h x (troot t)).
    { intros t Hti. exists n. split; [assumption|]. rewrite Hch.
      apply elem_of_list_In, in_map, elem_of_list_In. auto. }
    clear -E H Hx. revert l1 E Hx. induction H as [|t l Ht Hl IH]; intros l1 E Hx.
    { destruct l1; discriminate. }
    cbn in E. symmetry in E. apply app_eq_app in E as (k & [[-> E]|[Ek E]]).
    - (* b lies in a later tree *)
      destruct (IH k) as (p & Hp & Hc); [auto|intros; apply Hx; set_solver|].
      exists p. split; [|assumption]. set_solver.
    - destruct k as [|y k]; cbn in E.
      + destruct (IH []) as (p & Hp & Hc); [auto|intros; apply Hx; set_solver|].
        exists p. split; [|assumption]. set_solver.
      + injection E as -> ->. destruct (Ht l1 y k Ek) as [->|(p & Hp & Hc)].
        * exists x. split; [set_solver|]. apply Hx. set_solver.
        * exists p. split; [set_solver|assumption].
  Qed.

  (** in a forest the enumeration has no repetition *)
  Lemma forest_parent_unique h p q c :
    forest h -> lists_child h p c -> lists_child h q c -> p = q.
  Proof.
    intros Hf H1 H2. apply (forest_agree h Hf) in H1 as (n & Hn & H1), H2 as (n' & Hn' & H2).
    congruence.
  Qed.
  Lemma forest_join h x y b :
    forest h -> rtc (lists_child h) x b -> rtc (lists_child h) y b ->
    rtc (lists_child h) x y \/ rtc (lists_child h) y x.
  Proof.
    intros Hf Hx. revert b Hx. apply (rtc_ind_r (fun b => rtc (lists_child h) y b ->
      rtc (lists_child h) x y \/ rtc (lists_child h) y x)); [auto|].
    intros z b Hxz Hzb IH Hy.
    apply rtc_inv_r in Hy as [->|(w & Hyw & Hwb)].
    - left. eapply rtc_r; eauto.
    - assert (w = z) as -> by (eapply forest_parent_unique; eauto). auto.
  Qed.
  Lemma forest_siblings h p x y b :
    forest h -> lists_child h p x -> lists_child h p y ->
    rtc (lists_child h) x b -> rtc (lists_child h) y b -> x = y.
  Proof.
    intros Hf Hpx Hpy Hx Hy.
    assert (Hno : forall u v, lists_child h p u -> lists_child h p v -> rtc (lists_child h) u v -> u = v).
    { intros u v Hu Hv Huv. apply rtc_inv_r in Huv as [->|(w & Huw & Hwv)]; [reflexivity|].
      assert (w = p) as -> by (eapply forest_parent_unique; eauto).
      exfalso. apply (forest_child_acyclic h Hf p). eapply tc_rtc_r; [apply tc_once; exact Hu|exact Huw]. }
    destruct (forest_join h x y b Hf Hx Hy); [auto|]. symmetry. auto.
  Qed.
  Lemma preorder_last_nodup h tr : forest h -> tree_in h tr -> NoDup (preorder_last tr).
  Proof.
    intros Hf. induction tr as [a cs IH] using tree_ind'. intros Ht.
    inversion Ht as [a' n cs' Hn Hch Hcs]; subst. cbn [preorder_last].
    assert (Hchild : forall t, t ∈ cs -> lists_child h a (troot t)).
    { intros t Hti. exists n. split; [assumption|]. rewrite Hch.
      apply elem_of_list_In, in_map, elem_of_list_In. auto. }
    constructor.
    - rewrite elem_of_list_In, in_concat. intros (l & Hl & Hb).
      apply in_rev, in_map_iff in Hl as (t & <- & Hin). apply elem_of_list_In in Hin, Hb.
      rewrite Forall_forall in Hcs. apply (preorder_last_in h t) in Hb; [|auto].
      apply (forest_child_acyclic h Hf a). eapply tc_rtc_r; [apply tc_once, Hchild; exact Hin|exact Hb].
    - pose proof (forest_once h Hf a n Hn) as Hnd. rewrite Hch in Hnd.
      assert (H : NoDup (concat (map preorder_last cs))).
      { clear Ht Hch Hn. induction cs as [|t cs IHl]; [constructor|].
        cbn in *. apply NoDup_cons in Hnd as [Hnin Hnd]. apply Forall_cons in IH as [IHt IH].
        apply Forall_cons in Hcs as [Htt Hcs]. apply NoDup_app. split; [auto|]. split.
        - intros b Hb Hb2. apply (preorder_last_in h t) in Hb; [|assumption].
          apply elem_of_list_In, in_concat in Hb2 as (l & Hl & Hb2).
          apply in_map_iff in Hl as (t2 & <- & Hin). apply elem_of_list_In in Hin, Hb2.
          rewrite Forall_forall in Hcs. apply (preorder_last_in h t2) in Hb2; [|auto].
          assert (troot t = troot t2) as E.
          { eapply forest_siblings; eauto; apply Hchild; set_solver. }
          apply Hnin. rewrite E. apply elem_of_list_In, in_map, elem_of_list_In. assumption.
        - apply IHl; auto. intros; apply Hchild; set_solver. }
      eapply NoDup_Permutation_proper; [|exact H].
      assert (E : rev (map preorder_last cs) ≡ₚ map preorder_last cs) by (symmetry; apply Permutation_rev).
      rewrite E. reflexivity.
  Qed.

  Lemma forest_tree_lemma h a :
    forest h -> is_Some (h !! a) ->
    exists tr, troot tr = a /\ tree_in h tr /\ NoDup (preorder_last tr) /\
      (forall b, b ∈ preorder_last tr <-> rtc (lists_child h) a b) /\
      (forall l1 b l2, preorder_last tr = l1 ++ b :: l2 -> b <> a ->
         exists p, p ∈ l1 /\ lists_child h p b).
  Proof.
    intros Hf Ha. destruct (tree_exists h a) as (tr & <- & Ht);
      [apply forest_children_live; assumption|apply forest_child_acyclic; assumption|assumption|].
    exists tr. split; [reflexivity|]. split; [assumption|]. split; [eapply preorder_last_nodup; eauto|].
    split; [apply preorder_last_in; assumption|]. intros l1 b l2 E Hb.
    destruct (preorder_last_order h tr Ht l1 b l2 E); tauto.
  Qed.

  (** on a cycle *)
  Lemma run_descendants_cycle t h nx fuel : forall st a b,
    children_live h -> (forall x, x ∈ st -> is_Some (h !! x)) -> a ∈ st ->
    rtc (lists_child h) a b -> tc (lists_child h) b b ->
    run t (descendants_collect fuel st) (quiet h nx) = OutOfFuel (quiet h nx).
  Proof.
    induction fuel as [|fuel IH]; intros st a b Hcl Hst Ha H1 H2; [reflexivity|].
    destruct st as [|x st]; [set_solver|].
    destruct (Hst x) as [n Hn]; [set_solver|].
    cbn [descendants_collect descendants_next]. rewrite run_bind, run_bind.
    rewrite (run_children _ _ _ _ n) by assumption. cbn [obind run]. rewrite run_bind.
    assert (Hst' : forall y, y ∈ rev (n_children n) ++ st -> is_Some (h !! y)).
    { intros y. rewrite elem_of_app. intros [Hy|Hy]; [|apply Hst; set_solver].
      apply (Hcl x y). exists n. split; [assumption|]. rewrite elem_of_list_In in *. apply in_rev. assumption. }
    assert (exists a' b', a' ∈ rev (n_children n) ++ st /\ rtc (lists_child h) a' b' /\ tc (lists_child h) b' b')
      as (a' & b' & Ha' & H1' & H2').
    { apply elem_of_cons in Ha as [->|Ha].
      - destruct (loops_next _ _ _ H1 H2) as (z & (n' & Hn' & Hz) & w & Hzw & Hww).
        assert (n' = n) as -> by congruence. exists z, w. split; [|auto].
        apply elem_of_app. left. rewrite elem_of_list_In in *. apply in_rev. rewrite rev_involutive. assumption.
      - exists a, b. set_solver. }
    rewrite (IH _ a' b') by assumption. reflexivity.
  Qed.
  Lemma run_descendants_cycle_lemma t h nx fuel a b :
    children_live h -> is_Some (h !! a) ->
    rtc (lists_child h) a b -> tc (lists_child h) b b ->
    run t (iter_descendants fuel a) (quiet h nx) = OutOfFuel (quiet h nx).
  Proof.
    intros Hcl Ha H1 H2. eapply run_descendants_cycle; eauto; [|set_solver].
    intros x Hx. assert (x = a) as -> by set_solver. assumption.
  Qed.
End GraphProofs.
