(** * Forward kinematics *)
From Coq Require Import String.
From stdpp Require Import gmap.
From Verif Require Import Scalar Geometry Joint Link Prog NodeM ChainM RunLemmas
  SpecJoint SpecNode JointProofs NodeProofs SpecGraph GraphProofs LinkProofs SpecChain ChainProofs SpecFK.

Section FKProofs.
  Context {T : Type} `{Sc : Scalar T}.
  Implicit Types (h : gmap nat (node T)).

  Definition put_wt (n : node T) (w : iso T) : node T := set_n_joint n (joint_set_wt (n_joint n) w).
  Lemma with_wt_put n w : with_wt n w (put_wt n w).
  Proof. repeat split. Qed.
  Lemma put_wt_with n w n' : with_wt n w n' -> n' = put_wt n w.
  Proof.
    destruct n as [a1 a2 [] a4 a5 a6 a7], n' as [b1 b2 [] b4 b5 b6 b7]. unfold with_wt, put_wt. cbn.
    intros (? & ? & ? & ? & ? & ? & ? & ? & ? & ? & ? & ? & ? & ?). subst. reflexivity.
  Qed.

  (** ** heaps with the same parent links *)
  Definition same_parents h h' : Prop := forall a, n_parent <$> h' !! a = n_parent <$> h !! a.
  Lemma same_parents_sym h h' : same_parents h h' -> same_parents h' h.
  Proof. intros H a. symmetry. apply H. Qed.
  Lemma same_parents_live h h' a : same_parents h h' -> is_Some (h !! a) -> is_Some (h' !! a).
  Proof. intros H [n Hn]. specialize (H a). rewrite Hn in H. destruct (h' !! a); [eauto|discriminate]. Qed.
  Lemma same_parents_has h h' a p : same_parents h h' -> has_parent h a p -> has_parent h' a p.
  Proof.
    intros H (n & Hn & Hp). specialize (H a). rewrite Hn in H. cbn in H.
    destruct (h' !! a) as [n'|] eqn:E; [|discriminate]. exists n'. split; [assumption|]. cbn in H. congruence.
  Qed.
  Lemma same_parents_lp h h' a p : same_parents h h' -> live_parent h a p -> live_parent h' a p.
  Proof. intros H [H1 H2]. split; [eapply same_parents_has; eauto|eapply same_parents_live; eauto]. Qed.
  Lemma same_parents_np h h' a : same_parents h h' -> no_parent h a -> no_parent h' a.
  Proof.
    intros H [H1 H2]. split; [eapply same_parents_live; eauto|]. intros p Hp. apply (H2 p).
    eapply same_parents_lp; eauto. apply same_parents_sym. assumption.
  Qed.
  Lemma same_parents_path h h' a l : same_parents h h' -> path_up h a l -> path_up h' a l.
  Proof.
    intros H. induction 1 as [a Ha|a p l Hp Hl IH].
    - apply path_root. eapply same_parents_np; eauto.
    - eapply path_step; [eapply same_parents_lp; eauto|assumption].
  Qed.

  (** ** the world transform, inductively, relative to a chain [l]: parents outside
      [l] contribute their cache *)
  Inductive based h (l : list nat) : nat -> iso T -> Prop :=
  | based_root a n : h !! a = Some n -> no_parent h a ->
      based h l a (iso_mul iso1 (local_transform (n_joint n)))
  | based_out a n p w : h !! a = Some n -> live_parent h a p -> p ∉ l -> wt_of h p (Some w) ->
      based h l a (iso_mul w (local_transform (n_joint n)))
  | based_in a n p w : h !! a = Some n -> live_parent h a p -> p ∈ l -> based h l p w ->
      based h l a (iso_mul w (local_transform (n_joint n))).
  Lemma based_fun h l a w1 : based h l a w1 -> forall w2, based h l a w2 -> w1 = w2.
  Proof.
    induction 1 as [a n Hn Hp|a n p w Hn Hp Hl Hw|a n p w Hn Hp Hl Hb IH]; intros w2 H2;
      inversion H2 as [? n' Hn' Hp'|? n' p' w' Hn' Hp' Hl' Hw'|? n' p' w' Hn' Hp' Hl' Hb']; subst;
      assert (n' = n) as -> by congruence; try (exfalso; eapply live_parent_not_no; eauto; fail);
      try reflexivity; assert (p' = p) as -> by (eapply live_parent_fun; eauto); try contradiction.
    - f_equal. destruct Hw as (m & Hm & E), Hw' as (m' & Hm' & E'). congruence.
    - f_equal. auto.
  Qed.

  Definition order_ok h (l : list nat) : Prop :=
    all_live h l /\
    forall l1 a l2 p, l = l1 ++ a :: l2 -> live_parent h a p ->
      p ∈ l1 \/ (p ∉ l /\ exists w, wt_of h p (Some w)).

  (** state after the prefix [l1] has been processed *)
  Definition filled h (l l1 : list nat) h1 : Prop :=
    (forall b, b ∈ l1 -> exists n w, h !! b = Some n /\ based h l b w /\ h1 !! b = Some (put_wt n w)) /\
    (forall b, b ∉ l1 -> h1 !! b = h !! b).
  Lemma filled_parents h l l1 h1 : filled h l l1 h1 -> same_parents h h1.
  Proof.
    intros [H1 H2] a. destruct (decide (a ∈ l1)) as [Ha|Ha].
    - destruct (H1 a Ha) as (n & w & Hn & _ & Hn'). rewrite Hn, Hn'. reflexivity.
    - rewrite H2 by assumption. reflexivity.
  Qed.

  Lemma run_parent_wt t h nx a o :
    is_Some (h !! a) ->
    (no_parent h a /\ o = Some iso1) \/ (exists p, live_parent h a p /\ wt_of h p o) ->
    run t (parent_world_transform a) (quiet h nx) = Done o (quiet h nx).
  Proof.
    intros Hl H. unfold parent_world_transform. rewrite run_bind.
    destruct H as [[Hp ->]|(p & Hp & (n & Hn & ->))].
    - rewrite run_parent_none by assumption. reflexivity.
    - rewrite (run_parent_some _ _ _ _ p) by assumption. cbn [obind]. unfold node_world_transform, quiet.
      erewrite run_read; eauto.
  Qed.
  Lemma run_update_transform t h nx a n w :
    h !! a = Some n ->
    (no_parent h a /\ w = iso1) \/ (exists p, live_parent h a p /\ wt_of h p (Some w)) ->
    let w' := iso_mul w (local_transform (n_joint n)) in
    run t (update_transform a) (quiet h nx) = Done w' (quiet (<[a := put_wt n w']> h) nx).
  Proof.
    intros Hn H w'. unfold update_transform. rewrite run_bind, (run_parent_wt _ _ _ _ (Some w));
      [|eauto|destruct H as [[? ->]|?]; [left|right]; auto].
    cbn [obind expect bind]. unfold quiet. rewrite run_bind.
    erewrite run_read by (eauto using lookup_empty). cbn [obind].
    rewrite run_bind. rewrite (run_modify t a _ h nx ∅ n) by (auto using lookup_empty). reflexivity.
  Qed.

  Lemma fill_step t h nx l l1 a l2 h1 :
    order_ok h l -> l = l1 ++ a :: l2 -> filled h l l1 h1 ->
    exists w h2, run t (update_transform a) (quiet h1 nx) = Done w (quiet h2 nx) /\
      based h l a w /\ filled h l (l1 ++ [a]) h2.
  Proof.
    intros [Hlive Hord] E Hf. pose proof (filled_parents _ _ _ _ Hf) as Hsp.
    pose proof (same_parents_sym _ _ Hsp) as Hsp'.
    destruct (Hlive a) as [n Hn]; [rewrite E; set_solver|].
    assert (exists n1, h1 !! a = Some n1 /\ local_transform (n_joint n1) = local_transform (n_joint n) /\
              forall w, put_wt n1 w = put_wt n w) as (n1 & Hn1 & Hloc & Hput).
    { destruct (decide (a ∈ l1)) as [Ha|Ha].
      - destruct (proj1 Hf a Ha) as (n' & w & Hn' & _ & Hh1). assert (n' = n) as -> by congruence.
        exists (put_wt n w). repeat split. assumption.
      - rewrite (proj2 Hf a Ha). exists n. auto. }
    assert (exists w, based h l a (iso_mul w (local_transform (n_joint n))) /\
      ((no_parent h1 a /\ w = iso1) \/ (exists p, live_parent h1 a p /\ wt_of h1 p (Some w)))) as (w & Hb & Hw).
    { destruct (live h (n_parent n)) as [p|] eqn:Ep.
      - apply (live_parent_iff h a n p Hn) in Ep.
        destruct (Hord _ _ _ _ E Ep) as [Hin|[Hout [w Hw]]].
        + destruct (proj1 Hf p Hin) as (np & w & Hnp & Hbp & Hh1). exists w. split.
          * eapply based_in; eauto. rewrite E. set_solver.
          * right. exists p. split; [eapply same_parents_lp; eauto|]. eexists. split; [eassumption|]. reflexivity.
        + exists w. split; [eapply based_out; eauto|]. right. exists p.
          split; [eapply same_parents_lp; eauto|]. destruct Hw as (np & Hnp & Ew).
          exists np. split; [|assumption]. rewrite (proj2 Hf); [assumption|]. rewrite E in Hout. set_solver.
      - apply (no_parent_iff h a n Hn) in Ep. exists iso1. split; [eapply based_root; eauto|]. left.
        split; [eapply same_parents_np; eauto|reflexivity]. }
    exists (iso_mul w (local_transform (n_joint n))), (<[a := put_wt n (iso_mul w (local_transform (n_joint n)))]> h1).
    split; [|split; [assumption|]].
    - rewrite (run_update_transform t h1 nx a n1 w) by assumption. rewrite Hloc, Hput. reflexivity.
    - split.
      + intros b Hb'. destruct (decide (b = a)) as [->|Hne].
        * exists n, (iso_mul w (local_transform (n_joint n))). rewrite lookup_insert. auto.
        * rewrite lookup_insert_ne by auto. apply Hf. set_solver.
      + intros b Hb'. rewrite lookup_insert_ne by set_solver. apply Hf. set_solver.
  Qed.
  Lemma fill_all t h nx l : order_ok h l -> forall l2 l1 h1, l = l1 ++ l2 -> filled h l l1 h1 ->
    exists ws h2, run t (mapM update_transform l2) (quiet h1 nx) = Done ws (quiet h2 nx) /\
      Forall2 (based h l) l2 ws /\ filled h l l h2.
  Proof.
    intros Ho. induction l2 as [|a l2 IH]; intros l1 h1 E Hf.
    - exists [], h1. split; [reflexivity|]. split; [constructor|]. rewrite app_nil_r in E. rewrite E at 2. assumption.
    - destruct (fill_step t h nx l l1 a l2 h1 Ho E Hf) as (w & h2 & Hr & Hb & Hf2).
      destruct (IH (l1 ++ [a]) h2) as (ws & h3 & Hr3 & Hb3 & Hf3).
      { rewrite E, <- app_assoc. reflexivity. } { assumption. }
      exists (w :: ws), h3. split; [|split; [constructor; assumption|assumption]].
      rewrite run_mapM_cons, Hr. cbn [obind]. rewrite Hr3. reflexivity.
  Qed.
  Lemma run_update_transforms t h nx c :
    order_ok h (c_nodes c) ->
    exists ws h', run t (update_transforms c) (quiet h nx) = Done ws (quiet h' nx) /\
      Forall2 (based h (c_nodes c)) (c_nodes c) ws /\ filled h (c_nodes c) (c_nodes c) h'.
  Proof.
    intros Ho. unfold update_transforms. apply (fill_all t h nx _ Ho (c_nodes c) []); [reflexivity|].
    split; [set_solver|reflexivity].
  Qed.

  (** ** chains closed under parents: caches play no role *)
  Lemma product_app base ts us : product base (ts ++ us) = product (product base ts) us.
  Proof. unfold product. apply foldl_app. Qed.
  Lemma world_step h a p n w : live_parent h a p -> h !! a = Some n -> world h p w ->
    world h a (iso_mul w (local_transform (n_joint n))).
  Proof.
    intros Hp Hn (l & ts & Hl & Hts & ->). exists (a :: l), (ts ++ [local_transform (n_joint n)]). split.
    - eapply path_step; eauto.
    - split; [|rewrite product_app; reflexivity]. cbn [rev]. apply Forall2_app; [assumption|].
      constructor; [exists n; auto|constructor].
  Qed.
  Lemma world_root h a n : no_parent h a -> h !! a = Some n ->
    world h a (iso_mul iso1 (local_transform (n_joint n))).
  Proof.
    intros Hp Hn. exists [a], [local_transform (n_joint n)]. split; [constructor; assumption|].
    split; [|reflexivity]. constructor; [exists n; auto|constructor].
  Qed.
  Lemma local_at_fun h a t1 t2 : local_at h a t1 -> local_at h a t2 -> t1 = t2.
  Proof. intros (n & Hn & ->) (n' & Hn' & ->). congruence. Qed.
  Lemma world_fun h a w1 w2 : world h a w1 -> world h a w2 -> w1 = w2.
  Proof.
    intros (l1 & t1 & Hl1 & H1 & ->) (l2 & t2 & Hl2 & H2 & ->).
    assert (l2 = l1) as -> by (eapply path_up_fun; eauto). f_equal. clear Hl1 Hl2.
    revert t2 H2. induction H1 as [|x y xs ys Hxy Hr IH]; intros t2 H2; inversion H2; subst; f_equal; auto.
    eapply local_at_fun; eauto.
  Qed.
  Lemma parents_first_order h l : all_live h l -> parents_first h l -> order_ok h l.
  Proof. intros Hl Hp. split; [assumption|]. intros l1 a l2 p E Hlp. left. eapply Hp; eauto. Qed.
  Lemma based_world h l a w : parents_first h l -> a ∈ l -> based h l a w -> world h a w.
  Proof.
    intros Hpf Ha. induction 1 as [a n Hn Hp|a n p w Hn Hp Hl Hw|a n p w Hn Hp Hl Hb IH].
    - apply world_root; assumption.
    - exfalso. apply elem_of_list_split in Ha as (l1 & l2 & E). apply Hl. rewrite E.
      pose proof (Hpf _ _ _ _ E Hp). set_solver.
    - eapply world_step; eauto.
  Qed.

  (** heaps that agree on parents and local transforms have the same worlds *)
  Definition same_locals h h' : Prop :=
    forall a, (fun n => local_transform (n_joint n)) <$> h' !! a = (fun n => local_transform (n_joint n)) <$> h !! a.
  Lemma world_transfer h h' a w : same_parents h h' -> same_locals h h' -> world h a w -> world h' a w.
  Proof.
    intros Hp Hl (l & ts & Hpath & Hts & ->). exists l, ts. split; [eapply same_parents_path; eauto|].
    split; [|reflexivity]. eapply Forall2_impl; [exact Hts|]. intros b t (n & Hn & ->).
    specialize (Hl b). rewrite Hn in Hl. cbn in Hl. destruct (h' !! b) as [n'|] eqn:E; [|discriminate].
    exists n'. split; [assumption|]. cbn in Hl. congruence.
  Qed.
  Lemma filled_locals h l l1 h1 : filled h l l1 h1 -> same_locals h h1.
  Proof.
    intros [H1 H2] a. destruct (decide (a ∈ l1)) as [Ha|Ha].
    - destruct (H1 a Ha) as (n & w & Hn & _ & Hn'). rewrite Hn, Hn'. reflexivity.
    - rewrite H2 by assumption. reflexivity.
  Qed.

  Lemma Forall2_fun {A B} (R : A -> B -> Prop) l l1 l2 :
    (forall a b1 b2, a ∈ l -> R a b1 -> R a b2 -> b1 = b2) -> Forall2 R l l1 -> Forall2 R l l2 -> l1 = l2.
  Proof.
    revert l1 l2. induction l as [|x l IH]; intros l1 l2 Hf H1 H2; inversion H1; inversion H2; subst; [reflexivity|].
    f_equal; [eapply Hf; eauto; set_solver|]. apply IH; auto. intros. eapply Hf; eauto. set_solver.
  Qed.

  Lemma same_parents_pf h h' l : same_parents h h' -> parents_first h l -> parents_first h' l.
  Proof.
    intros Hs Hp l1 a l2 p E Hlp. eapply Hp; eauto. eapply same_parents_lp; eauto. apply same_parents_sym. assumption.
  Qed.
  Lemma update_transforms_lemma t h nx c :
    all_live h (c_nodes c) -> parents_first h (c_nodes c) ->
    exists ws h', run t (update_transforms c) (quiet h nx) = Done ws (quiet h' nx) /\
      Forall2 (world h) (c_nodes c) ws /\
      Forall2 (cached h h') (c_nodes c) ws /\
      (forall b, b ∉ c_nodes c -> h' !! b = h !! b) /\
      run t (update_transforms c) (quiet h' nx) = Done ws (quiet h' nx).
  Proof.
    intros Hl Hpf. destruct (run_update_transforms t h nx c (parents_first_order _ _ Hl Hpf)) as (ws & h' & Hr & Hb & Hf).
    assert (Hw : Forall2 (world h) (c_nodes c) ws).
    { apply Forall2_same_length_lookup. apply Forall2_same_length_lookup in Hb as [Hlen Hb]. split; [assumption|].
      intros i a w Ha Hwi. eapply based_world; eauto. eapply elem_of_list_lookup_2; eauto. }
    assert (Hc : forall a w, a ∈ c_nodes c -> based h (c_nodes c) a w -> cached h h' a w).
    { intros a w Ha Hba. destruct (proj1 Hf a Ha) as (n & w' & Hn & Hb' & Hn').
      assert (w' = w) as -> by (eapply based_fun; eauto). exists n, (put_wt n w). repeat split; auto. }
    exists ws, h'. split; [assumption|]. split; [assumption|]. split.
    { apply Forall2_same_length_lookup. apply Forall2_same_length_lookup in Hb as [Hlen Hb]. split; [assumption|].
      intros i a w Ha Hwi. apply Hc; eauto. eapply elem_of_list_lookup_2; eauto. }
    split; [apply Hf|].
    pose proof (filled_parents _ _ _ _ Hf) as Hsp. pose proof (filled_locals _ _ _ _ Hf) as Hsl.
    assert (Hl' : all_live h' (c_nodes c)) by (intros a Ha; eapply same_parents_live; eauto).
    pose proof (same_parents_pf _ _ _ Hsp Hpf) as Hpf'.
    destruct (run_update_transforms t h' nx c (parents_first_order _ _ Hl' Hpf')) as (ws2 & h2 & Hr2 & Hb2 & Hf2).
    rewrite Hr2.
    assert (ws2 = ws) as ->.
    { apply (Forall2_fun (world h') (c_nodes c)); [intros; eapply world_fun; eauto| |].
      - apply Forall2_same_length_lookup. apply Forall2_same_length_lookup in Hb2 as [Hlen Hb2]. split; [assumption|].
        intros i a w Ha Hwi. eapply based_world; eauto. eapply elem_of_list_lookup_2; eauto.
      - eapply Forall2_impl; [exact Hw|]. intros a w. apply world_transfer; assumption. }
    f_equal. f_equal. apply map_eq. intros b. destruct (decide (b ∈ c_nodes c)) as [Hin|Hout].
    - destruct (proj1 Hf2 b Hin) as (n2 & w2 & Hn2 & Hb2' & Hh2).
      destruct (proj1 Hf b Hin) as (n1 & w1 & Hn1 & Hb1 & Hh1). rewrite Hh2, Hh1.
      rewrite Hh1 in Hn2. injection Hn2 as <-. f_equal.
      assert (w2 = w1) as ->; [|reflexivity].
      apply (world_fun h' b); [eapply based_world; eauto|].
      eapply world_transfer; eauto. eapply based_world; eauto.
    - rewrite (proj2 Hf2) by assumption. reflexivity.
  Qed.

  (** chains that are closed under parents *)
  Lemma from_end_parents_first h e l : path_up h e l -> parents_first h (rev l).
  Proof.
    induction 1 as [a Ha|a p l Hp Hl IH]; intros l1 b l2 q E Hq.
    - cbn in E. destruct l1 as [|x l1]; [|destruct l1; discriminate]. injection E as <- <-.
      exfalso. eapply live_parent_not_no; eauto.
    - cbn [rev] in E. destruct (decide (l2 = [])) as [->|Hne].
      + apply app_inj_tail in E as [<- <-]. assert (q = p) as -> by (eapply live_parent_fun; eauto).
        apply elem_of_list_In, in_rev. rewrite rev_involutive. apply elem_of_list_In.
        inversion Hl; set_solver.
      + destruct (@exists_last _ l2 Hne) as (l2' & x & ->).
        rewrite app_comm_cons, app_assoc in E. apply app_inj_tail in E as [E _]. eapply IH; eauto.
  Qed.
  Lemma from_root_parents_first h tr :
    forest h -> tree_in h tr -> no_parent h (troot tr) -> parents_first h (preorder_last tr).
  Proof.
    intros Hf Ht Hr l1 a l2 p E Hp.
    pose proof (preorder_last_order h tr Ht) as Ho. 
    destruct (decide (a = troot tr)) as [->|Hne]; [exfalso; eapply live_parent_not_no; eauto|].
    destruct (Ho l1 a l2 E) as [?|(q & Hq & Hc)]; [contradiction|].
    assert (p = q) as ->; [|assumption].
    apply (forest_agree _ Hf) in Hc. destruct Hp as [(n & Hn & Hp) _], Hc as (n' & Hn' & Hq'). congruence.
  Qed.

  (** ** end_transform *)
  Lemma run_end_fold t h nx l ts : Forall2 (local_at h) l ts -> forall acc,
    run t (end_fold acc l) (quiet h nx) = Done (product acc ts) (quiet h nx).
  Proof.
    induction 1 as [|a t' l ts (n & Hn & ->) Hr IH]; intros acc; [reflexivity|].
    cbn [end_fold]. rewrite run_bind. unfold quiet. erewrite run_read by (eauto using lookup_empty).
    cbn [obind]. apply IH.
  Qed.
  Lemma locals_exist h l : all_live h l -> exists ts, Forall2 (local_at h) l ts.
  Proof.
    induction l as [|a l IH]; intros Hl; [exists []; constructor|].
    destruct (Hl a) as [n Hn]; [set_solver|]. destruct IH as [ts Hts]; [intros b Hb; apply Hl; set_solver|].
    exists (local_transform (n_joint n) :: ts). constructor; [exists n; auto|assumption].
  Qed.

  Lemma end_transform_lemma t h nx c e l :
    path_up h e l -> c_nodes c = rev l ->
    exists w ws h', run t (end_transform c) (quiet h nx) = Done w (quiet h nx) /\
      run t (update_transforms c) (quiet h nx) = Done ws (quiet h' nx) /\
      last ws = Some w /\ world h e w.
  Proof.
    intros Hp Hc. assert (Hl : all_live h (c_nodes c)).
    { rewrite Hc. apply all_live_rev. eapply path_all_live; eauto. }
    destruct (locals_exist h _ Hl) as [ts Hts]. exists (product iso1 ts).
    destruct (update_transforms_lemma t h nx c Hl) as (ws & h' & Hr & Hw & _ & _ & _).
    { rewrite Hc. eapply from_end_parents_first; eauto. }
    exists ws, h'. split; [apply run_end_fold; assumption|]. split; [assumption|].
    assert (We : world h e (product iso1 ts)).
    { exists l, ts. split; [assumption|]. rewrite <- Hc. auto. }
    split; [|assumption].
    assert (exists l', c_nodes c = l' ++ [e]) as [l' El].
    { rewrite Hc. assert (exists l0, l = e :: l0) as [l0 ->] by (inversion Hp; eauto). exists (rev l0). reflexivity. }
    rewrite El in Hw. apply Forall2_app_inv_l in Hw as (ws1 & ws2 & _ & H2 & ->).
    inversion H2 as [|? w ? ws3 Hw1 H3]; subst. inversion H3; subst.
    rewrite last_snoc. f_equal. eapply world_fun; eauto.
  Qed.

  (** serial chains cut from a tree *)
  Lemma serial_cut_order h x l q w :
    serial h (x :: l) -> all_live h (x :: l) -> NoDup (x :: l) -> live_parent h x q -> q ∉ x :: l -> wt_of h q (Some w) ->
    order_ok h (x :: l).
  Proof.
    intros Hs Hl Hnd Hq Hout Hw. split; [assumption|]. intros l1 a l2 p E Hp.
    destruct (decide (l1 = [])) as [->|Hne].
    - injection E as -> ->. assert (p = q) as -> by (eapply live_parent_fun; eauto). right. eauto.
    - destruct (@exists_last _ l1 Hne) as (l1' & y & ->). left.
      assert (live_parent h a y) as Hy.
      { apply (Hs (length l1')).
        - rewrite E, <- app_assoc, lookup_app_r, Nat.sub_diag by lia. reflexivity.
        - rewrite E, lookup_app_r by (rewrite app_length; cbn; lia).
          rewrite app_length. cbn. replace (S (length l1') - (length l1' + 1)) with 0 by lia. reflexivity. }
      assert (p = y) as -> by (eapply live_parent_fun; eauto). set_solver.
  Qed.
  Lemma based_serial h L q w : forall l x ts,
    serial h (x :: l) -> (forall y, y ∈ x :: l -> y ∈ L) ->
    (forall n, h !! x = Some n -> based h L x (iso_mul w (local_transform (n_joint n)))) ->
    Forall2 (local_at h) (x :: l) ts -> live_parent h x q ->
    exists e, last (x :: l) = Some e /\ based h L e (product w ts).
  Proof.
    induction l as [|y l IH] using rev_ind; intros x ts Hs HL Hx Hts Hq.
    - inversion Hts as [|? t1 ? ts' (n & Hn & ->) Hts']; subst. inversion Hts'; subst.
      exists x. split; [reflexivity|]. apply Hx. assumption.
    - rewrite app_comm_cons in Hts. apply Forall2_app_inv_l in Hts as (ts1 & ts2 & H1 & H2 & ->).
      inversion H2 as [|? t1 ? ts' (n & Hn & ->) Hts']; subst. inversion Hts'; subst.
      destruct (IH x ts1) as (e & He & Hb); auto.
      { intros i a b Ha Hb'. rewrite app_comm_cons in Hs. apply (Hs i); rewrite lookup_app_l; auto; eapply lookup_lt_Some; eauto. }
      { intros z Hz. apply HL. rewrite app_comm_cons. set_solver. }
      exists y. split; [rewrite app_comm_cons; apply last_snoc|].
      rewrite product_app. cbn. eapply based_in; [eassumption| |apply HL|exact Hb].
      + rewrite app_comm_cons in Hs. rewrite last_lookup in He. cbn [length Nat.pred] in He.
        apply (Hs (length l)).
        * rewrite lookup_app_l by (cbn; lia). assumption.
        * rewrite lookup_app_r by (cbn; lia). cbn [length]. rewrite Nat.sub_diag. reflexivity.
      + rewrite app_comm_cons. apply elem_of_app. left. apply elem_of_list_lookup. exists (Nat.pred (length (x :: l))).
        rewrite <- last_lookup. assumption.
  Qed.
  Lemma cut_chain_lemma t h nx c x l q w ts :
    c_nodes c = x :: l -> serial h (x :: l) -> all_live h (x :: l) -> NoDup (x :: l) ->
    live_parent h x q -> q ∉ x :: l -> wt_of h q (Some w) -> Forall2 (local_at h) (x :: l) ts ->
    exists ws h', run t (end_transform c) (quiet h nx) = Done (product iso1 ts) (quiet h nx) /\
      run t (update_transforms c) (quiet h nx) = Done ws (quiet h' nx) /\
      last ws = Some (product w ts).
  Proof.
    intros Hc Hs Hl Hnd Hq Hout Hw Hts.
    destruct (run_update_transforms t h nx c) as (ws & h' & Hr & Hb & Hf).
    { rewrite Hc. eapply serial_cut_order; eauto. }
    exists ws, h'. split; [unfold end_transform; rewrite Hc; apply run_end_fold; assumption|].
    split; [assumption|]. rewrite Hc in Hb.
    destruct (based_serial h (x :: l) q w l x ts) as (e & He & Hbe); auto.
    { intros n Hn. eapply based_out; eauto. }
    assert (length ws = length (x :: l)) as Hlen by (symmetry; eapply Forall2_length; eauto).
    apply Forall2_same_length_lookup in Hb as [_ Hb].
    rewrite last_lookup in He. rewrite last_lookup, Hlen.
    destruct (lookup_lt_is_Some_2 ws (Nat.pred (length (x :: l)))) as [w' Hw']; [cbn in *; lia|].
    rewrite Hw'. f_equal. eapply based_fun; eauto.
  Qed.
  Lemma cut_chain_panics_lemma t h nx c x l q :
    c_nodes c = x :: l -> live_parent h x q -> wt_of h q None ->
    run t (update_transforms c) (quiet h nx) = Panicked "cache must exist" (quiet h nx).
  Proof.
    intros Hc Hq Hw. unfold update_transforms. rewrite Hc, run_mapM_cons. unfold update_transform at 1.
    rewrite run_bind, (run_parent_wt _ _ _ _ None).
    - cbn [obind expect bind]. rewrite run_panic_quiet. reflexivity.
    - destruct Hq as [(n & Hn & _) _]. eauto.
    - right. eauto.
  Qed.

  (** ** C20: freshness *)
  (** [h'] differs from [h] in nothing that the world transform of [a] or its
      cache depends on *)
  Definition undisturbed h h' (a : nat) : Prop :=
    (forall b, rtc (live_parent h) a b ->
       (fun n => (n_parent n, local_transform (n_joint n))) <$> h' !! b =
       (fun n => (n_parent n, local_transform (n_joint n))) <$> h !! b) /\
    (forall b p, rtc (live_parent h) a b -> has_parent h b p -> h !! p = None -> h' !! p = None) /\
    (forall w, wt_of h a (Some w) -> world h a w -> wt_of h' a (Some w)).
  Lemma world_undisturbed h h' a l ts :
    (forall b, rtc (live_parent h) a b ->
       (fun n => (n_parent n, local_transform (n_joint n))) <$> h' !! b =
       (fun n => (n_parent n, local_transform (n_joint n))) <$> h !! b) ->
    (forall b p, rtc (live_parent h) a b -> has_parent h b p -> h !! p = None -> h' !! p = None) ->
    path_up h a l -> Forall2 (local_at h) (rev l) ts ->
    path_up h' a l /\ Forall2 (local_at h') (rev l) ts.
  Proof.
    intros H1 H2 Hp Hts. split.
    - clear Hts ts. revert H1 H2. induction Hp as [a Ha|a p l Hlp Hp IH]; intros H1 H2.
      + apply path_root. destruct Ha as [[n Hn] Hno]. specialize (H1 a (rtc_refl _ _)) as E.
        rewrite Hn in E. cbn in E. destruct (h' !! a) as [n'|] eqn:Hn'; [|discriminate].
        injection E as E _. split; [eauto|]. intros p [(m & Hm & Hmp) [np Hnp]].
        assert (m = n') as -> by congruence.
        destruct (h !! p) as [np0|] eqn:Hp0.
        * apply (Hno p). split; [exists n; split; congruence|eauto].
        * rewrite (H2 a p (rtc_refl _ _)) in Hnp; [discriminate| |assumption]. exists n. split; congruence.
      + apply (path_step _ _ p).
        * pose proof Hlp as [(n & Hn & Hnp) [np Hnp0]]. specialize (H1 a (rtc_refl _ _)) as E.
          rewrite Hn in E. cbn in E. destruct (h' !! a) as [n'|] eqn:Hn'; [|discriminate]. cbn in E.
          injection E as E _. split; [exists n'; split; congruence|].
          assert (rtc (live_parent h) a p) as Hr by (apply rtc_once; exact Hlp).
          specialize (H1 p Hr) as E2. rewrite Hnp0 in E2. destruct (h' !! p); [eauto|discriminate].
        * apply IH; intros b; intros; [apply H1|eapply H2; eauto]; eapply rtc_l; eauto.
    - apply Forall2_same_length_lookup. apply Forall2_same_length_lookup in Hts as [Hlen Hts].
      split; [assumption|]. intros i b t Hb Ht. destruct (Hts i b t Hb Ht) as (n & Hn & ->).
      assert (rtc (live_parent h) a b) as Hr.
      { apply (path_up_rtc _ _ _ Hp). apply elem_of_list_In. apply in_rev. apply elem_of_list_In.
        eapply elem_of_list_lookup_2; eauto. }
      specialize (H1 b Hr) as E. rewrite Hn in E. cbn in E. destruct (h' !! b) as [n'|] eqn:Hn'; [|discriminate]. cbn in E.
      apply (f_equal (fun o => match o with Some (_, x) => x | None => iso1 end)) in E. cbv beta iota in E.
      exists n'. split; [assumption|symmetry; exact E].
  Qed.
  Lemma fresh_undisturbed h h' a : undisturbed h h' a -> fresh h a -> fresh h' a.
  Proof.
    intros (H1 & H2 & H3) (w & Hw & Hwd). exists w. split; [apply H3; assumption|].
    destruct Hwd as (l & ts & Hp & Hts & ->). destruct (world_undisturbed h h' a l ts) as [Hp' Hts']; auto.
    exists l, ts. auto.
  Qed.
  Lemma rtc_live_first h a b : rtc (live_parent h) a b -> is_Some (h !! a) -> is_Some (h !! b).
  Proof. induction 1 as [|x y z [_ Hl] _ IH]; auto. Qed.
  Lemma undisturbed_same h h' a :
    is_Some (h !! a) -> (forall b, is_Some (h' !! b) <-> is_Some (h !! b)) ->
    (forall b, rtc (live_parent h) a b -> h' !! b = h !! b) -> undisturbed h h' a.
  Proof.
    intros Ha Hd H. split; [|split].
    - intros b Hb. rewrite H by assumption. reflexivity.
    - intros b p _ _ Hp. destruct (h' !! p) eqn:E; [|reflexivity].
      destruct (proj1 (Hd p)) as [x Hx]; [eauto|]. congruence.
    - intros w (n & Hn & Hw) _. exists n. split; [|assumption]. rewrite H by constructor. assumption.
  Qed.

  Lemma update_fresh_lemma t h nx c :
    all_live h (c_nodes c) -> parents_first h (c_nodes c) ->
    exists ws h', run t (update_transforms c) (quiet h nx) = Done ws (quiet h' nx) /\
      (forall a, a ∈ c_nodes c -> fresh h' a) /\ same_parents h h' /\ same_locals h h' /\
      (forall a, fresh h a -> fresh h' a).
  Proof.
    intros Hl Hpf. destruct (run_update_transforms t h nx c (parents_first_order _ _ Hl Hpf)) as (ws & h' & Hr & Hb & Hf).
    pose proof (filled_parents _ _ _ _ Hf) as Hsp. pose proof (filled_locals _ _ _ _ Hf) as Hsl.
    exists ws, h'. split; [assumption|].
    assert (Hin : forall a, a ∈ c_nodes c -> fresh h' a).
    { intros a Ha. destruct (proj1 Hf a Ha) as (n & w & Hn & Hbw & Hn'). exists w. split.
      - exists (put_wt n w). split; [assumption|reflexivity].
      - eapply world_transfer; eauto. eapply based_world; eauto. }
    split; [assumption|]. split; [assumption|]. split; [assumption|].
    intros a (w & (n & Hn & Hw) & Hwd). destruct (decide (a ∈ c_nodes c)) as [Ha|Ha]; [auto|].
    exists w. split; [exists n; split; [rewrite (proj2 Hf); assumption|assumption]|].
    eapply world_transfer; eauto.
  Qed.

  Lemma update_fresh_short t h nx c :
    all_live h (c_nodes c) -> parents_first h (c_nodes c) ->
    exists ws h', run t (update_transforms c) (quiet h nx) = Done ws (quiet h' nx) /\
      (forall a, a ∈ c_nodes c -> fresh h' a) /\ (forall a, fresh h a -> fresh h' a).
  Proof.
    intros Hl Hp. destruct (update_fresh_lemma t h nx c Hl Hp) as (ws & h' & H1 & H2 & _ & _ & H3). eauto.
  Qed.
  Lemma modify_inv t a (F : node T -> node T) h nx s :
    run t (modify a F) (quiet h nx) = Done tt s -> exists n, h !! a = Some n /\ s = quiet (<[a := F n]> h) nx.
  Proof.
    intros H. destruct (h !! a) as [n|] eqn:Hn.
    - exists n. split; [reflexivity|]. unfold quiet in H. rewrite (run_modify t a F h nx ∅ n) in H by (auto using lookup_empty).
      injection H as <-. reflexivity.
    - unfold modify in H. cbn [run heap quiet] in H. rewrite Hn in H. discriminate.
  Qed.
  Lemma insert_dom h b n n' x : h !! b = Some n -> (is_Some (<[b := n']> h !! x) <-> is_Some (h !! x)).
  Proof.
    intros Hb. destruct (decide (x = b)) as [->|Hx].
    - rewrite lookup_insert, Hb. split; eauto.
    - rewrite lookup_insert_ne by auto. reflexivity.
  Qed.
  Lemma off_insert h a b n n' : is_Some (h !! a) -> h !! b = Some n -> off_path h a b ->
    undisturbed h (<[b := n']> h) a.
  Proof.
    intros Ha Hb Ho. apply undisturbed_same; [assumption|intros x; eapply insert_dom; eauto|].
    intros x Hx. apply lookup_insert_ne. intros ->. contradiction.
  Qed.
  Lemma calm_fresh a s s' : calm_step a s s' -> fresh (heap s) a -> fresh (heap s') a.
  Proof.
    intros Hs Hf. assert (Ha : is_Some (heap s !! a)) by (destruct Hf as (w & (n & Hn & _) & _); eauto).
    destruct Hs as [h h' nx nx' b n p r Hwf Hb Ho Hoc Hr|h h' nx nx' b p Ho Hr|h h' nx nx' b p Ho Hr
      |h h' nx nx' b o Ho Hr|h h' nx nx' b l Hr|h h' nx nx' c ws Hl Hp Hr]; cbn [heap quiet] in *.
    - eapply fresh_undisturbed; [|exact Hf].
      destruct (n_mimic_parent n) as [w|] eqn:Hmp.
      { rewrite (run_set_position_mimic 0 b p h nx n w Hb Hmp) in Hr. injection Hr as _ <- _.
        apply undisturbed_same; [assumption|tauto|auto]. }
      assert (Hch : forall cs, (forall c, c ∈ cs -> off_path h a c) ->
         undisturbed h (follow_all (self_moved h b n p) p cs) a).
      { intros cs Hcs. apply undisturbed_same; [assumption| |].
        - intros x. rewrite lookup_follow_all. unfold self_moved.
          destruct (decide (x ∈ cs)); [rewrite fmap_is_Some|]; eapply insert_dom; eauto.
        - intros x Hx. rewrite lookup_follow_all. rewrite decide_False.
          + unfold self_moved. apply lookup_insert_ne. intros ->. contradiction.
          + intros Hin. apply (Hcs x Hin). assumption. }
      destruct (run_set_position 0 b p h nx n Hwf Hb Hmp) as [(_ & _ & Hr')|[(e & _ & _ & Hr')|Hr']].
      + rewrite Hr' in Hr. injection Hr as _ <- _. apply Hch. assumption.
      + rewrite Hr' in Hr. injection Hr as _ <- _. apply undisturbed_same; [assumption|tauto|auto].
      + destruct Hr' as (_ & l1 & c & l2 & cn & m & e & E & Hrest).
        assert (run 0 (node_set_joint_position b p) (quiet h nx) =
          Done (Err e) (quiet (follow_all (self_moved h b n p) p l1) nx)) as Hr' by tauto.
        rewrite Hr' in Hr. injection Hr as _ <- _. apply Hch. intros x Hx. apply Hoc. rewrite E. set_solver.
    - apply modify_inv in Hr as (n & Hb & E). injection E as -> ->.
      eapply fresh_undisturbed; [|exact Hf]. eapply off_insert; eauto.
    - apply modify_inv in Hr as (n & Hb & E). injection E as -> ->.
      eapply fresh_undisturbed; [|exact Hf]. eapply off_insert; eauto.
    - apply modify_inv in Hr as (n & Hb & E). injection E as -> ->.
      eapply fresh_undisturbed; [|exact Hf]. eapply off_insert; eauto.
    - apply modify_inv in Hr as (n & Hb & E). injection E as -> ->.
      eapply fresh_undisturbed; [|exact Hf].
      assert (Hlk : forall x, <[b := set_n_link n l]> h !! x = if decide (x = b) then Some (set_n_link n l) else h !! x).
      { intros x. destruct (decide (x = b)) as [->|Hx]; [apply lookup_insert|apply lookup_insert_ne; auto]. }
      split; [|split].
      + intros x _. rewrite Hlk. destruct (decide (x = b)) as [->|]; [rewrite Hb|]; reflexivity.
      + intros x y _ _ Hy. rewrite Hlk. destruct (decide (y = b)) as [->|]; [congruence|assumption].
      + intros w (m & Hm & Hw) _. unfold wt_of. rewrite Hlk. destruct (decide (a = b)) as [->|]; [|eauto].
        assert (m = n) as -> by congruence. eexists. split; [reflexivity|]. assumption.
    - destruct (update_fresh_lemma 0 h nx c Hl Hp) as (ws' & h2 & Hr2 & _ & _ & _ & H).
      rewrite Hr2 in Hr. injection Hr as _ <- _. auto.
  Qed.
  Lemma calm_history_lemma a s s' : rtc (calm_step a) s s' -> fresh (heap s) a -> fresh (heap s') a.
  Proof. induction 1 as [|x y z Hxy _ IH]; [auto|]. intros H. apply IH. eapply calm_fresh; eauto. Qed.

  (** which caches a position or origin setter clears *)
  Lemma set_origin_clears_lemma t h nx a n o :
    h !! a = Some n ->
    exists h', run t (node_set_origin a o) (quiet h nx) = Done tt (quiet h' nx) /\
      wt_of h' a None /\ forall b, b <> a -> h' !! b = h !! b.
  Proof.
    intros Hn. eexists. split.
    - unfold node_set_origin, quiet. rewrite (run_modify t a _ h nx ∅ n) by (auto using lookup_empty). reflexivity.
    - split; [eexists; split; [apply lookup_insert|reflexivity]|]. intros b Hb. apply lookup_insert_ne. auto.
  Qed.
  Lemma set_unchecked_clears_lemma t h nx a n p :
    h !! a = Some n ->
    exists h', run t (node_set_joint_position_unchecked a p) (quiet h nx) = Done tt (quiet h' nx) /\
      wt_of h' a None /\ forall b, b <> a -> h' !! b = h !! b.
  Proof.
    intros Hn. eexists. split; [apply run_set_unchecked; eassumption|].
    split; [eexists; split; [apply lookup_insert|reflexivity]|]. intros b Hb. apply lookup_insert_ne. auto.
  Qed.
  Lemma set_position_clears_lemma t h nx a n p :
    h !! a = Some n -> no_mimic n -> admissible (n_joint n) p ->
    exists h', run t (node_set_joint_position a p) (quiet h nx) = Done (Ok tt) (quiet h' nx) /\
      wt_of h' a None /\ forall b, b <> a -> h' !! b = h !! b.
  Proof.
    intros Hn Hm Ha. destruct (run_set_plain t h nx a n p Hn Hm) as [[_ Hr]|(e & Hna & _)]; [|contradiction].
    eexists. split; [exact Hr|].
    split; [eexists; split; [apply lookup_insert|reflexivity]|]. intros b Hb. apply lookup_insert_ne. auto.
  Qed.

  (** ** C28: links *)
  Lemma link_update_placed pw l : link_placed pw l (link_update pw l).
  Proof.
    split; [reflexivity|]. split; [repeat split|]. split.
    - cbn. induction (l_visuals l); constructor; [repeat split|assumption].
    - cbn. induction (l_collisions l); constructor; [repeat split|assumption].
  Qed.
  Lemma link_update_idem pw l : link_update pw (link_update pw l) = link_update pw l.
  Proof. unfold link_update. cbn. rewrite !map_map. reflexivity. Qed.

  Definition placed_node (pw : iso T) (n : node T) : node T := set_n_link n (link_update pw <$> n_link n).
  Definition linked_upto h (l1 : list nat) h1 : Prop :=
    (forall b, b ∈ l1 -> exists n pw, h !! b = Some n /\ parent_frame h b pw /\ h1 !! b = Some (placed_node pw n)) /\
    (forall b, b ∉ l1 -> h1 !! b = h !! b).
  Lemma parent_frame_world h a n pw : h !! a = Some n -> parent_frame h a pw ->
    world h a (iso_mul pw (local_transform (n_joint n))).
  Proof.
    intros Hn [[Hp ->]|(p & Hp & Hw)]; [apply world_root|eapply world_step]; eauto.
  Qed.
  Lemma parent_frame_fun h a w1 w2 : parent_frame h a w1 -> parent_frame h a w2 -> w1 = w2.
  Proof.
    intros [[H1 ->]|(p & H1 & W1)] [[H2 ->]|(q & H2 & W2)]; [reflexivity| | |].
    - exfalso. eapply live_parent_not_no; eauto.
    - exfalso. eapply live_parent_not_no; eauto.
    - assert (q = p) as -> by (eapply live_parent_fun; eauto). eapply world_fun; eauto.
  Qed.
  Lemma run_update_links t h nx l :
    all_live h l -> parents_first h l -> (forall a, a ∈ l -> fresh h a) ->
    forall l2 l1 h1, l = l1 ++ l2 -> linked_upto h l1 h1 ->
    exists h2, run t (forM_ update_link_transform l2) (quiet h1 nx) = Done tt (quiet h2 nx) /\ linked_upto h l h2.
  Proof.
    intros Hl Hpf Hfr. induction l2 as [|a l2 IH]; intros l1 h1 E [H1 H2].
    - exists h1. split; [reflexivity|]. rewrite app_nil_r in E. rewrite E. split; assumption.
    - destruct (Hl a) as [n Hn]; [rewrite E; set_solver|].
      assert (Hsp : same_parents h h1).
      { intros b. destruct (decide (b ∈ l1)) as [Hb|Hb].
        - destruct (H1 b Hb) as (nb & pw & Hnb & _ & Hnb1). rewrite Hnb, Hnb1. reflexivity.
        - rewrite H2 by assumption. reflexivity. }
      assert (Hcache : forall b o, wt_of h b o -> wt_of h1 b o).
      { intros b o (nb & Hnb & Ho). destruct (decide (b ∈ l1)) as [Hb|Hb].
        - destruct (H1 b Hb) as (nb' & pw & Hnb' & _ & Hnb1). rewrite Hnb in Hnb'. injection Hnb' as <-.
          eexists. split; [exact Hnb1|]. exact Ho.
        - exists nb. split; [rewrite H2; assumption|assumption]. }
      assert (exists pw, parent_frame h a pw /\
         ((no_parent h1 a /\ Some pw = Some iso1) \/ (exists p, live_parent h1 a p /\ wt_of h1 p (Some pw)))) as (pw & Hpw & Hrun).
      { destruct (live h (n_parent n)) as [p|] eqn:Ep.
        - apply (live_parent_iff h a n p Hn) in Ep. pose proof (Hpf _ _ _ _ E Ep) as Hin.
          destruct (Hfr p) as (w & Hw & Hwd); [rewrite E; set_solver|]. exists w.
          split; [right; eauto|]. right. exists p. split; [eapply same_parents_lp; eauto|auto].
        - apply (no_parent_iff h a n Hn) in Ep. exists iso1. split; [left; auto|]. left.
          split; [eapply same_parents_np; eauto|reflexivity]. }
      assert (exists n1, h1 !! a = Some n1 /\ placed_node pw n1 = placed_node pw n) as (n1 & Hn1 & Hpl).
      { destruct (decide (a ∈ l1)) as [Ha|Ha].
        - destruct (H1 a Ha) as (n' & pw' & Hn' & Hpw' & Hh1). assert (n' = n) as -> by congruence.
          assert (pw' = pw) as -> by (eapply parent_frame_fun; eauto).
          eexists. split; [exact Hh1|]. unfold placed_node. cbn. destruct (n_link n); cbn; [rewrite link_update_idem|]; reflexivity.
        - exists n. split; [rewrite H2; assumption|reflexivity]. }
      destruct (IH (l1 ++ [a]) (<[a := placed_node pw n]> h1)) as (h3 & Hr3 & Hl3).
      { rewrite E, <- app_assoc. reflexivity. }
      { split.
        - intros b Hb. destruct (decide (b = a)) as [->|Hne].
          + exists n, pw. rewrite lookup_insert. auto.
          + rewrite lookup_insert_ne by auto. apply H1. set_solver.
        - intros b Hb. rewrite lookup_insert_ne by set_solver. apply H2. set_solver. }
      exists h3. split; [|assumption]. rewrite run_forM__cons. unfold update_link_transform at 1.
      rewrite run_bind, (run_parent_wt _ _ _ _ (Some pw)) by (eauto; destruct Hrun as [[? ?]|?]; eauto).
      cbn [obind expect bind]. unfold quiet.
      rewrite (run_modify t a _ h1 nx ∅ n1) by (auto using lookup_empty). cbn [obind].
      change (set_n_link n1 (link_update pw <$> n_link n1)) with (placed_node pw n1). rewrite Hpl. exact Hr3.
  Qed.

  Lemma update_links_lemma t h nx c :
    all_live h (c_nodes c) -> parents_first h (c_nodes c) ->
    exists h', run t (update_link_transforms c) (quiet h nx) = Done tt (quiet h' nx) /\
      (forall a, a ∈ c_nodes c -> exists n n' w pw, h !! a = Some n /\ h' !! a = Some n' /\
         world h a w /\ parent_frame h a pw /\ node_placed n w pw n') /\
      (forall b, b ∉ c_nodes c -> h' !! b = h !! b).
  Proof.
    intros Hl Hpf. destruct (run_update_transforms t h nx c (parents_first_order _ _ Hl Hpf)) as (ws & h1 & Hr & Hb & Hf).
    pose proof (filled_parents _ _ _ _ Hf) as Hsp. pose proof (filled_locals _ _ _ _ Hf) as Hsl.
    assert (Hl1 : all_live h1 (c_nodes c)) by (intros a Ha; eapply same_parents_live; eauto).
    pose proof (same_parents_pf _ _ _ Hsp Hpf) as Hpf1.
    assert (Hin : forall a, a ∈ c_nodes c -> fresh h1 a).
    { intros a Ha. destruct (proj1 Hf a Ha) as (n & w & Hn & Hbw & Hn'). exists w. split.
      - exists (put_wt n w). split; [assumption|reflexivity].
      - eapply world_transfer; eauto. eapply based_world; eauto. }
    destruct (run_update_links t h1 nx (c_nodes c) Hl1 Hpf1 Hin (c_nodes c) [] h1) as (h2 & Hr2 & H1 & H2).
    { reflexivity. } { split; [set_solver|reflexivity]. }
    exists h2. split; [unfold update_link_transforms; rewrite run_bind, Hr; exact Hr2|]. split.
    - intros a Ha. destruct (proj1 Hf a Ha) as (n & w & Hn & Hbw & Hn1).
      destruct (H1 a Ha) as (n1 & pw & Hn1' & Hpw & Hn2). rewrite Hn1 in Hn1'. injection Hn1' as <-.
      exists n, (placed_node pw (put_wt n w)), w, pw. split; [assumption|]. split; [assumption|].
      split; [eapply based_world; eauto|]. split.
      + destruct Hpw as [[Hnp ->]|(p & Hp & Hwp)].
        * left. split; [eapply same_parents_np; [apply same_parents_sym|]; eauto|reflexivity].
        * right. exists p. split; [eapply same_parents_lp; [apply same_parents_sym|]; eauto|].
          eapply world_transfer; [apply same_parents_sym; eassumption| |eassumption].
          intros b. symmetry. apply Hsl.
      + split; [repeat split|]. cbn. destruct (n_link n); cbn; [apply link_update_placed|exact I].
    - intros b Hb'. rewrite H2 by assumption. apply Hf. assumption.
  Qed.
End FKProofs.
