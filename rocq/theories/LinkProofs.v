(** * set_parent / remove_parent keep the graph a forest (C10) *)
From Coq Require Import String.
From stdpp Require Import gmap.
From Verif Require Import Scalar Geometry Joint Link Prog NodeM RunLemmas
  SpecJoint SpecNode JointProofs NodeProofs SpecGraph GraphProofs.

Section LinkProofs.
  Context {T : Type} `{Sc : Scalar T}.
  Implicit Types (h : gmap nat (node T)).

  Definition attach h c nc p np : gmap nat (node T) :=
    <[p := set_n_children np (n_children np ++ [c])]> (<[c := set_n_parent nc (Some p)]> h).
  Definition detach h c nc p np : gmap nat (node T) :=
    <[p := set_n_children np (filter (fun x => x <> c) (n_children np))]> (<[c := set_n_parent nc None]> h).

  Lemma run_set_parent t h nx L c nc p np :
    h !! c = Some nc -> h !! p = Some np -> c <> p -> L !! c = None -> L !! p = None ->
    run t (node_set_parent c p) (Sh h nx L ∅) = Done tt (Sh (attach h c nc p np) nx L ∅).
  Proof.
    intros Hc Hp Hne HLc HLp. unfold node_set_parent.
    erewrite run_bind_done; [|eapply run_modify; eauto].
    rewrite (run_modify t p _ _ nx L np); [reflexivity| |assumption]. rewrite lookup_insert_ne; auto.
  Qed.
  Lemma run_remove_parent t h nx L c nc p np :
    h !! c = Some nc -> h !! p = Some np -> c <> p -> L !! c = None -> L !! p = None ->
    run t (node_remove_parent c p) (Sh h nx L ∅) = Done tt (Sh (detach h c nc p np) nx L ∅).
  Proof.
    intros Hc Hp Hne HLc HLp. unfold node_remove_parent.
    erewrite run_bind_done; [|eapply run_modify; eauto].
    rewrite (run_modify t p _ _ nx L np); [reflexivity| |assumption]. rewrite lookup_insert_ne; auto.
  Qed.

  Lemma attach_lookup h c nc p np a :
    h !! c = Some nc -> h !! p = Some np -> c <> p ->
    attach h c nc p np !! a =
      if decide (a = p) then Some (set_n_children np (n_children np ++ [c]))
      else if decide (a = c) then Some (set_n_parent nc (Some p)) else h !! a.
  Proof.
    intros Hc Hp Hne. unfold attach. destruct (decide (a = p)) as [->|H1]; [apply lookup_insert|].
    rewrite lookup_insert_ne by auto. destruct (decide (a = c)) as [->|H2]; [apply lookup_insert|].
    rewrite lookup_insert_ne by auto. reflexivity.
  Qed.
  Lemma detach_lookup h c nc p np a :
    h !! c = Some nc -> h !! p = Some np -> c <> p ->
    detach h c nc p np !! a =
      if decide (a = p) then Some (set_n_children np (filter (fun x => x <> c) (n_children np)))
      else if decide (a = c) then Some (set_n_parent nc None) else h !! a.
  Proof.
    intros Hc Hp Hne. unfold detach. destruct (decide (a = p)) as [->|H1]; [apply lookup_insert|].
    rewrite lookup_insert_ne by auto. destruct (decide (a = c)) as [->|H2]; [apply lookup_insert|].
    rewrite lookup_insert_ne by auto. reflexivity.
  Qed.

  Lemma attach_has_parent h c nc p np x y :
    h !! c = Some nc -> h !! p = Some np -> c <> p -> n_parent nc = None ->
    has_parent (attach h c nc p np) x y <-> has_parent h x y \/ (x = c /\ y = p).
  Proof.
    intros Hc Hp Hne Hpc. unfold has_parent. rewrite attach_lookup by assumption.
    destruct (decide (x = p)) as [->|H1]; [|destruct (decide (x = c)) as [->|H2]].
    - split.
      + intros (n & E & H). injection E as <-. left. exists np. auto.
      + intros [(n & E & H)|[? ?]]; [|congruence]. eexists. split; [reflexivity|]. cbn. congruence.
    - split.
      + intros (n & E & H). injection E as <-. cbn in H. right. split; congruence.
      + intros [(n & E & H)|[_ ->]]; [congruence|]. eexists. split; reflexivity.
    - split; [intros H; left; exact H|]. intros [H|[? ?]]; [exact H|congruence].
  Qed.
  Lemma attach_lists h c nc p np x y :
    h !! c = Some nc -> h !! p = Some np -> c <> p ->
    lists_child (attach h c nc p np) x y <-> lists_child h x y \/ (x = p /\ y = c).
  Proof.
    intros Hc Hp Hne. unfold lists_child. rewrite attach_lookup by assumption.
    destruct (decide (x = p)) as [->|H1]; [|destruct (decide (x = c)) as [->|H2]].
    - split.
      + intros (n & E & H). injection E as <-. cbn in H. apply elem_of_app in H as [H|H].
        * left. exists np. auto.
        * right. set_solver.
      + intros [(n & E & H)|[_ ->]]; (eexists; split; [reflexivity|]); cbn.
        * assert (n = np) as -> by congruence. set_solver.
        * set_solver.
    - split.
      + intros (n & E & H). injection E as <-. left. exists nc. auto.
      + intros [(n & E & H)|[? ?]]; [|congruence]. eexists. split; [reflexivity|]. cbn. congruence.
    - split; [intros H; left; exact H|]. intros [H|[? ?]]; [exact H|congruence].
  Qed.

  (** adding one edge to an acyclic relation *)
  Lemma add_edge_rtc (R R' : nat -> nat -> Prop) c p :
    (forall x y, R' x y <-> R x y \/ (x = c /\ y = p)) -> ~ rtc R p c ->
    forall x y, rtc R' x y -> rtc R x y \/ (rtc R x c /\ rtc R p y).
  Proof.
    intros HR Hno x y H. induction H as [x|x z y Hxz Hzy IH]; [left; reflexivity|].
    apply HR in Hxz as [Hxz|[-> ->]].
    - destruct IH as [IH|[IH1 IH2]].
      + left. eapply rtc_l; eauto.
      + right. split; [eapply rtc_l; eauto|assumption].
    - destruct IH as [IH|[IH1 IH2]]; [right; split; [reflexivity|assumption]|contradiction].
  Qed.
  Lemma add_edge_acyclic (R R' : nat -> nat -> Prop) c p :
    (forall x y, R' x y <-> R x y \/ (x = c /\ y = p)) -> ~ rtc R p c ->
    (forall a, ~ tc R a a) -> forall a, ~ tc R' a a.
  Proof.
    intros HR Hno Hac a Ha.
    assert (exists z, R' a z /\ rtc R' z a) as (z & Haz & Hza).
    { inversion Ha as [|x z y Hxz Hzy]; subst; [exists a; split; [assumption|reflexivity]|].
      exists z. split; [assumption|]. apply tc_rtc. assumption. }
    pose proof (add_edge_rtc R R' c p HR Hno z a Hza) as Hr.
    apply HR in Haz as [Haz|[-> ->]].
    - destruct Hr as [Hr|[H1 H2]].
      + apply (Hac a). eapply tc_rtc_r; [apply tc_once; eassumption|assumption].
      + apply Hno. etransitivity; [exact H2|]. eapply rtc_l; eauto.
    - destruct Hr as [Hr|[H1 H2]]; contradiction.
  Qed.

  Lemma rtc_flip_lists h x y : forest h -> rtc (has_parent h) x y -> rtc (lists_child h) y x.
  Proof.
    intros Hf. induction 1 as [x|x z y Hxz _ IH]; [reflexivity|].
    eapply rtc_r; [exact IH|]. apply (forest_agree h Hf). assumption.
  Qed.

  Lemma forest_attach h c nc p np :
    forest h -> h !! c = Some nc -> h !! p = Some np -> n_parent nc = None ->
    ~ rtc (lists_child h) c p -> forest (attach h c nc p np).
  Proof.
    intros Hf Hc Hp Hpc Hno.
    assert (Hne : c <> p) by (intros ->; apply Hno; reflexivity).
    pose proof (fun x y => attach_has_parent h c nc p np x y Hc Hp Hne Hpc) as Hpar.
    pose proof (fun x y => attach_lists h c nc p np x y Hc Hp Hne) as Hlist.
    split.
    - intros q x. rewrite Hpar, Hlist, (forest_agree h Hf). naive_solver.
    - intros q n Hq. rewrite attach_lookup in Hq by assumption.
      destruct (decide (q = p)) as [->|]; [|destruct (decide (q = c)) as [->|]].
      + injection Hq as <-. cbn. apply NoDup_app. split; [eapply forest_once; eauto|].
        split; [|apply NoDup_singleton]. intros x Hx Hxc. assert (x = c) as -> by set_solver.
        assert (has_parent h c p) as (n & Hn & Hn2).
        { apply (forest_agree h Hf). exists np. auto. }
        congruence.
      + injection Hq as <-. cbn. eapply forest_once; eauto.
      + eapply forest_once; eauto.
    - intros x q Hx. rewrite attach_lookup by assumption.
      destruct (decide (q = p)); [eauto|]. destruct (decide (q = c)); [eauto|].
      apply Hpar in Hx as [Hx|[_ ->]]; [|congruence]. eapply forest_live; eauto.
    - eapply add_edge_acyclic; [exact Hpar| |apply (forest_acyclic h Hf)].
      intros Hr. apply Hno. apply rtc_flip_lists; assumption.
  Qed.

  Lemma detach_has_parent h c nc p np x y :
    h !! c = Some nc -> h !! p = Some np -> c <> p ->
    has_parent (detach h c nc p np) x y <-> has_parent h x y /\ x <> c.
  Proof.
    intros Hc Hp Hne. unfold has_parent. rewrite detach_lookup by assumption.
    destruct (decide (x = p)) as [->|H1]; [|destruct (decide (x = c)) as [->|H2]].
    - split.
      + intros (n & E & H). injection E as <-. split; [|auto]. exists np. auto.
      + intros [(n & E & H) _]. eexists. split; [reflexivity|]. cbn. congruence.
    - split.
      + intros (n & E & H). injection E as <-. discriminate.
      + intros [_ ?]. congruence.
    - split; [intros H; split; [exact H|assumption]|]. intros [H _]; exact H.
  Qed.
  Lemma detach_lists h c nc p np x y :
    h !! c = Some nc -> h !! p = Some np -> c <> p ->
    lists_child (detach h c nc p np) x y <-> lists_child h x y /\ ~ (x = p /\ y = c).
  Proof.
    intros Hc Hp Hne. unfold lists_child. rewrite detach_lookup by assumption.
    destruct (decide (x = p)) as [->|H1]; [|destruct (decide (x = c)) as [->|H2]].
    - split.
      + intros (n & E & H). injection E as <-. cbn in H. apply elem_of_list_filter in H as [H1 H2].
        split; [exists np; auto|]. tauto.
      + intros [(n & E & H) Hno]. eexists. split; [reflexivity|]. cbn.
        assert (n = np) as -> by congruence. apply elem_of_list_filter. split; [|assumption].
        intros ->. apply Hno. auto.
    - split.
      + intros (n & E & H). injection E as <-. split; [exists nc; auto|]. intros [? _]. congruence.
      + intros [(n & E & H) _]. eexists. split; [reflexivity|]. cbn. congruence.
    - split; [intros H; split; [exact H|intros [? _]; congruence]|]. intros [H _]; exact H.
  Qed.
  Lemma forest_detach h c nc p np :
    forest h -> h !! c = Some nc -> h !! p = Some np -> n_parent nc = Some p ->
    forest (detach h c nc p np).
  Proof.
    intros Hf Hc Hp Hpc.
    assert (Hcp : has_parent h c p) by (exists nc; auto).
    assert (Hne : c <> p).
    { intros ->. apply (forest_acyclic h Hf p). apply tc_once. assumption. }
    pose proof (fun x y => detach_has_parent h c nc p np x y Hc Hp Hne) as Hpar.
    pose proof (fun x y => detach_lists h c nc p np x y Hc Hp Hne) as Hlist.
    split.
    - intros q x. rewrite Hpar, Hlist, (forest_agree h Hf). split.
      + intros [H1 H2]. split; [assumption|]. intros ->. apply H2.
        destruct H1 as (n & Hn & Hq). split; congruence.
      + intros [H1 H2]. split; [assumption|]. tauto.
    - intros q n Hq. rewrite detach_lookup in Hq by assumption.
      destruct (decide (q = p)) as [->|]; [|destruct (decide (q = c)) as [->|]].
      + injection Hq as <-. cbn. apply NoDup_filter. eapply forest_once; eauto.
      + injection Hq as <-. cbn. eapply forest_once; eauto.
      + eapply forest_once; eauto.
    - intros x q Hx. rewrite detach_lookup by assumption.
      destruct (decide (q = p)); [eauto|]. destruct (decide (q = c)); [eauto|].
      apply Hpar in Hx as [Hx _]. eapply forest_live; eauto.
    - intros a Ha. apply (forest_acyclic h Hf a).
      assert (forall x y, tc (has_parent (detach h c nc p np)) x y -> tc (has_parent h) x y) as Hsub.
      { induction 1 as [x y Hxy|x y z Hxy _ IH].
        - apply tc_once. apply Hpar. assumption.
        - eapply tc_l; [apply Hpar; exact Hxy|assumption]. }
      auto.
  Qed.

  Lemma forest_new h a j :
    forest h -> h !! a = None -> forest (<[a := fresh_node j]> h).
  Proof.
    intros Hf Ha.
    assert (Hpar : forall x y, has_parent (<[a := fresh_node j]> h) x y <-> has_parent h x y).
    { intros x y. unfold has_parent. destruct (decide (x = a)) as [->|Hx].
      - rewrite lookup_insert. split; intros (n & E & H); [injection E as <-; discriminate|congruence].
      - rewrite lookup_insert_ne by auto. reflexivity. }
    assert (Hlist : forall x y, lists_child (<[a := fresh_node j]> h) x y <-> lists_child h x y).
    { intros x y. unfold lists_child. destruct (decide (x = a)) as [->|Hx].
      - rewrite lookup_insert. split; intros (n & E & H); [injection E as <-; cbn in H; set_solver|congruence].
      - rewrite lookup_insert_ne by auto. reflexivity. }
    split.
    - intros p c. rewrite Hpar, Hlist. apply (forest_agree h Hf).
    - intros p n. destruct (decide (p = a)) as [->|Hx].
      + rewrite lookup_insert. injection 1 as <-. constructor.
      + rewrite lookup_insert_ne by auto. apply (forest_once h Hf).
    - intros c p Hc. apply Hpar in Hc. destruct (decide (p = a)) as [->|Hx].
      + rewrite lookup_insert. eauto.
      + rewrite lookup_insert_ne by auto. eapply forest_live; eauto.
    - intros x Hx. apply (forest_acyclic h Hf x).
      assert (forall x y, tc (has_parent (<[a := fresh_node j]> h)) x y -> tc (has_parent h) x y) as Hsub.
      { induction 1 as [u v Huv|u v w Huv _ IH].
        - apply tc_once. apply Hpar. assumption.
        - eapply tc_l; [apply Hpar; exact Huv|assumption]. }
      auto.
  Qed.
  Lemma forest_same_links h h' : same_links h h' -> forest h -> forest h'.
  Proof.
    intros Hs Hf.
    assert (Hlk : forall a n', h' !! a = Some n' -> exists n, h !! a = Some n /\
              n_parent n' = n_parent n /\ n_children n' = n_children n).
    { intros a n' E. specialize (Hs a). rewrite E in Hs. cbn in Hs.
      destruct (h !! a) as [n|]; [|discriminate]. injection Hs as E1 E2. eauto. }
    assert (Hlk' : forall a n, h !! a = Some n -> exists n', h' !! a = Some n' /\
              n_parent n' = n_parent n /\ n_children n' = n_children n).
    { intros a n E. specialize (Hs a). rewrite E in Hs. cbn in Hs.
      destruct (h' !! a) as [n'|]; [|discriminate]. cbn in Hs. injection Hs as E1 E2. eauto. }
    assert (Hpar : forall x y, has_parent h' x y <-> has_parent h x y).
    { intros x y. split; intros (n & E & H).
      - destruct (Hlk x n E) as (n1 & E1 & E2 & _). exists n1. split; [assumption|congruence].
      - destruct (Hlk' x n E) as (n1 & E1 & E2 & _). exists n1. split; [assumption|congruence]. }
    assert (Hlist : forall x y, lists_child h' x y <-> lists_child h x y).
    { intros x y. split; intros (n & E & H).
      - destruct (Hlk x n E) as (n1 & E1 & _ & E2). exists n1. split; [assumption|congruence].
      - destruct (Hlk' x n E) as (n1 & E1 & _ & E2). exists n1. split; [assumption|congruence]. }
    split.
    - intros p c. rewrite Hpar, Hlist. apply (forest_agree h Hf).
    - intros p n E. destruct (Hlk p n E) as (n1 & E1 & _ & ->). eapply forest_once; eauto.
    - intros c p Hc. apply Hpar, (forest_live h Hf) in Hc as [n Hn].
      destruct (Hlk' p n Hn) as (n1 & E1 & _). eauto.
    - intros x Hx. apply (forest_acyclic h Hf x).
      assert (forall x y, tc (has_parent h') x y -> tc (has_parent h) x y) as Hsub.
      { induction 1 as [u v Huv|u v w Huv _ IH].
        - apply tc_once. apply Hpar. assumption.
        - eapply tc_l; [apply Hpar; exact Huv|assumption]. }
      auto.
  Qed.
  Lemma forest_empty : forest (∅ : gmap nat (node T)).
  Proof.
    assert (forall x y, ~ has_parent (∅ : gmap nat (node T)) x y) as H.
    { intros x y (n & E & _). discriminate. }
    split.
    - intros p c. split; [intros (n & E & _); discriminate|intros Hc; destruct (H _ _ Hc)].
    - intros p n E. discriminate.
    - intros c p Hc. destruct (H _ _ Hc).
    - intros a Ha. inversion Ha; subst; eapply H; eauto.
  Qed.

  (** C10 *)
  Lemma linked_forest_lemma (s : sh T) :
    linked s -> exists h nx, s = quiet h nx /\ forest h.
  Proof.
    intros Hl. cut (exists h nx, s = quiet h nx /\ forest h /\ forall a, is_Some (h !! a) -> a < nx).
    { intros (h & nx & H1 & H2 & _). eauto. }
    unfold linked in Hl. revert s Hl.
    apply (rtc_ind_r (fun s => exists h nx, s = quiet h nx /\ forest h /\ forall a, is_Some (h !! a) -> a < nx)).
    { exists ∅, 0. split; [reflexivity|]. split; [apply forest_empty|].
      intros a [? E]. discriminate. }
    intros s s' _ Hstep (h & nx & -> & Hf & Hdom).
    inversion Hstep as [s0 j a s1 Hr|s0 c p s1 Hp Hnp Hno Hr|s0 c p s1 Hcp Hr|h0 h' nx0 Hs]; subst.
    - injection Hr as <- <-. exists (<[nx := fresh_node j]> h), (S nx).
      split; [reflexivity|]. split.
      + apply forest_new; [assumption|]. destruct (h !! nx) eqn:E; [|reflexivity].
        specialize (Hdom nx). rewrite E in Hdom. pose proof (Hdom ltac:(eauto)). lia.
      + intros a Ha. destruct (decide (a = nx)) as [->|Hne]; [lia|].
        rewrite lookup_insert_ne in Ha by auto. apply Hdom in Ha. lia.
    - cbn [heap quiet] in *. destruct Hp as [np Hp].
      destruct (h !! c) as [nc|] eqn:Hc.
      2:{ unfold node_set_parent in Hr. rewrite run_bind in Hr.
          cbn [modify run heap quiet] in Hr. rewrite Hc in Hr. discriminate. }
      assert (n_parent nc = None) as Hpc.
      { destruct (n_parent nc) as [q|] eqn:E; [|reflexivity]. exfalso. apply (Hnp q). exists nc. auto. }
      assert (Hne : c <> p) by (intros ->; apply Hno; reflexivity).
      unfold quiet in Hr. rewrite (run_set_parent 0 h nx ∅ c nc p np) in Hr by auto using lookup_empty.
      injection Hr as <-. exists (attach h c nc p np), nx. split; [reflexivity|].
      split; [apply forest_attach; auto|]. intros a Ha. apply Hdom.
      rewrite attach_lookup in Ha by assumption.
      destruct (decide (a = p)) as [->|]; [eauto|]. destruct (decide (a = c)) as [->|]; eauto.
    - cbn [heap quiet] in *. destruct Hcp as (nc & Hc & Hpc).
      assert (Hcp : has_parent h c p) by (exists nc; auto).
      destruct (forest_live h Hf c p Hcp) as [np Hp].
      assert (Hne : c <> p).
      { intros ->. apply (forest_acyclic h Hf p). apply tc_once. assumption. }
      unfold quiet in Hr. rewrite (run_remove_parent 0 h nx ∅ c nc p np) in Hr by auto using lookup_empty.
      injection Hr as <-. exists (detach h c nc p np), nx. split; [reflexivity|].
      split; [apply forest_detach; auto|]. intros a Ha. apply Hdom.
      rewrite detach_lookup in Ha by assumption.
      destruct (decide (a = p)) as [->|]; [eauto|]. destruct (decide (a = c)) as [->|]; eauto.
    - exists h', nx. split; [reflexivity|]. split; [eapply forest_same_links; eauto|].
      intros a [n' E]. apply Hdom. specialize (Hs a). rewrite E in Hs.
      destruct (h !! a); [eauto|discriminate].
  Qed.

  (** set_parent then remove_parent restores the links *)
  Lemma attach_detach_lemma t h nx c nc p :
    h !! c = Some nc -> is_Some (h !! p) -> c <> p -> n_parent nc = None ->
    ~ lists_child h p c ->
    run t (node_set_parent c p ;;; node_remove_parent c p) (quiet h nx) = Done tt (quiet h nx).
  Proof.
    intros Hc [np Hp] Hne Hpc Hnl. unfold quiet.
    erewrite run_bind_done; [|apply run_set_parent; eauto using lookup_empty].
    erewrite (run_remove_parent t (attach h c nc p np) nx ∅ c (set_n_parent nc (Some p)) p
      (set_n_children np (n_children np ++ [c])));
      [| | |assumption|apply lookup_empty|apply lookup_empty].
    2:{ rewrite attach_lookup by assumption. rewrite decide_False by assumption. rewrite decide_True by reflexivity. reflexivity. }
    2:{ rewrite attach_lookup by assumption. rewrite decide_True by reflexivity. reflexivity. }
    f_equal. f_equal. apply map_eq. intros a.
    rewrite detach_lookup.
    2:{ rewrite attach_lookup by assumption. rewrite decide_False by assumption. rewrite decide_True by reflexivity. reflexivity. }
    2:{ rewrite attach_lookup by assumption. rewrite decide_True by reflexivity. reflexivity. }
    2: assumption.
    rewrite attach_lookup by assumption.
    destruct (decide (a = p)) as [->|H1]; [|destruct (decide (a = c)) as [->|H2]; [|reflexivity]].
    - rewrite Hp. f_equal. cbn. rewrite filter_app.
      replace (filter (fun x => x <> c) [c]) with (@nil nat).
      2:{ symmetry. rewrite filter_cons_False by auto. reflexivity. }
      rewrite app_nil_r. replace (filter (fun x => x <> c) (n_children np)) with (n_children np).
      2:{ symmetry. assert (forall x, x ∈ n_children np -> x <> c) as Hx.
          { intros x Hx ->. apply Hnl. exists np. auto. }
          clear -Hx. induction (n_children np) as [|y l IH]; [reflexivity|].
          rewrite filter_cons_True by (apply Hx; set_solver). f_equal. apply IH. intros; apply Hx; set_solver. }
      destruct np; reflexivity.
    - rewrite Hc. f_equal. cbn. destruct nc; cbn in *; subst; reflexivity.
  Qed.
  (** set_parent on a node that already has another parent *)
  Lemma attach_twice_lemma t h nx c q p :
    has_parent h c q -> lists_child h q c -> is_Some (h !! p) -> c <> p -> c <> q -> q <> p ->
    exists h', run t (node_set_parent c p) (quiet h nx) = Done tt (quiet h' nx) /\
      has_parent h' c p /\ ~ has_parent h' c q /\ lists_child h' p c /\ lists_child h' q c /\
      ~ forest h'.
  Proof.
    intros (nc & Hc & Hpc) Hl [np Hp] Hne Hneq Hqp.
    exists (attach h c nc p np). split; [apply run_set_parent; auto using lookup_empty|].
    assert (H1 : has_parent (attach h c nc p np) c p).
    { exists (set_n_parent nc (Some p)). split; [|reflexivity].
      rewrite attach_lookup by assumption. rewrite decide_False by assumption. rewrite decide_True by reflexivity. reflexivity. }
    assert (H2 : ~ has_parent (attach h c nc p np) c q).
    { intros (n & E & Hn). destruct H1 as (n1 & E1 & Hn1). congruence. }
    assert (H3 : lists_child (attach h c nc p np) p c) by (apply attach_lists; auto).
    assert (H4 : lists_child (attach h c nc p np) q c) by (apply attach_lists; auto).
    repeat (split; [assumption|]). intros Hf. apply H2. apply (forest_agree _ Hf). assumption.
  Qed.
End LinkProofs.

Lemma leaf_no_rtc {T} (h : gmap nat (node T)) c p :
  n_children <$> h !! c = Some [] -> c <> p -> ~ rtc (lists_child h) c p.
Proof.
  intros Hc Hne Hr. inversion Hr as [|x y z (n' & Hn' & Hy) _]; subst; [congruence|].
  rewrite Hn' in Hc. injection Hc as Hc. rewrite Hc in Hy. set_solver.
Qed.
Lemma parentless {T} (h : gmap nat (node T)) c :
  n_parent <$> h !! c = Some None -> forall q, ~ has_parent h c q.
Proof. intros Hc q (n & Hn & Hp). rewrite Hn in Hc. injection Hc as Hc. congruence. Qed.
Lemma is_live {T} (h : gmap nat (node T)) a :
  bool_decide (is_Some (h !! a)) = true -> is_Some (h !! a).
Proof. apply bool_decide_eq_true_1. Qed.
Lemma has_parent_check {T} (h : gmap nat (node T)) c p :
  n_parent <$> h !! c = Some (Some p) -> has_parent h c p.
Proof. destruct (h !! c) as [n|] eqn:E; cbn; [|discriminate]. injection 1 as H. exists n. auto. Qed.
Lemma lists_child_check {T} (h : gmap nat (node T)) p c :
  (n ← h !! p; Some (bool_decide (c ∈ n_children n))) = Some true -> lists_child h p c.
Proof.
  destruct (h !! p) as [n|] eqn:E; cbn; [|discriminate]. injection 1 as H.
  exists n. split; [auto|]. apply bool_decide_eq_true_1 in H. exact H.
Qed.
Lemma live_parent_check {T} (h : gmap nat (node T)) c p :
  n_parent <$> h !! c = Some (Some p) -> bool_decide (is_Some (h !! p)) = true -> live_parent h c p.
Proof. intros H1 H2. split; [apply has_parent_check; exact H1|apply is_live; exact H2]. Qed.
Lemma no_parent_check {T} (h : gmap nat (node T)) c :
  n_parent <$> h !! c = Some None -> no_parent h c.
Proof.
  intros H. split.
  - destruct (h !! c); [eauto|discriminate].
  - intros p [Hp _]. exact (parentless h c H p Hp).
Qed.
Lemma tree_in_check {T} (h : gmap nat (node T)) a cs :
  n_children <$> h !! a = Some (map troot cs) -> Forall (tree_in h) cs -> tree_in h (TNode a cs).
Proof.
  destruct (h !! a) as [n|] eqn:E; cbn; [|discriminate]. injection 1 as H. intros. econstructor; eauto.
Qed.
