(** * Proofs about the methods of [Node] (sequential execution) *)
From Coq Require Import String.
From stdpp Require Import gmap.
From Verif Require Import Scalar Geometry Joint Link Prog NodeM RunLemmas
  SpecJoint SpecNode JointProofs.

Section NodeProofs.
  Context {T : Type} `{Sc : Scalar T}.
  Implicit Types (h : gmap nat (node T)) (L : gmap nat nat).

  Definition live h (o : option nat) : option nat :=
    match o with
    | Some w => match h !! w with Some _ => Some w | None => None end
    | None => None
    end.

  Lemma run_node_parent t a h nx L n :
    h !! a = Some n -> L !! a = None ->
    run t (node_parent a) (Sh h nx L ∅) = Done (live h (n_parent n)) (Sh h nx L ∅).
  Proof.
    intros Hn HL. unfold node_parent.
    erewrite run_lock_bind by eauto. erewrite run_get_bind by (eauto; apply lookup_insert).
    destruct (n_parent n) as [w|] eqn:Ep.
    - rewrite run_upgrade_bind. rewrite run_unlock_bind by apply lookup_insert.
      rewrite delete_insert by done. cbn [run live].
      destruct (h !! w) as [x|] eqn:Ew.
      + rewrite bool_decide_eq_true_2 by eauto. reflexivity.
      + rewrite bool_decide_eq_false_2; [reflexivity|]. intros [? ?]. discriminate.
    - rewrite run_unlock_bind by apply lookup_insert.
      rewrite delete_insert by done. reflexivity.
  Qed.
  Lemma run_node_mimic_parent t a h nx L n :
    h !! a = Some n -> L !! a = None ->
    run t (node_mimic_parent a) (Sh h nx L ∅) = Done (live h (n_mimic_parent n)) (Sh h nx L ∅).
  Proof.
    intros Hn HL. unfold node_mimic_parent.
    erewrite run_lock_bind by eauto. erewrite run_get_bind by (eauto; apply lookup_insert).
    destruct (n_mimic_parent n) as [w|] eqn:Ep.
    - rewrite run_upgrade_bind. rewrite run_unlock_bind by apply lookup_insert.
      rewrite delete_insert by done. cbn [run live].
      destruct (h !! w) as [x|] eqn:Ew.
      + rewrite bool_decide_eq_true_2 by eauto. reflexivity.
      + rewrite bool_decide_eq_false_2; [reflexivity|]. intros [? ?]. discriminate.
    - rewrite run_unlock_bind by apply lookup_insert.
      rewrite delete_insert by done. reflexivity.
  Qed.

  Lemma node_moved_eq (n : node T) p n' :
    node_moved n p n' <-> n' = set_n_joint n (joint_set_unchecked (n_joint n) p).
  Proof.
    unfold node_moved. split.
    - intros (Hm & H1 & H2 & H3 & H4 & H5 & H6). apply moved_to_eq in Hm.
      unfold set_n_joint. destruct n'; cbn in *. subst. reflexivity.
    - intros ->. cbn. rewrite moved_to_eq. tauto.
  Qed.

  Lemma set_n_joint_id (n : node T) : set_n_joint n (n_joint n) = n.
  Proof. destruct n; reflexivity. Qed.

  (** the pure effect of the mimic loop *)
  Definition follow_node (p : T) (cn : node T) : node T :=
    match n_mimic cn with
    | Some m => set_n_joint cn (joint_set_unchecked (n_joint cn) (mimic_position m p))
    | None => cn
    end.
  Definition accepts (p : T) (cn : node T) : Prop :=
    match n_mimic cn with
    | Some m => admissible (n_joint cn) (mimic_position m p)
    | None => False
    end.
  Fixpoint follow_all h (p : T) (cs : list nat) : gmap nat (node T) :=
    match cs with
    | [] => h
    | c :: cs => follow_all (alter (follow_node p) c h) p cs
    end.

  Lemma n_mimic_follow_node p (cn : node T) : n_mimic (follow_node p cn) = n_mimic cn.
  Proof. unfold follow_node. destruct (n_mimic cn) eqn:E; [cbn|]; congruence. Qed.
  Lemma follow_node_idem p (cn : node T) : follow_node p (follow_node p cn) = follow_node p cn.
  Proof.
    unfold follow_node at 1. rewrite n_mimic_follow_node.
    unfold follow_node. destruct (n_mimic cn); reflexivity.
  Qed.
  Lemma accepts_follow_node p (cn : node T) : accepts p (follow_node p cn) <-> accepts p cn.
  Proof.
    unfold accepts. rewrite n_mimic_follow_node. unfold follow_node.
    destruct (n_mimic cn); [|tauto]. reflexivity.
  Qed.

  Lemma lookup_follow_all h p cs b :
    follow_all h p cs !! b = (if decide (b ∈ cs) then follow_node p <$> h !! b else h !! b).
  Proof.
    revert h. induction cs as [|c cs IH]; intros h; cbn [follow_all].
    - destruct (decide _) as [E|_]; [set_solver|reflexivity].
    - rewrite IH. destruct (decide (b = c)) as [->|Hbc].
      + rewrite lookup_alter. rewrite (decide_True (P := c ∈ c :: cs)) by set_solver.
        destruct (decide (c ∈ cs)); [|reflexivity].
        destruct (h !! c); cbn; [|reflexivity]. rewrite follow_node_idem. reflexivity.
      + rewrite lookup_alter_ne by congruence.
        destruct (decide (b ∈ cs)), (decide (b ∈ c :: cs)); set_solver.
  Qed.

  (** one iteration *)
  Lemma run_mimic_step t a p c cs h nx L cn m :
    h !! c = Some cn -> L !! c = None -> n_mimic cn = Some m ->
    run t (mimic_loop a p (c :: cs)) (Sh h nx L ∅) =
    match joint_set (n_joint cn) (mimic_position m p) with
    | (j', Ok _) => run t (mimic_loop a p cs) (Sh (<[c := set_n_joint cn j']> h) nx L ∅)
    | (j', Err e) => Done (Err e) (Sh (<[c := set_n_joint cn j']> h) nx L ∅)
    end.
  Proof.
    intros Hc HL Hm. cbn [mimic_loop].
    erewrite run_lock_bind by eauto. erewrite run_get_bind by (eauto; apply lookup_insert).
    rewrite Hm. rewrite run_put_bind by apply lookup_insert.
    destruct (joint_set _ _) as [j' [u|e]]; cbn [fst snd].
    - rewrite run_unlock_bind by apply lookup_insert. rewrite delete_insert by done. reflexivity.
    - rewrite run_unlock_bind by apply lookup_insert. rewrite delete_insert by done. reflexivity.
  Qed.

  Lemma run_mimic_loop t a p cs : forall h nx L,
    (forall c, c ∈ cs -> L !! c = None /\ exists cn, h !! c = Some cn /\ is_Some (n_mimic cn)) ->
    ((forall c cn, c ∈ cs -> h !! c = Some cn -> accepts p cn) /\
     run t (mimic_loop a p cs) (Sh h nx L ∅) = Done (Ok tt) (Sh (follow_all h p cs) nx L ∅)) \/
    (exists l1 c l2 cn m e, cs = l1 ++ c :: l2 /\
       (forall b bn, b ∈ l1 -> h !! b = Some bn -> accepts p bn) /\
       h !! c = Some cn /\ n_mimic cn = Some m /\ ~ accepts p cn /\
       joint_set (n_joint cn) (mimic_position m p) = (n_joint cn, Err e) /\
       run t (mimic_loop a p cs) (Sh h nx L ∅) = Done (Err e) (Sh (follow_all h p l1) nx L ∅)).
  Proof.
    induction cs as [|c cs IH]; intros h nx L Hcs.
    - left. split; [set_solver|reflexivity].
    - destruct (Hcs c) as (HL & cn & Hc & m & Hm); [set_solver|].
      rewrite (run_mimic_step t a p c cs h nx L cn m) by assumption.
      destruct (joint_set_cases (n_joint cn) (mimic_position m p)) as [[Ha E]|Hrej].
      + rewrite E.
        assert (Hal : <[c := set_n_joint cn (joint_set_unchecked (n_joint cn) (mimic_position m p))]> h
                      = alter (follow_node p) c h).
        { apply map_eq. intros b. destruct (decide (b = c)) as [->|].
          - rewrite lookup_insert, lookup_alter, Hc. cbn. unfold follow_node. rewrite Hm. reflexivity.
          - rewrite lookup_insert_ne, lookup_alter_ne by congruence. reflexivity. }
        rewrite Hal.
        assert (Hacc : accepts p cn) by (unfold accepts; rewrite Hm; exact Ha).
        assert (Hpre : forall b bn, alter (follow_node p) c h !! b = Some bn ->
                  exists bn0, h !! b = Some bn0 /\ (accepts p bn <-> accepts p bn0) /\
                              n_mimic bn = n_mimic bn0 /\ (b <> c -> bn = bn0) /\ (b = c -> bn0 = cn)).
        { intros b bn Hb. destruct (decide (b = c)) as [->|].
          - rewrite lookup_alter, Hc in Hb. injection Hb as <-. exists cn.
            rewrite accepts_follow_node, n_mimic_follow_node. tauto.
          - rewrite lookup_alter_ne in Hb by congruence. exists bn. tauto. }
        destruct (IH (alter (follow_node p) c h) nx L) as [[Hall Hrun]|Hfail].
        * intros c' Hc'. destruct (Hcs c') as (HL' & cn' & Hcn' & Hm'); [set_solver|].
          split; [assumption|]. destruct (decide (c' = c)) as [->|].
          -- rewrite lookup_alter, Hc. eexists. split; [reflexivity|].
             rewrite n_mimic_follow_node. eauto.
          -- rewrite lookup_alter_ne by congruence. eauto.
        * left. split; [|exact Hrun].
          intros b bn Hb Hbn. destruct (decide (b = c)) as [->|].
          -- congruence.
          -- apply (Hall b); [set_solver|]. rewrite lookup_alter_ne by congruence. exact Hbn.
        * right. destruct Hfail as (l1 & d & l2 & dn & md & e & -> & Hl1 & Hd & Hmd & Hna & HE & Hrun).
          destruct (Hpre d dn Hd) as (dn0 & Hd0 & Hacc0 & Hmm & Hne & Heq).
          assert (Hdc : d <> c).
          { intros ->. destruct Hna. apply Hacc0. rewrite Heq by reflexivity. exact Hacc. }
          rewrite (Hne Hdc) in *.
          exists (c :: l1), d, l2, dn0, md, e.
          repeat split; auto.
          intros b bn Hb Hbn. destruct (decide (b = c)) as [->|].
          -- congruence.
          -- apply (Hl1 b); [set_solver|]. rewrite lookup_alter_ne by congruence. exact Hbn.
      + right.
        assert (exists e, joint_set (n_joint cn) (mimic_position m p) = (n_joint cn, Err e)) as [e E].
        { destruct Hrej as [[_ E]|[_ (r & _ & _ & E)]]; eauto. }
        exists [], c, cs, cn, m, e. rewrite E. rewrite set_n_joint_id, insert_id by assumption.
        repeat split; auto; [set_solver|].
        unfold accepts. rewrite Hm. intros Ha.
        rewrite joint_set_admissible in E by assumption. discriminate.
  Qed.

  (** ** Node::set_joint_position *)
  Lemma run_set_position_mimic t a p h nx n w :
    h !! a = Some n -> n_mimic_parent n = Some w ->
    run t (node_set_joint_position a p) (quiet h nx) = Done (Ok tt) (quiet h nx).
  Proof.
    intros Hn Hw. unfold node_set_joint_position, quiet.
    erewrite run_lock_bind by (eauto; apply lookup_empty).
    erewrite run_get_bind by (eauto; apply lookup_insert).
    rewrite Hw. rewrite run_unlock_bind by apply lookup_insert.
    rewrite delete_insert by apply lookup_empty. reflexivity.
  Qed.

  Definition self_moved h a (n : node T) (p : T) : gmap nat (node T) :=
    <[a := set_n_joint n (joint_set_unchecked (n_joint n) p)]> h.

  Lemma run_set_position t a p h nx n :
    mimic_wf h -> h !! a = Some n -> n_mimic_parent n = None ->
    (admissible (n_joint n) p /\
     (forall c cn, c ∈ n_mimic_children n -> h !! c = Some cn -> accepts p cn) /\
     run t (node_set_joint_position a p) (quiet h nx) =
       Done (Ok tt) (quiet (follow_all (self_moved h a n p) p (n_mimic_children n)) nx)) \/
    (exists e, joint_set (n_joint n) p = (n_joint n, Err e) /\ ~ admissible (n_joint n) p /\
     run t (node_set_joint_position a p) (quiet h nx) = Done (Err e) (quiet h nx)) \/
    (admissible (n_joint n) p /\ exists l1 c l2 cn m e,
       n_mimic_children n = l1 ++ c :: l2 /\
       (forall b bn, b ∈ l1 -> h !! b = Some bn -> accepts p bn) /\
       h !! c = Some cn /\ n_mimic cn = Some m /\ ~ accepts p cn /\
       joint_set (n_joint cn) (mimic_position m p) = (n_joint cn, Err e) /\
       run t (node_set_joint_position a p) (quiet h nx) =
         Done (Err e) (quiet (follow_all (self_moved h a n p) p l1) nx)).
  Proof.
    intros Hwf Hn Hmp. unfold node_set_joint_position, quiet.
    erewrite run_lock_bind by (eauto; apply lookup_empty).
    erewrite run_get_bind by (eauto; apply lookup_insert). rewrite Hmp.
    rewrite run_put_bind by apply lookup_insert.
    assert (Hna : forall c, c ∈ n_mimic_children n -> c <> a).
    { intros c Hc ->. destruct (Hwf a n a Hn Hc) as (cn & Hcn & [w Hw] & _). congruence. }
    destruct (joint_set_cases (n_joint n) p) as [[Ha E]|Hrej].
    - rewrite E. cbn [fst snd]. rewrite run_bind.
      destruct (run_mimic_loop t a p (n_mimic_children n) (self_moved h a n p) nx (<[a := t]> ∅))
        as [[Hall Hrun]|Hfail].
      { intros c Hc. split.
        - rewrite lookup_insert_ne by (apply not_eq_sym; auto). apply lookup_empty.
        - destruct (Hwf a n c Hn Hc) as (cn & Hcn & _ & Hm). exists cn.
          unfold self_moved. rewrite lookup_insert_ne by (apply not_eq_sym; auto). auto. }
      + left. split; [assumption|]. split.
        * intros c cn Hc Hcn. apply (Hall c); [assumption|].
          unfold self_moved. rewrite lookup_insert_ne by (apply not_eq_sym; auto). assumption.
        * unfold self_moved in Hrun.
          rewrite Hrun. cbn [obind]. rewrite run_unlock_bind by apply lookup_insert.
          rewrite delete_insert by apply lookup_empty. reflexivity.
      + right. right. split; [assumption|].
        destruct Hfail as (l1 & c & l2 & cn & m & e & Hcs & Hl1 & Hc & Hm & Hacc & HE & Hrun).
        exists l1, c, l2, cn, m, e.
        assert (c <> a) by (apply Hna; rewrite Hcs; set_solver).
        unfold self_moved in Hc. rewrite lookup_insert_ne in Hc by congruence.
        repeat split; auto.
        * intros b bn Hb Hbn. apply (Hl1 b); [assumption|].
          unfold self_moved. rewrite lookup_insert_ne; [assumption|].
          apply not_eq_sym. apply Hna. rewrite Hcs. set_solver.
        * unfold self_moved in Hrun.
          rewrite Hrun. cbn [obind]. rewrite run_unlock_bind by apply lookup_insert.
          rewrite delete_insert by apply lookup_empty. reflexivity.
    - right. left.
      assert (exists e, joint_set (n_joint n) p = (n_joint n, Err e)) as [e E].
      { destruct Hrej as [[_ E]|[_ (r & _ & _ & E)]]; eauto. }
      exists e. split; [assumption|]. split.
      { intros Ha. rewrite joint_set_admissible in E by assumption. discriminate. }
      rewrite E. cbn [fst snd]. rewrite run_unlock_bind by apply lookup_insert.
      rewrite delete_insert by apply lookup_empty.
      rewrite set_n_joint_id, insert_id by assumption. reflexivity.
  Qed.

  (** what [follow_all] after moving [a] means *)
  Lemma follow_all_self h a n p cs :
    h !! a = Some n -> a ∉ cs ->
    let h' := follow_all (self_moved h a n p) p cs in
    (exists n', h' !! a = Some n' /\ node_moved n p n') /\
    (forall c, c ∈ cs -> (exists cn, h !! c = Some cn /\ is_Some (n_mimic cn)) -> followed h p c h') /\
    (forall b, b <> a -> b ∉ cs -> h' !! b = h !! b).
  Proof.
    intros Hn Ha. cbn zeta. split; [|split].
    - exists (set_n_joint n (joint_set_unchecked (n_joint n) p)). split.
      + rewrite lookup_follow_all. rewrite decide_False by assumption.
        unfold self_moved. apply lookup_insert.
      + apply node_moved_eq. reflexivity.
    - intros c Hc (cn & Hcn & m & Hm). exists cn, m, (follow_node p cn).
      split; [assumption|]. split; [assumption|]. split.
      + rewrite lookup_follow_all, decide_True by assumption. unfold self_moved.
        rewrite lookup_insert_ne by set_solver. rewrite Hcn. reflexivity.
      + apply node_moved_eq. unfold follow_node. rewrite Hm. reflexivity.
    - intros b Hb Hbcs. rewrite lookup_follow_all, decide_False by assumption.
      unfold self_moved. apply lookup_insert_ne. congruence.
  Qed.

  (** ** Clamped and unchecked *)
  Lemma run_set_clamped t a p h nx n :
    h !! a = Some n ->
    run t (node_set_joint_position_clamped a p) (quiet h nx) =
    Done tt (quiet (<[a := set_n_joint n (joint_set_clamped (n_joint n) p)]> h) nx).
  Proof. intros. unfold node_set_joint_position_clamped, quiet. erewrite run_modify; eauto. Qed.
  Lemma run_set_unchecked t a p h nx n :
    h !! a = Some n ->
    run t (node_set_joint_position_unchecked a p) (quiet h nx) =
    Done tt (quiet (<[a := set_n_joint n (joint_set_unchecked (n_joint n) p)]> h) nx).
  Proof. intros. unfold node_set_joint_position_unchecked, quiet. erewrite run_modify; eauto. Qed.
End NodeProofs.

Section NodeTheorems.
  Context {T : Type} `{Sc : Scalar T}.
  Implicit Types (h : gmap nat (node T)).

  Lemma mimic_children_not_self h a n :
    mimic_wf h -> h !! a = Some n -> n_mimic_parent n = None -> a ∉ n_mimic_children n.
  Proof.
    intros Hwf Hn Hmp Hin. destruct (Hwf a n a Hn Hin) as (cn & Hcn & [w Hw] & _). congruence.
  Qed.

  Lemma accepts_target h c p cn :
    h !! c = Some cn -> is_Some (n_mimic cn) ->
    (accepts p cn <-> forall j q, mimic_target h c p j q -> admissible j q).
  Proof.
    intros Hc [m Hm]. unfold accepts. rewrite Hm. split.
    - intros Ha j q (cn' & m' & Hc' & Hm' & -> & ->). assert (cn' = cn) as -> by congruence.
      assert (m' = m) as -> by congruence. exact Ha.
    - intros H. apply H. exists cn, m. auto.
  Qed.

  (** C06 *)
  Lemma set_position_ok_lemma t h nx a n p s :
    mimic_wf h -> h !! a = Some n -> n_mimic_parent n = None ->
    run t (node_set_joint_position a p) (quiet h nx) = Done (Ok tt) s ->
    exists h', s = quiet h' nx /\
      (exists n', h' !! a = Some n' /\ node_moved n p n') /\
      (forall c, c ∈ n_mimic_children n -> followed h p c h') /\
      (forall b, b <> a -> b ∉ n_mimic_children n -> h' !! b = h !! b).
  Proof.
    intros Hwf Hn Hmp Hrun.
    destruct (run_set_position t a p h nx n Hwf Hn Hmp)
      as [(Ha & Hall & Hr)|[(e & _ & _ & Hr)|(_ & l1 & c & l2 & cn & m & e & _ & _ & _ & _ & _ & _ & Hr)]];
      rewrite Hr in Hrun; try discriminate.
    injection Hrun as <-. eexists. split; [reflexivity|].
    destruct (follow_all_self h a n p (n_mimic_children n) Hn) as (H1 & H2 & H3).
    { eapply mimic_children_not_self; eauto. }
    split; [exact H1|]. split; [|exact H3].
    intros c Hc. apply H2; [exact Hc|]. destruct (Hwf a n c Hn Hc) as (cn & Hcn & _ & Hm). eauto.
  Qed.

  (** when it returns Ok *)
  Lemma set_position_ok_iff_lemma t h nx a n p :
    mimic_wf h -> h !! a = Some n -> n_mimic_parent n = None ->
    (exists s, run t (node_set_joint_position a p) (quiet h nx) = Done (Ok tt) s) <->
    admissible (n_joint n) p /\
    (forall c j q, c ∈ n_mimic_children n -> mimic_target h c p j q -> admissible j q).
  Proof.
    intros Hwf Hn Hmp.
    assert (Hacc : forall c cn, c ∈ n_mimic_children n -> h !! c = Some cn ->
              (accepts p cn <-> forall j q, mimic_target h c p j q -> admissible j q)).
    { intros c cn Hc Hcn. apply accepts_target; [assumption|].
      destruct (Hwf a n c Hn Hc) as (cn' & Hcn' & _ & Hm). congruence. }
    destruct (run_set_position t a p h nx n Hwf Hn Hmp)
      as [(Ha & Hall & Hr)|[(e & _ & Hna & Hr)|(Ha & l1 & c & l2 & cn & m & e & Hcs & Hl1 & Hc & Hm & Hna & _ & Hr)]];
      rewrite Hr.
    - split; [|eauto]. intros _. split; [assumption|].
      intros c j q Hc Ht. destruct (Hwf a n c Hn Hc) as (cn & Hcn & _ & _).
      apply (Hacc c cn); eauto.
    - split; [intros [s Hs]; discriminate|]. tauto.
    - split; [intros [s Hs]; discriminate|]. intros [_ Hall]. exfalso. apply Hna.
      assert (c ∈ n_mimic_children n) by (rewrite Hcs; set_solver).
      apply (Hacc c cn); eauto.
  Qed.

  (** C08 *)
  Lemma set_position_err_lemma t h nx a n p e s :
    mimic_wf h -> h !! a = Some n -> n_mimic_parent n = None ->
    run t (node_set_joint_position a p) (quiet h nx) = Done (Err e) s ->
    (snd (joint_set (n_joint n) p) = Err e /\ s = quiet h nx) \/
    (admissible (n_joint n) p /\ exists l1 c l2 j q h',
       n_mimic_children n = l1 ++ c :: l2 /\ s = quiet h' nx /\
       mimic_target h c p j q /\ snd (joint_set j q) = Err e /\
       (forall b j' q', b ∈ l1 -> mimic_target h b p j' q' -> admissible j' q') /\
       (exists n', h' !! a = Some n' /\ node_moved n p n') /\
       (forall b, b ∈ l1 -> followed h p b h') /\
       (forall b, b <> a -> b ∉ l1 -> h' !! b = h !! b)).
  Proof.
    intros Hwf Hn Hmp Hrun.
    destruct (run_set_position t a p h nx n Hwf Hn Hmp)
      as [(Ha & Hall & Hr)|[(e' & HE & _ & Hr)|(Ha & l1 & c & l2 & cn & m & e' & Hcs & Hl1 & Hc & Hm & Hna & HE & Hr)]];
      rewrite Hr in Hrun; try discriminate; injection Hrun as <- <-.
    - left. rewrite HE. auto.
    - right. split; [assumption|].
      exists l1, c, l2, (n_joint cn), (follow_position m p), (follow_all (self_moved h a n p) p l1).
      assert (Hsub : forall b, b ∈ l1 -> b ∈ n_mimic_children n) by (rewrite Hcs; set_solver).
      destruct (follow_all_self h a n p l1 Hn) as (H1 & H2 & H3).
      { intros Hin. exact (mimic_children_not_self h a n Hwf Hn Hmp (Hsub _ Hin)). }
      split; [assumption|]. split; [reflexivity|]. split; [exists cn, m; auto|].
      split; [change (follow_position m p) with (mimic_position m p); rewrite HE; reflexivity|].
      split; [|split; [exact H1|split; [|exact H3]]].
      + intros b j' q' Hb Ht. destruct (Hwf a n b Hn (Hsub b Hb)) as (bn & Hbn & _ & Hbm).
        apply (accepts_target h b p bn Hbn Hbm); eauto.
      + intros b Hb. apply H2; [assumption|].
        destruct (Hwf a n b Hn (Hsub b Hb)) as (bn & Hbn & _ & Hbm). eauto.
  Qed.

  (** C07 *)
  Lemma set_position_mimic_child_lemma t h nx a n w p :
    h !! a = Some n -> n_mimic_parent n = Some w ->
    run t (node_set_joint_position a p) (quiet h nx) = Done (Ok tt) (quiet h nx).
  Proof. apply run_set_position_mimic. Qed.

  (** C09 *)
  Lemma set_clamped_frame_lemma t h nx a n p :
    h !! a = Some n ->
    exists h', run t (node_set_joint_position_clamped a p) (quiet h nx) = Done tt (quiet h' nx) /\
      h' !! a = Some (set_n_joint n (joint_set_clamped (n_joint n) p)) /\
      (forall b, b <> a -> h' !! b = h !! b).
  Proof.
    intros Hn. eexists. split; [apply run_set_clamped; exact Hn|].
    split; [apply lookup_insert|]. intros b Hb. apply lookup_insert_ne. congruence.
  Qed.
  Lemma set_unchecked_frame_lemma t h nx a n p :
    h !! a = Some n ->
    exists h', run t (node_set_joint_position_unchecked a p) (quiet h nx) = Done tt (quiet h' nx) /\
      (exists n', h' !! a = Some n' /\ node_moved n p n') /\
      (forall b, b <> a -> h' !! b = h !! b).
  Proof.
    intros Hn. eexists. split; [apply run_set_unchecked; exact Hn|].
    split; [|intros b Hb; apply lookup_insert_ne; congruence].
    eexists. split; [apply lookup_insert|]. apply node_moved_eq. reflexivity.
  Qed.
End NodeTheorems.
