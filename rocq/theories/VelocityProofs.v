(** * update_velocities *)
From Coq Require Import String.
From stdpp Require Import gmap.
From Verif Require Import Scalar Geometry Joint Link Prog NodeM ChainM RunLemmas
  SpecJoint SpecNode SpecGraph GraphProofs LinkProofs SpecChain ChainProofs SpecFK FKProofs.

Section Velocity.
  Context {T : Type} `{Sc : Scalar T}.
  Implicit Types (h : gmap nat (node T)).

  Definition put_wv (n : node T) (v : velocity T) : node T := set_n_joint n (joint_set_wv (n_joint n) v).

  Lemma run_parent_wt_some t h nx a : is_Some (h !! a) ->
    exists o, run t (parent_world_transform a) (quiet h nx) = Done o (quiet h nx).
  Proof.
    intros [n Hn]. destruct (n_parent n) as [p|] eqn:Hp.
    - destruct (h !! p) as [np|] eqn:Hnp.
      + exists (j_wt_cache (n_joint np)). apply run_parent_wt; [eauto|]. right. exists p. split.
        * split; [exists n; auto|eauto].
        * exists np. auto.
      + exists (Some iso1). apply run_parent_wt; [eauto|]. left. split; [|reflexivity]. split; [eauto|].
        intros q [(n' & Hn' & Hq) [nq Hnq]]. congruence.
    - exists (Some iso1). apply run_parent_wt; [eauto|]. left. split; [|reflexivity]. split; [eauto|].
      intros q [(n' & Hn' & Hq) [nq Hnq]]. congruence.
  Qed.
  (** what [world_velocity()] returns *)
  Definition wv_of h (a : nat) (o : option (velocity T)) : Prop :=
    exists n, h !! a = Some n /\ o = j_wv_cache (n_joint n).
  Lemma run_parent_wv t h nx a o :
    is_Some (h !! a) ->
    (no_parent h a /\ o = Some velocity_zero) \/ (exists p, live_parent h a p /\ wv_of h p o) ->
    run t (parent_world_velocity a) (quiet h nx) = Done o (quiet h nx).
  Proof.
    intros Hl H. unfold parent_world_velocity. rewrite run_bind.
    destruct H as [[Hp ->]|(p & Hp & (n & Hn & ->))].
    - rewrite run_parent_none by assumption. reflexivity.
    - rewrite (run_parent_some _ _ _ _ p) by assumption. cbn [obind]. unfold node_world_velocity, quiet.
      erewrite run_read by (eauto using lookup_empty). reflexivity.
  Qed.
  Lemma run_parent_wv_some t h nx a : is_Some (h !! a) ->
    exists o, run t (parent_world_velocity a) (quiet h nx) = Done o (quiet h nx).
  Proof.
    intros [n Hn]. destruct (n_parent n) as [p|] eqn:Hp.
    - destruct (h !! p) as [np|] eqn:Hnp.
      + exists (j_wv_cache (n_joint np)). apply run_parent_wv; [eauto|]. right. exists p. split.
        * split; [exists n; auto|eauto].
        * exists np. auto.
      + exists (Some velocity_zero). apply run_parent_wv; [eauto|]. left. split; [|reflexivity]. split; [eauto|].
        intros q [(n' & Hn' & Hq) [nq Hnq]]. congruence.
    - exists (Some velocity_zero). apply run_parent_wv; [eauto|]. left. split; [|reflexivity]. split; [eauto|].
      intros q [(n' & Hn' & Hq) [nq Hnq]]. congruence.
  Qed.

  Lemma n_parent_live h (n : node T) :
    (exists p, n_parent n = Some p /\ is_Some (h !! p)) \/ ~ (exists p, n_parent n = Some p /\ is_Some (h !! p)).
  Proof.
    destruct (n_parent n) as [p|]; [|right; intros (p & E & _); discriminate].
    destruct (h !! p) as [m|] eqn:Em; [left; exists p; rewrite Em; eauto|].
    right. intros (q & E & [x Hx]). injection E as <-. congruence.
  Qed.
  (** the part from the [match] on *)
  Lemma run_match_movable {A} t h nx a n ptf pv (k : velocity T -> prog T A) :
    h !! a = Some n -> movable (n_joint n) ->
    exists s, run t (lock a ;;; n <- get a ;; v <- velocity_in_match a (n_joint n) ptf pv ;; k v) (quiet h nx) = Deadlock a s.
  Proof.
    intros Hn Hm. unfold quiet. rewrite (run_lock_bind t a _ h nx ∅ n Hn (lookup_empty _)).
    rewrite (run_get_bind t a _ h nx _ n Hn (lookup_insert _ _ _)). rewrite run_bind. unfold velocity_in_match.
    unfold movable in Hm. destruct (j_type (n_joint n)) as [|ax|ax]; [congruence| |]; cbn; rewrite Hn, lookup_insert; cbn; eauto.
  Qed.
  Lemma run_match_fixed t h nx a n ptf pv :
    h !! a = Some n -> j_type (n_joint n) = Fixed ->
    run t (lock a ;;; n <- get a ;; v <- velocity_in_match a (n_joint n) ptf pv ;; unlock a ;;;
      modify a (fun n => set_n_joint n (joint_set_wv (n_joint n) v)) ;;; Ret v) (quiet h nx)
    = Done pv (quiet (<[a := put_wv n pv]> h) nx).
  Proof.
    intros Hn Hf. unfold quiet. rewrite (run_lock_bind t a _ h nx ∅ n Hn (lookup_empty _)).
    rewrite (run_get_bind t a _ h nx _ n Hn (lookup_insert _ _ _)). unfold velocity_in_match. rewrite Hf.
    rewrite run_bind. cbn [run obind]. rewrite (run_unlock_bind t a _ h nx _ (lookup_insert _ _ _)).
    rewrite delete_insert by apply lookup_empty.
    erewrite run_bind_done by (eapply run_modify; eauto using lookup_empty). reflexivity.
  Qed.
  Lemma run_update_velocity t h nx a n ptf pv :
    h !! a = Some n ->
    run t (parent_world_transform a) (quiet h nx) = Done (Some ptf) (quiet h nx) ->
    run t (parent_world_velocity a) (quiet h nx) = Done (Some pv) (quiet h nx) ->
    (j_type (n_joint n) = Fixed /\ run t (update_velocity a) (quiet h nx) = Done pv (quiet (<[a := put_wv n pv]> h) nx)) \/
    (movable (n_joint n) /\ exists s, run t (update_velocity a) (quiet h nx) = Deadlock a s).
  Proof.
    intros Hn H1 H2. unfold update_velocity. rewrite run_bind, H1. cbn [obind expect]. rewrite run_bind. cbn [run obind].
    rewrite run_bind, H2. cbn [obind expect]. rewrite run_bind. cbn [run obind].
    assert (j_type (n_joint n) = Fixed \/ movable (n_joint n)) as [Hf|Hf]
      by (unfold movable; destruct (j_type (n_joint n)); [left|right|right]; congruence).
    - left. split; [exact Hf|]. apply run_match_fixed; assumption.
    - right. split; [exact Hf|]. apply run_match_movable with (n := n); assumption.
  Qed.
  Lemma run_update_velocity_done t h nx a n v s :
    h !! a = Some n -> run t (update_velocity a) (quiet h nx) = Done v s ->
    j_type (n_joint n) = Fixed /\ s = quiet (<[a := put_wv n v]> h) nx.
  Proof.
    intros Hn. destruct (run_parent_wt_some t h nx a) as [[ptf|] H1]; [eauto| |].
    - destruct (run_parent_wv_some t h nx a) as [[pv|] H2]; [eauto| |].
      + destruct (run_update_velocity t h nx a n ptf pv Hn H1 H2) as [[Hf E]|[_ [s' E]]]; rewrite E; [|discriminate].
        intros E'. injection E' as <- <-. auto.
      + unfold update_velocity. rewrite run_bind, H1. cbn [obind expect]. rewrite run_bind. cbn [run obind].
        rewrite run_bind, H2. cbn. discriminate.
    - unfold update_velocity. rewrite run_bind, H1. cbn. discriminate.
  Qed.

  Definition same_types h h' : Prop := forall a, (fun n => j_type (n_joint n)) <$> h' !! a = (fun n => j_type (n_joint n)) <$> h !! a.
  Lemma same_types_put h a n n' : h !! a = Some n -> j_type (n_joint n') = j_type (n_joint n) -> same_types h (<[a := n']> h).
  Proof.
    intros Hn Ht b. destruct (decide (b = a)) as [->|Hne].
    - rewrite lookup_insert, Hn. cbn. congruence.
    - rewrite lookup_insert_ne by done. reflexivity.
  Qed.
  Lemma same_types_trans h1 h2 h3 : same_types h1 h2 -> same_types h2 h3 -> same_types h1 h3.
  Proof. intros H1 H2 a. rewrite H2. apply H1. Qed.
  Lemma same_types_live h h' a : same_types h h' -> is_Some (h !! a) -> is_Some (h' !! a).
  Proof. intros H [n Hn]. specialize (H a). rewrite Hn in H. destruct (h' !! a); [eauto|discriminate]. Qed.

  Lemma update_transform_done t h nx a w s : is_Some (h !! a) ->
    run t (update_transform a) (quiet h nx) = Done w s -> exists h', s = quiet h' nx /\ same_types h h'.
  Proof.
    intros [n Hn]. unfold update_transform. destruct (run_parent_wt_some t h nx a) as [[ptf|] H1]; [eauto| |].
    - rewrite run_bind, H1. cbn [obind expect]. rewrite run_bind. cbn [run obind]. unfold quiet.
      erewrite run_bind_done by (eapply run_read; eauto using lookup_empty).
      erewrite run_bind_done by (eapply run_modify; eauto using lookup_empty). cbn [run].
      intros E. apply (f_equal (fun o => match o with Done _ s => Some s | _ => None end)) in E. cbv beta iota in E.
      injection E as <-. eexists. split; [reflexivity|]. eapply same_types_put; eauto.
    - rewrite run_bind, H1. cbn. discriminate.
  Qed.
  Lemma mapM_done {A B} t (f : A -> prog T B) (good : A -> Prop) (P : gmap nat (node T) -> gmap nat (node T) -> Prop) nx :
    (forall h, P h h) -> (forall h1 h2 h3, P h1 h2 -> P h2 h3 -> P h1 h3) ->
    forall l h bs s,
    (forall x h' b s, x ∈ l -> P h h' -> run t (f x) (quiet h' nx) = Done b s -> good x /\ exists h2, s = quiet h2 nx /\ P h' h2) ->
    run t (mapM f l) (quiet h nx) = Done bs s -> Forall good l /\ exists h', s = quiet h' nx /\ P h h'.
  Proof.
    intros Hr Htr. induction l as [|x l IH]; intros h bs s Hf E.
    - injection E as <- <-. split; [constructor|]. exists h. auto.
    - rewrite run_mapM_cons in E. destruct (run t (f x) (quiet h nx)) as [b s1| | | |] eqn:E1; cbn [obind] in E; try discriminate.
      destruct (Hf x h b s1 ltac:(left) (Hr h) E1) as (Hg & h1 & -> & H1).
      destruct (run t (mapM f l) (quiet h1 nx)) as [bs' s2| | | |] eqn:E2; cbn [obind] in E; try discriminate.
      injection E as <- <-. destruct (IH h1 bs' s2) as (Hgs & h2 & -> & H2).
      + intros y h' b' s' Hy Hp Er. eapply Hf; [right; exact Hy| |exact Er]. eauto.
      + exact E2.
      + split; [constructor; assumption|]. exists h2. split; [reflexivity|]. eauto.
  Qed.

  (** it returns only on chains of fixed joints *)
  Lemma update_velocities_done t h nx c vs s :
    all_live h (c_nodes c) -> run t (update_velocities c) (quiet h nx) = Done vs s ->
    forall a n, a ∈ c_nodes c -> h !! a = Some n -> j_type (n_joint n) = Fixed.
  Proof.
    intros Hl E. unfold update_velocities in E. rewrite run_bind in E.
    destruct (run t (update_transforms c) (quiet h nx)) as [ws s1| | | |] eqn:E1; cbn [obind] in E; try discriminate.
    unfold update_transforms in E1.
    destruct (mapM_done t update_transform (fun _ => True) same_types nx ltac:(intros ? ?; reflexivity) same_types_trans
      (c_nodes c) h ws s1) as (_ & h1 & -> & H1).
    { intros x h' b s' Hx Hp Er. split; [exact I|]. eapply update_transform_done; [|exact Er].
      eapply same_types_live; [exact Hp|]. apply Hl. exact Hx. }
    { exact E1. }
    destruct (mapM_done t update_velocity (fun a => forall n, h !! a = Some n -> j_type (n_joint n) = Fixed) (same_types) nx
      ltac:(intros ? ?; reflexivity) same_types_trans (c_nodes c) h1 vs s) as (Hall & _).
    { intros x h' b s' Hx Hp Er. pose proof (same_types_trans _ _ _ H1 Hp) as Hq.
      destruct (Hl x Hx) as [n Hn]. pose proof (Hq x) as Hqx. rewrite Hn in Hqx.
      destruct (h' !! x) as [n'|] eqn:Hn'; [|discriminate]. cbn in Hqx. injection Hqx as Hty.
      destruct (run_update_velocity_done t h' nx x n' b s' Hn' Er) as [Hf ->]. split.
      - intros n0 E0. assert (n0 = n) as -> by congruence. congruence.
      - eexists. split; [reflexivity|]. eapply same_types_put; eauto. }
    { exact E. }
    rewrite Forall_forall in Hall. intros a n Ha Hn. apply (Hall a Ha n Hn).
  Qed.

  (** on a chain in which parents come first it hangs on the first movable joint *)
  Lemma update_velocities_deadlock t h nx c l1 a l2 :
    all_live h (c_nodes c) -> parents_first h (c_nodes c) -> c_nodes c = l1 ++ a :: l2 ->
    (forall b n, b ∈ l1 -> h !! b = Some n -> j_type (n_joint n) = Fixed) ->
    (forall n, h !! a = Some n -> movable (n_joint n)) ->
    exists s, run t (update_velocities c) (quiet h nx) = Deadlock a s.
  Proof.
    intros Hl Hpf E Hfix Hmov.
    destruct (update_transforms_lemma t h nx c Hl Hpf) as (ws & h1 & Hr & _ & Hc & Hout & _).
    unfold update_velocities. rewrite run_bind, Hr. cbn [obind]. clear Hr.
    (* what is known about h1 *)
    assert (Hst : same_types h h1 /\ same_parents h h1 /\ forall b, b ∈ c_nodes c -> exists w, wt_of h1 b (Some w)).
    { assert (Hin : forall b, b ∈ c_nodes c -> exists n w, h !! b = Some n /\ h1 !! b = Some (put_wt n w)).
      { intros b Hb. apply elem_of_list_lookup in Hb as [i Hi].
        destruct (Forall2_lookup_l _ _ _ _ _ Hc Hi) as (w & _ & (n & n' & Hn & Hn' & Hw)).
        exists n, w. split; [assumption|]. rewrite Hn'. f_equal. apply put_wt_with. assumption. }
      split; [|split].
      - intros b. destruct (decide (b ∈ c_nodes c)) as [Hb|Hb]; [|rewrite Hout by assumption; reflexivity].
        destruct (Hin b Hb) as (n & w & Hn & Hn'). rewrite Hn, Hn'. reflexivity.
      - intros b. destruct (decide (b ∈ c_nodes c)) as [Hb|Hb]; [|rewrite Hout by assumption; reflexivity].
        destruct (Hin b Hb) as (n & w & Hn & Hn'). rewrite Hn, Hn'. reflexivity.
      - intros b Hb. destruct (Hin b Hb) as (n & w & Hn & Hn'). exists w. eexists. split; [exact Hn'|reflexivity]. }
    rewrite E in *. clear Hc Hout E c. 
    (* run over the fixed prefix *)
    assert (Hgo : forall l done h', l1 = done ++ l -> same_types h h' -> same_parents h h' ->
      (forall b, b ∈ l1 ++ a :: l2 -> exists w, wt_of h' b (Some w)) ->
      (forall b, b ∈ done -> exists v, wv_of h' b (Some v)) ->
      exists s, run t (mapM update_velocity (l ++ a :: l2)) (quiet h' nx) = Deadlock a s).
    { induction l as [|x l IH]; intros done h' E Hty Hsp Hwt Hwv.
      - rewrite app_nil_r in E. subst done. cbn [app]. rewrite run_mapM_cons.
        assert (exists n, h !! a = Some n) as [n Hn] by (apply Hl; set_solver).
        pose proof (Hty a) as Hta. rewrite Hn in Hta. destruct (h' !! a) as [n'|] eqn:Hn'; [|discriminate]. cbn in Hta. injection Hta as Hta.
        assert (Hp : exists ptf pv, run t (parent_world_transform a) (quiet h' nx) = Done (Some ptf) (quiet h' nx) /\
          run t (parent_world_velocity a) (quiet h' nx) = Done (Some pv) (quiet h' nx)).
        { destruct (n_parent_live h' n') as [(p & Hp & Hlp)|Hno].
          - assert (Hlive : live_parent h' a p) by (split; [exists n'; auto|assumption]).
            assert (Hin : p ∈ l1).
            { eapply Hpf; [reflexivity|]. eapply same_parents_lp; [apply same_parents_sym; exact Hsp|]. exact Hlive. }
            destruct (Hwt p ltac:(set_solver)) as [w Hw], (Hwv p Hin) as [v Hv].
            exists w, v. split; [apply run_parent_wt|apply run_parent_wv]; eauto.
          - assert (Hnp : no_parent h' a).
            { split; [eauto|]. intros p [(n0 & Hn0 & Hp) Hlp]. apply Hno. exists p. split; [congruence|assumption]. }
            exists iso1, velocity_zero. split; [apply run_parent_wt|apply run_parent_wv]; eauto. }
        destruct Hp as (ptf & pv & H1 & H2).
        destruct (run_update_velocity t h' nx a n' ptf pv Hn' H1 H2) as [[Hf _]|[_ [s Hs]]].
        + exfalso. apply (Hmov n Hn). congruence.
        + rewrite Hs. cbn [obind]. eauto.
      - cbn [app]. rewrite run_mapM_cons.
        assert (Hxl : x ∈ l1) by (rewrite E; set_solver).
        assert (exists n, h !! x = Some n) as [n Hn] by (apply Hl; set_solver).
        pose proof (Hty x) as Htx. rewrite Hn in Htx. destruct (h' !! x) as [n'|] eqn:Hn'; [|discriminate]. cbn in Htx. injection Htx as Htx.
        assert (Hp : exists ptf pv, run t (parent_world_transform x) (quiet h' nx) = Done (Some ptf) (quiet h' nx) /\
          run t (parent_world_velocity x) (quiet h' nx) = Done (Some pv) (quiet h' nx)).
        { destruct (n_parent_live h' n') as [(p & Hp & Hlp)|Hno].
          - assert (Hlive : live_parent h' x p) by (split; [exists n'; auto|assumption]).
            assert (Hin : p ∈ done).
            { eapply (Hpf done x (l ++ a :: l2)); [rewrite E, <- app_assoc; reflexivity|].
              eapply same_parents_lp; [apply same_parents_sym; exact Hsp|]. exact Hlive. }
            destruct (Hwt p ltac:(set_solver)) as [w Hw], (Hwv p Hin) as [v Hv].
            exists w, v. split; [apply run_parent_wt|apply run_parent_wv]; eauto.
          - assert (Hnp : no_parent h' x).
            { split; [eauto|]. intros p [(n0 & Hn0 & Hp) Hlp]. apply Hno. exists p. split; [congruence|assumption]. }
            exists iso1, velocity_zero. split; [apply run_parent_wt|apply run_parent_wv]; eauto. }
        destruct Hp as (ptf & pv & H1 & H2).
        destruct (run_update_velocity t h' nx x n' ptf pv Hn' H1 H2) as [[_ Hd]|[Hm _]].
        2:{ exfalso. apply Hm. rewrite Htx. apply (Hfix x n); assumption. }
        rewrite Hd. cbn [obind].
        destruct (IH (done ++ [x]) (<[x := put_wv n' pv]> h')) as [s Hs].
        + rewrite <- app_assoc. exact E.
        + eapply same_types_trans; [exact Hty|]. eapply same_types_put; eauto.
        + intros b. destruct (decide (b = x)) as [->|Hne].
          * rewrite lookup_insert. pose proof (Hsp x) as Hx. rewrite Hn' in Hx. rewrite <- Hx. reflexivity.
          * rewrite lookup_insert_ne by done. apply Hsp.
        + intros b Hb. destruct (Hwt b Hb) as (w & m & Hm & Ew). exists w. destruct (decide (b = x)) as [->|Hne].
          * eexists. rewrite lookup_insert. split; [reflexivity|]. cbn. congruence.
          * eexists. rewrite lookup_insert_ne by done. eauto.
        + intros b Hb. destruct (decide (b = x)) as [->|Hne].
          * exists pv. eexists. rewrite lookup_insert. split; reflexivity.
          * destruct (Hwv b) as (v & m & Hm & Ev); [set_solver|]. exists v, m. rewrite lookup_insert_ne by done. auto.
        + rewrite Hs. cbn [obind]. eauto. }
    destruct Hst as (H1 & H2 & H3). destruct (Hgo l1 [] h1) as [s Hs]; auto; [set_solver|].
    exists s. exact Hs.
  Qed.
End Velocity.
