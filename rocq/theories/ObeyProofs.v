(** * Setting the positions of a loaded robot with mimic tags *)
From Coq Require Import String Reals Lra.
From stdpp Require Import gmap strings.
From Verif Require Import Scalar ScalarR Geometry Joint Link Prog NodeM ChainM FuncsM IkM RunLemmas SpecJoint SpecNode SpecGraph GraphProofs SpecGeom RGeom GeomProofs
  SpecChain ChainProofs SpecFK FKProofs SpecIk IkProofs SpecCouple CoupleProofs NodeProofs JointProofs Api UrdfM SpecUrdf UrdfProofs UrdfProofs2 UrdfProofs3 UrdfProofs4 UrdfProofs5 PropGeom PropChain PropFK PropIk PropUrdf
  PropMimicIk SpecPlace PlaceProofs PlaceRun SpecShuffle ShuffleProofs SpecObey.
Open Scope R_scope.

Section Accept.
  Context {T : Type} `{Sc : Scalar T}.
  Implicit Types (h : gmap nat (node T)).
  Definition accepts h (a : nat) (p : T) : Prop := free_node h a -> admissible_at h a p /\ forall c q, drives h a c -> target_of h c p q -> admissible_at h c q.
  Lemma accepts_frozen h h' a p : frozen h h' -> accepts h a p -> accepts h' a p.
  Proof.
    intros F H Hf. apply (frozen_free _ _ _ F) in Hf. destruct (H Hf) as [H1 H2]. split; [eapply frozen_adm; eauto|].
    intros c q Hd Ht. apply (frozen_adm _ _ _ _ F). apply H2; [apply (frozen_drives _ _ _ _ F), Hd|eapply frozen_target; [apply frozen_sym; exact F|exact Ht]].
  Qed.
  Lemma accept_one t h nx a p : mimic_wf h -> is_Some (h !! a) ->
    (exists s, run t (node_set_joint_position a p) (quiet h nx) = Done (Ok tt) s) <-> accepts h a p.
  Proof.
    intros Hwf [n Hn]. destruct (n_mimic_parent n) as [w|] eqn:Hm.
    - rewrite (set_position_mimic_child_lemma t h nx a n w p Hn Hm). split; [|eauto]. intros _ (n0 & Hn0 & E0). congruence.
    - rewrite (set_position_ok_iff_lemma t h nx a n p Hwf Hn Hm). unfold accepts, admissible_at. split.
      + intros [H1 H2] _. split; [eauto|]. intros c q (n0 & Hn0 & Hc) (cn & m & Hcn & Hcm & ->). assert (n0 = n) as -> by congruence.
        exists cn. split; [exact Hcn|]. apply (H2 c); [exact Hc|]. exists cn, m. auto.
      + intros H. destruct H as [(n1 & Hn1 & H1) H2]; [exists n; auto|]. assert (n1 = n) as -> by congruence. split; [exact H1|].
        intros c j q Hc (cn & m & Hcn & Hcm & -> & ->). destruct (H2 c (follow_position m p)) as (cn' & Hcn' & Ha); [exists n; auto|exists cn, m; auto|]. congruence.
  Qed.
  Lemma accept_each t nx l : forall h, mimic_wf h -> all_live h l.*1 ->
    (exists s, run t (forM_try (fun ap => node_set_joint_position (fst ap) (snd ap)) l) (quiet h nx) = Done (Ok tt) s) <-> forall a p, (a, p) ∈ l -> accepts h a p.
  Proof.
    induction l as [|[a p] l IH]; intros h Hwf Hl; cbn [forM_try fst snd].
    - split; [intros _ a p Ha; inversion Ha|intros _; eexists; reflexivity].
    - assert (Hla : is_Some (h !! a)) by (apply Hl; left). split.
      + intros [s E]. apply run_bind_inv in E as (re & s1 & E1 & E). destruct re as [[]|e1]; [|discriminate].
        destruct (set_one t h nx a p s1 Hwf Hla E1) as (h' & -> & F & _).
        assert (Hl' : all_live h' l.*1). { intros b Hb. destruct (Hl b) as [n Hn]; [right; exact Hb|]. destruct (frozen_at _ _ _ _ F Hn) as (n' & Hn' & _). eauto. }
        pose proof (proj1 (IH h' (frozen_mimic_wf _ _ F Hwf) Hl') (ex_intro _ s E)) as K.
        intros b q Hb. apply elem_of_cons in Hb as [Hb|Hb].
        * injection Hb as -> ->. apply (accept_one t h nx a p Hwf Hla). eauto.
        * apply (accepts_frozen h' h); [apply frozen_sym; exact F|auto].
      + intros H. destruct (proj2 (accept_one t h nx a p Hwf Hla) (H a p (elem_of_list_here _ _))) as [s1 E1].
        destruct (set_one t h nx a p s1 Hwf Hla E1) as (h' & -> & F & _).
        assert (Hl' : all_live h' l.*1). { intros b Hb. destruct (Hl b) as [n Hn]; [right; exact Hb|]. destruct (frozen_at _ _ _ _ F Hn) as (n' & Hn' & _). eauto. }
        destruct (proj2 (IH h' (frozen_mimic_wf _ _ F Hwf) Hl')) as [s E].
        { intros b q Hb. apply (accepts_frozen h h'); [exact F|]. apply H. right. exact Hb. }
        exists s. rewrite run_bind, E1. cbn [obind]. exact E.
  Qed.
End Accept.

Section Obey.
  Context (t : nat) (r : robot R) (h : gmap nat (node R)) (nx fuel : nat).
  Context (Hok : heap_ok h nx) (Hwf : mimic_wf h) (Hwn : well_named r) (Hs : forall j, j ∈ r_joints r -> sound_joint j)
    (Hk : mimics_known r) (Hac : acyclic r) (Hf : (S (length (r_joints r)) < fuel)%nat).
  Notation nx' := (S nx + length (r_joints r))%nat.

  Lemma obey_lemma : exists c h1, run t (chain_from_robot cv fuel r) (quiet h nx) = Done c (quiet h1 nx') /\
    (forall ps, (exists s, run t (set_joint_positions c ps) (quiet h1 nx') = Done (Ok tt) s) <-> acceptable r nx (c_movable c) ps) /\
    forall ps s, run t (set_joint_positions c ps) (quiet h1 nx') = Done (Ok tt) s ->
    exists q h2 ws h3, s = quiet h2 nx' /\ obeyed r nx (c_movable c) ps q /\ stands r nx h2 q /\
      run t (update_transforms c) (quiet h2 nx') = Done ws (quiet h3 nx') /\
      forall i, (i < length (r_joints r))%nat -> exists k w, c_nodes c !! k = Some (S nx + i)%nat /\ ws !! k = Some w /\
        wt_of h3 (S nx + i)%nat (Some w) /\ proper w /\ forall x, placed r q i x (move w x).
  Proof.
    destruct (load_and_set t r h nx fuel Hok Hwn Hs Hk Hac Hf) as (c & h1 & R1 & HL & Hch & Hperm & Hset). exists c, h1. split; [exact R1|].
    assert (Hnd : NoDup (c_nodes c)) by (rewrite Hperm; apply NoDup_seq).
    assert (Hndm : NoDup (c_movable c)) by (destruct Hch as (_ & -> & _); apply NoDup_ListNoDup, List.NoDup_filter, NoDup_ListNoDup, Hnd).
    assert (Hin : forall a, a ∈ c_movable c <-> a ∈ c_nodes c /\ node_movable h1 a = true).
    { destruct Hch as (_ & -> & _). intros a. rewrite !elem_of_list_In. apply filter_In. }
    assert (Hnode : forall a, a ∈ c_nodes c -> a = nx \/ exists i j n, a = (S nx + i)%nat /\ r_joints r !! i = Some j /\ h1 !! a = Some n /\ joint_node cv r nx i j n).
    { intros a Ha. rewrite Hperm in Ha. apply elem_of_seq in Ha. destruct (decide (a = nx)) as [->|Hne]; [auto|right].
      destruct (lookup_lt_is_Some_2 (r_joints r) (a - S nx)) as [j Hj]; [lia|]. destruct (ld_joint _ _ _ _ _ HL _ _ Hj) as (n & Hn & Hjn).
      replace (S nx + (a - S nx))%nat with a in Hn by lia. exists (a - S nx)%nat, j, n. split; [lia|]. auto. }
    assert (Hmv : forall i j, r_joints r !! i = Some j -> ((S nx + i)%nat ∈ c_movable c <-> moves j)).
    { intros i j Hj. destruct (ld_joint _ _ _ _ _ HL i j Hj) as (n & Hn & Hjn). rewrite Hin.
      destruct (C45_conversion cv j _ (jn_joint _ _ _ _ _ _ Hjn)) as (_ & _ & _ & _ & Et & _). unfold node_movable. rewrite Hn, Et. unfold moves.
      assert (Ha : (S nx + i)%nat ∈ c_nodes c) by (rewrite Hperm; apply elem_of_seq; apply lookup_lt_Some in Hj; lia).
      destruct (uj_type j); cbn; (split; [intros [_ ?]; first [exact I|discriminate]|first [solve [intros []]|intros _; split; [exact Ha|reflexivity]]]). }
    assert (Hfr : forall i j, r_joints r !! i = Some j -> (free_node h1 (S nx + i)%nat <-> uj_mimic j = None)).
    { intros i j Hj. destruct (ld_joint _ _ _ _ _ HL i j Hj) as (n & Hn & Hjn). split.
      - intros (n' & Hn' & Hp). assert (n' = n) as -> by congruence. destruct (jn_mimic _ _ _ _ _ _ Hjn) as [(k & m & _ & Hp' & _)|(U & _)]; [congruence|exact U].
      - intros U. exists n. split; [exact Hn|]. destruct (jn_mimic _ _ _ _ _ _ Hjn) as [(k & m & (ji & jk & Hi & _ & Em & _) & _)|(_ & Hp & _)]; [congruence|exact Hp]. }
    assert (Hdr : forall i j b, r_joints r !! i = Some j -> (drives h1 (S nx + i)%nat b <-> exists k m, b = (S nx + k)%nat /\ mimics r k i m)).
    { intros i j b Hj. destruct (ld_joint _ _ _ _ _ HL i j Hj) as (n & Hn & Hjn). destruct (jn_mimic_children _ _ _ _ _ _ Hjn) as [_ Hc]. split.
      - intros (n' & Hn' & Hb). assert (n' = n) as -> by congruence. apply Hc in Hb as (k & -> & m & Hm). eauto.
      - intros (k & m & -> & Hm). exists n. split; [exact Hn|]. apply Hc. eauto. }
    assert (Hone : one_driver h1 (c_movable c)).
    { intros a b d Ha Hb Fa Fb Da Db.
      assert (X : forall a, a ∈ c_movable c -> drives h1 a d -> exists i k m, a = (S nx + i)%nat /\ d = (S nx + k)%nat /\ mimics r k i m).
      { clear - Hin Hnode Hdr HL. intros a Ha Da. apply Hin in Ha as [Ha _]. destruct (Hnode a Ha) as [-> |(i & j & n & -> & Hj & _)].
        - destruct (ld_root _ _ _ _ _ HL) as (n & Hn & Hr). destruct Da as (n' & Hn' & Hd). assert (n' = n) as -> by congruence.
          destruct (rn_mimic _ _ _ _ Hr) as (_ & _ & E). rewrite E in Hd. inversion Hd.
        - apply (Hdr i j d Hj) in Da as (k & m & -> & Hm). eauto 7. }
      destruct (X a Ha Da) as (i & k & m & -> & -> & M1). destruct (X b Hb Db) as (i2 & k2 & m2 & -> & E2 & M2). assert (k2 = k) as -> by lia.
      destruct (mimic_fun r _ _ _ _ _ Hwn M1 M2) as [-> _]. reflexivity. }
    pose proof (l_mimic_wf _ _ _ _ _ HL Hwf (hk_bound _ _ Hok)) as Hwf1.
    assert (Hdof : c_dof c = length (c_movable c)) by (destruct Hch as (_ & -> & ->); reflexivity).
    assert (Hreach : forall i j p, r_joints r !! i = Some j -> (admissible_at h1 (S nx + i)%nat p <-> reaches j p)).
    { intros i j p Hj. destruct (ld_joint _ _ _ _ _ HL i j Hj) as (n & Hn & Hjn). destruct (Hs j) as [Hle _]; [eapply elem_of_list_lookup_2; eauto|].
      destruct (C45_limits_real j) as [HC _]. destruct (HC Hle) as (jt & Ejt & HC1 & HC2). rewrite (jn_joint _ _ _ _ _ _ Hjn) in Ejt. injection Ejt as <-.
      destruct (C45_conversion cv j _ (jn_joint _ _ _ _ _ _ Hjn)) as (_ & _ & _ & _ & Et & _).
      assert (Em : movable (n_joint n) <-> moves j). { unfold movable, moves. rewrite Et. destruct (uj_type j); cbn; split; try congruence; try tauto; intros _; discriminate. }
      assert (Ew : within_limits (n_joint n) p <-> (uj_lower j < uj_upper j -> uj_lower j <= p <= uj_upper j)).
      { unfold within_limits. destruct (Rle_lt_or_eq_dec _ _ Hle) as [Hlt|Heq].
        - rewrite HC2 by exact Hlt. split.
          + intros H _. destruct (H _ eq_refl) as [H1 H2]. split; apply Rleb_spec; assumption.
          + intros H rg Er. injection Er as <-. destruct (H Hlt) as [H1 H2]. split; apply Rleb_spec; assumption.
        - rewrite HC1 by exact Heq. split; [intros _ Hlt; lra|discriminate]. }
      unfold admissible_at, reaches, admissible. rewrite <- Em, <- Ew. split; [intros (n' & Hn' & H); assert (n' = n) as -> by congruence; exact H|eauto]. }
    split.
    { intros ps. unfold set_joint_positions. destruct (decide (length ps = c_dof c)) as [Hl|Hl].
      2: { split; [intros [s E]; discriminate|intros [E _]; congruence]. }
      assert (Hz : (zip (c_movable c) ps).*1 = c_movable c) by (rewrite fst_zip; [reflexivity|lia]).
      rewrite accept_each; [|exact Hwf1|].
      2: { rewrite Hz. intros a Ha. apply Hin in Ha as [_ Ha]. unfold node_movable in Ha. destruct (h1 !! a); [eauto|discriminate]. }
      split.
      - intros H. split; [congruence|]. intros i j k p Hj Hu Hm Hp. destruct (H (S nx + i)%nat p) as [H1 H2].
        { apply elem_of_list_lookup. exists k. rewrite lookup_zip_with, Hm. cbn. rewrite Hp. reflexivity. }
        { apply (Hfr i j Hj), Hu. }
        split; [apply (Hreach i j p Hj), H1|]. intros b jb m Hmm Hjb. apply (Hreach b jb _ Hjb). apply H2; [apply (Hdr i j _ Hj); eauto|].
        destruct (ld_joint _ _ _ _ _ HL b jb Hjb) as (n & Hn & Hjn). exists n, (mimic_from cv m). split; [exact Hn|]. split; [|reflexivity].
        destruct (jn_mimic _ _ _ _ _ _ Hjn) as [(k2 & m2 & M2 & _ & Em2)|(U & _)].
        + destruct (mimic_fun r _ _ _ _ _ Hwn Hmm M2) as [_ <-]. exact Em2.
        + destruct Hmm as (a1 & a2 & A1 & _ & A3 & _). congruence.
      - intros [_ H] a p Ha. apply elem_of_list_lookup in Ha as [k Hka]. rewrite lookup_zip_with in Hka.
        destruct (c_movable c !! k) as [a'|] eqn:Em; [|discriminate]. cbn in Hka. destruct (ps !! k) as [p'|] eqn:Ep; [|discriminate]. injection Hka as -> ->.
        intros Hfa. pose proof (elem_of_list_lookup_2 _ _ _ Em) as Ha. apply Hin in Ha as [Ha Hmva]. destruct (Hnode a Ha) as [-> |(i & j & n & -> & Hj & Hn & Hjn)].
        { unfold node_movable in Hmva. destruct (ld_root _ _ _ _ _ HL) as (n & Hn & Hr). rewrite Hn, (rn_joint _ _ _ _ Hr) in Hmva. discriminate. }
        destruct (H i j k p Hj (proj1 (Hfr i j Hj) Hfa) Em Ep) as [H1 H2]. split; [apply (Hreach i j p Hj), H1|].
        intros b q Hd (bn & mm & Hbn & Hbm & ->). apply (Hdr i j b Hj) in Hd as (kb & m & -> & Hmm). pose proof Hmm as (jb & ji & Hjb & _ & Et & _).
        destruct (ld_joint _ _ _ _ _ HL kb jb Hjb) as (n2 & Hn2 & Hjn2). assert (n2 = bn) as -> by congruence.
        assert (mm = mimic_from cv m) as ->.
        { destruct (jn_mimic _ _ _ _ _ _ Hjn2) as [(k2 & m2 & M2 & _ & Em2)|(U & _)]; [|congruence]. destruct (mimic_fun r _ _ _ _ _ Hwn Hmm M2) as [_ <-]. congruence. }
        apply (Hreach kb jb _ Hjb). exact (H2 kb jb m Hmm Hjb). }
    intros ps s E.
    assert (Hlen : length ps = length (c_movable c)).
    { pose proof E as E'. unfold set_joint_positions in E'. destruct (decide _) as [Hl|]; [|discriminate]. destruct Hch as (_ & Em & Ed). rewrite Hl, Ed, <- Em. reflexivity. }
    destruct (C84_set_positions t h1 nx' c ps s Hch Hwf1 Hndm Hone E) as (h2 & -> & HB & Htold & Hrest).
    pose proof (heaps_same_parents _ _ HB) as HP.
    set (q := fun i => default 0 (position_at h2 (S nx + i)%nat)).
    assert (Hst : stands r nx h2 q).
    { intros k' Hk'. destruct (lookup_lt_is_Some_2 _ _ Hk') as [j Hj]. destruct (ld_joint _ _ _ _ _ HL k' j Hj) as (n & Hn & _).
      pose proof (HB (S nx + k')%nat) as HBk. rewrite Hn in HBk. destruct (h2 !! (S nx + k')%nat) as [n'|] eqn:En; [|contradiction].
      exists n'. split; [reflexivity|]. unfold q, position_at. rewrite En. reflexivity. }
    assert (Hob : obeyed r nx (c_movable c) ps q).
    { split.
      - intros i j k p Hj Hu Hm Hp. destruct (Htold k _ p Hm Hp (proj2 (Hfr i j Hj) Hu)) as [E1 _]. unfold q. rewrite E1. reflexivity.
      - intros i j Hj Hmo. apply (Hmv i j Hj) in Hmo. apply elem_of_list_lookup in Hmo as [k Hm]. destruct (lookup_lt_is_Some_2 ps k) as [p Hp]; [|eauto].
        rewrite Hlen. eapply lookup_lt_Some; eauto.
      - intros i k jk m Hm Hj Hu Hmo. apply (Hmv k jk Hj) in Hmo. apply elem_of_list_lookup in Hmo as [x Hx].
        destruct (lookup_lt_is_Some_2 ps x) as [p Hp]; [rewrite Hlen; eapply lookup_lt_Some; eauto|].
        destruct (Htold x _ p Hx Hp (proj2 (Hfr k jk Hj) Hu)) as [E1 E2]. destruct (E2 (S nx + i)%nat) as (bn & m' & Hbn & Em & E3); [apply (Hdr k jk _ Hj); eauto|].
        unfold q. rewrite E1, E3. cbn.
        assert (m' = mimic_from cv m) as ->; [|reflexivity].
        pose proof Hm as (ji & jk' & Hi & _ & Et & _). destruct (ld_joint _ _ _ _ _ HL i ji Hi) as (n & Hn & Hjn). assert (n = bn) as -> by congruence.
        destruct (jn_mimic _ _ _ _ _ _ Hjn) as [(k2 & m2 & M2 & _ & Em2)|(U & _)]; [|congruence]. destruct (mimic_fun r _ _ _ _ _ Hwn Hm M2) as [_ <-]. congruence.
      - intros i j Hj Hn1 Hn2. destruct (ld_joint _ _ _ _ _ HL i j Hj) as (n & Hn & Hjn). unfold q, position_at. rewrite Hrest, Hn.
        + destruct (C45_conversion cv j _ (jn_joint _ _ _ _ _ _ Hjn)) as (_ & E0 & _). exact E0.
        + intros (a & Ha & Hfa & [E1|Hd]).
          * subst a. apply Hn1; [apply (Hfr i j Hj), Hfa|apply (Hmv i j Hj), Ha].
          * pose proof (proj1 (proj1 (Hin a) Ha)) as Hac'. destruct (Hnode a Hac') as [-> |(k & jk & nk & -> & Hjk & _)].
            -- destruct (ld_root _ _ _ _ _ HL) as (n' & Hn' & Hr). destruct Hd as (n2 & Hn2' & Hd). assert (n2 = n') as -> by congruence.
               destruct (rn_mimic _ _ _ _ Hr) as (_ & _ & E1). rewrite E1 in Hd. inversion Hd.
            -- apply (Hdr k jk _ Hjk) in Hd as (i2 & m & E1 & Hm). assert (i2 = i) as -> by lia.
               apply (Hn2 k jk m Hm Hjk); [apply (Hmv k jk Hjk), Ha|apply (Hfr k jk Hjk), Hfa]. }
    destruct (Hset []) as (he & _ & HBe & Hle & Hpe & _). pose proof (heaps_same_parents _ _ HBe) as HPe.
    assert (Hlive : all_live h2 (c_nodes c)).
    { intros a Ha. eapply same_parents_live; [exact HP|]. eapply same_parents_live; [apply same_parents_sym; exact HPe|]. apply Hle, Ha. }
    assert (Hpf : parents_first h2 (c_nodes c)).
    { intros l1 a l2 p El Hlp. apply (Hpe l1 a l2 p El). apply (same_parents_lp _ _ _ _ HPe). apply (same_parents_lp _ _ _ _ (same_parents_sym _ _ HP)). exact Hlp. }
    destruct (C18_update_transforms t h2 nx' c Hlive Hpf) as (ws & h3 & R3 & Hw & Hc & _). exists q, h2, ws, h3.
    split; [reflexivity|]. split; [exact Hob|]. split; [exact Hst|]. split; [exact R3|].
    intros i Hi. assert (Ha : (S nx + i)%nat ∈ c_nodes c) by (rewrite Hperm; apply elem_of_seq; lia).
    apply elem_of_list_lookup in Ha as [k Hka]. destruct (Forall2_lookup_l _ _ _ _ _ Hw Hka) as (w & Hwk & Hworld).
    destruct (Forall2_lookup_lr _ _ _ _ _ _ Hc Hka Hwk) as (n & n' & _ & Hn' & Hwt).
    exists k, w. split; [exact Hka|]. split; [exact Hwk|]. split; [exists n'; split; [exact Hn'|symmetry; apply Hwt]|].
    exact (pl_world r nx h h1 h2 q HL HB Hs Hst i w Hworld).
  Qed.
End Obey.
