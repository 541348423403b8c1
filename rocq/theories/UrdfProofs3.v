(** * Loading URDF robots: the whole call *)
From Coq Require Import String Sorted.
From stdpp Require Import gmap strings.
From Verif Require Import Scalar Geometry Joint Link Prog NodeM ChainM RunLemmas SpecJoint SpecNode JointProofs NodeProofs
  SpecGraph GraphProofs SpecChain ChainProofs SpecHist Api UrdfM SpecUrdf UrdfProofs UrdfProofs2.

Section UrdfProofs3.
  Context {S T : Type} `{SS : Scalar S} `{ST : Scalar T} (conv : S -> T).
  Implicit Types (h : gmap nat (node T)) (r : robot S).
  Notation Sn := Datatypes.S.

  Lemma node_ext (n n' : node T) : n_joint n' = n_joint n -> n_parent n' = n_parent n -> n_children n' = n_children n ->
    n_mimic_parent n' = n_mimic_parent n -> n_mimic_children n' = n_mimic_children n -> n_mimic n' = n_mimic n -> n_link n' = n_link n -> n' = n.
  Proof. destruct n, n'; cbn; intros; subst; reflexivity. Qed.

  Lemma load_lemma t r h nx : well_named r -> joints_convert conv (r_joints r) -> (forall b, nx <= b -> h !! b = None) ->
    (mimics_known r -> exists h', loaded conv r nx h h' /\
       forall fuel, run t (chain_from_robot conv fuel r) (quiet h nx) = run t (from_root fuel nx) (quiet h' (Sn nx + length (r_joints r)))) /\
    (~ mimics_known r -> forall fuel, exists msg s, run t (chain_from_robot conv fuel r) (quiet h nx) = Panicked msg s).
  Proof.
    intros Hwn Hcv Hb. set (js := r_joints r). set (n := length js).
    set (h0 := <[nx := fresh_node root_joint]> h).
    destruct (run_build_nodes conv t js Hcv h0 (Sn nx) (Maps [] ∅ ∅ ∅)) as (h1 & R1 & O1 & N1 & C1).
    { intros b Hlt. unfold h0. rewrite lookup_insert_ne by lia. apply Hb. lia. }
    set (m := maps_of (Sn nx) js (Maps [] ∅ ∅ ∅)) in *. fold n in R1, N1.
    assert (Hroot1 : h1 !! nx = Some (fresh_node root_joint)) by (rewrite O1 by lia; apply lookup_insert).
    assert (Hold1 : forall b, b < nx -> h1 !! b = h !! b) by (intros b Hlt; rewrite O1 by lia; apply lookup_insert_ne; lia).
    assert (Hl1 : forall i, i < n -> is_Some (h1 !! (Sn nx + i))).
    { intros i Hi. destruct (lookup_lt_is_Some_2 js i Hi) as [j Hj]. destruct (C1 i j Hj) as (jt & _ & E). eauto. }
    assert (Hrefs : ref_nodes m = seq (Sn nx) n) by apply (m_ref r nx).
    assert (Hm1 : maps_live m nx h1).
    { split; [eauto|]. split; [|split; [|split]].
      - intros s c Hc. apply (m_plist_elem r nx) in Hc as (i & j & Hj & -> & _). apply Hl1. apply lookup_lt_Some in Hj. exact Hj.
      - intros s a Ha. apply (m_child_some r nx) in Ha as (i & j & Hj & -> & _). apply Hl1. apply lookup_lt_Some in Hj. exact Hj.
      - intros s a Ha. apply (m_name_some r nx) in Ha as (i & j & Hj & -> & _). apply Hl1. apply lookup_lt_Some in Hj. exact Hj.
      - intros a Ha. rewrite Hrefs in Ha. apply elem_of_seq in Ha. replace a with (Sn nx + (a - Sn nx)) by lia. apply Hl1. lia. }
    destruct (attach_links conv t m nx (Sn nx + n) (r_links r) h1 Hm1) as (h2 & R2 & N2 & C2).
    assert (Hm2 : maps_live m nx h2).
    { eapply maps_live_mono; [|exact Hm1]. intros a [x Hx]. destruct (C2 a x Hx) as (y & Hy & _). eauto. }
    assert (Hnames : forall j, j ∈ js -> is_Some (joint_name_to_node m !! uj_name j)).
    { intros j Hj. apply elem_of_list_lookup in Hj as [i Hi]. exists (Sn nx + i). exact (proj2 (m_name r nx Hwn (uj_name j) i j Hi) eq_refl). }
    assert (Hrun : forall fuel, run t (chain_from_robot conv fuel r) (quiet h nx) =
      obind (run t (forM_ (add_mimic conv m) js) (quiet h2 (Sn nx + n))) (fun _ s => run t (forM_ (adopt nx) (ref_nodes m) ;;; from_root fuel nx) s)).
    { intros fuel. unfold chain_from_robot. fold js. unfold node_new. rewrite run_bind. unfold quiet. rewrite run_new. cbn [obind]. fold h0.
      fold (quiet h0 (Sn nx)). rewrite run_bind, R1. cbn [obind]. rewrite run_bind, R2. cbn [obind]. rewrite run_bind. reflexivity. }
    assert (Hother : forall b, b < nx -> forall i, i < length js -> b <> Sn nx + i) by (intros; lia).
    assert (Hrother : forall i, i < length js -> nx <> Sn nx + i) by (intros; lia).
    destruct (add_mimics conv t m nx (Sn nx + n) js h2 Hm2 Hnames) as [[Hk (h3 & R3 & N3 & C3)]|[Hk (msg & s & E)]].
    2:{ split.
        - intros HK. exfalso. apply Hk. apply (known_tags r nx Hwn). exact HK.
        - intros _ fuel. exists msg, s. rewrite Hrun, E. reflexivity. }
    split.
    2:{ intros HK. exfalso. apply HK. apply (known_tags r nx Hwn). exact Hk. }
    intros _. assert (Hm3 : maps_live m nx h3).
    { eapply maps_live_mono; [|exact Hm2]. intros a [x Hx]. destruct (C3 a x Hx) as (y & Hy & _). eauto. }
    destruct (run_adopts t nx (Sn nx + n) (ref_nodes m) h3) as (h4 & R4 & N4 & C4).
    { rewrite Hrefs. apply NoDup_seq. } { rewrite Hrefs, elem_of_seq. lia. } { exact (proj1 Hm3). } { exact (proj2 (proj2 (proj2 (proj2 Hm3)))). }
    exists h4. split; [|intros fuel; rewrite Hrun, R3; cbn [obind]; rewrite run_bind, R4; reflexivity].
    (* parents after the links *)
    assert (Hup : forall i, i < n -> exists x, h3 !! (Sn nx + i) = Some x /\
        ((exists k, parent_joint r i k /\ n_parent x = Some (Sn nx + k) /\ has_up h3 (Sn nx + i) = true) \/
         (forall k, ~ parent_joint r i k) /\ n_parent x = None /\ has_up h3 (Sn nx + i) = false)).
    { intros i Hi. destruct (lookup_lt_is_Some_2 js i Hi) as [j Hj]. destruct (C1 i j Hj) as (jt & _ & E1).
      destruct (C2 _ _ E1) as (x2 & E2 & _ & _ & _ & P2 & _). destruct (C3 _ _ E2) as (x3 & E3 & (_ & P3 & _) & _).
      exists x3. split; [exact E3|]. cbn [n_parent fresh_node] in P2. unfold has_up. rewrite E3, P3, P2.
      destruct (up_joint r nx Hwn i Hi) as [(k & Hpk & Ef)|[Hno Ef]].
      - left. exists k. fold js in Ef. fold m in Ef. rewrite Ef. split; [exact Hpk|]. split; [reflexivity|]. unfold live.
        destruct Hpk as (ji & jk & _ & Hjk & _). destruct (C1 k jk Hjk) as (jt' & _ & F1). destruct (C2 _ _ F1) as (y2 & F2 & _). destruct (C3 _ _ F2) as (y3 & F3 & _).
        rewrite F3. reflexivity.
      - right. fold js in Ef. fold m in Ef. rewrite Ef. auto. }
    constructor.
    - intros b Hlt. destruct (h !! b) as [x|] eqn:Eb.
      + rewrite <- Hold1 in Eb by exact Hlt.
        destruct (C2 _ _ Eb) as (x2 & E2 & J2 & (Q1 & Q2 & Q3) & L2 & P2 & K2). destruct (C3 _ _ E2) as (x3 & E3 & (J3 & P3 & K3 & L3) & Q4 & Q5 & Q6).
        destruct (C4 _ _ E3) as (x4 & E4 & J4 & (Q7 & Q8 & Q9) & L4 & P4 & K4).
        destruct (mimic_other conv r nx b (Hother b Hlt)) as (U1 & U2 & U3).
        pose proof (contrib_other r nx b (Hother b Hlt)) as U4. pose proof (up_other r nx b (n_parent x) (Hother b Hlt)) as U5.
        pose proof (link_other conv r nx b (n_link x) Hlt) as U6. fold js in U1, U2, U3, U4, U5, U6. fold m in U1, U2, U3, U4, U5, U6.
        rewrite E4. f_equal. rewrite U4, app_nil_r in K2. rewrite U5 in P2. rewrite U6 in L2. rewrite U1 in Q4. rewrite U2 in Q5. rewrite U3, app_nil_r in Q6.
        rewrite Hrefs in P4. destruct (decide (b ∈ seq (Sn nx) n)) as [Hin|_]; [apply elem_of_seq in Hin; lia|].
        destruct (decide (b = nx)); [lia|]. rewrite app_nil_r in K4.
        apply node_ext; congruence.
      + rewrite <- Hold1 in Eb by exact Hlt. auto.
    - intros b Hge. apply N4, N3, N2, N1. exact Hge.
    - destruct (C2 _ _ Hroot1) as (x2 & E2 & J2 & (Q1 & Q2 & Q3) & L2 & P2 & K2). destruct (C3 _ _ E2) as (x3 & E3 & (J3 & P3 & K3 & L3) & Q4 & Q5 & Q6).
      destruct (C4 _ _ E3) as (x4 & E4 & J4 & (Q7 & Q8 & Q9) & L4 & P4 & K4). exists x4. split; [exact E4|].
      destruct (mimic_other conv r nx nx Hrother) as (U1 & U2 & U3).
      pose proof (contrib_other r nx nx Hrother) as U4. pose proof (up_other r nx nx None Hrother) as U5. fold js in U1, U2, U3, U4, U5. fold m in U1, U2, U3, U4, U5.
      cbn [fresh_node n_joint n_parent n_children n_link n_mimic_parent n_mimic_children n_mimic] in *.
      constructor.
      + congruence.
      + rewrite Hrefs in P4. destruct (decide (nx ∈ seq (Sn nx) n)) as [Hin|_]; [apply elem_of_seq in Hin; lia|]. congruence.
      + destruct (decide (nx = nx)); [|contradiction]. rewrite K4, K3, K2, U4. cbn. rewrite Hrefs.
        assert (StronglySorted lt (List.filter (fun b => negb (has_up h3 b)) (seq (Sn nx) n))) as Hs.
        { generalize (Sn nx) at 1, n. intros k q. revert k. induction q as [|q IH]; intros k; cbn; [constructor|]. destruct (negb (has_up h3 k)); [|apply IH].
          constructor; [apply IH|]. rewrite Forall_forall. intros y Hy. apply elem_of_list_In, filter_In in Hy as [Hy _]. apply in_seq in Hy. lia. }
        split; [exact Hs|]. intros a. rewrite elem_of_list_In, filter_In, in_seq. split.
        * intros [Hr Hu]. exists (a - Sn nx). split; [lia|]. fold js n. split; [lia|]. destruct (Hup (a - Sn nx) ltac:(lia)) as (x & Hx & [(k & _ & _ & Hh)|[Hno _]]); [|exact Hno].
          replace (Sn nx + (a - Sn nx)) with a in Hh by lia. rewrite Hh in Hu. discriminate.
        * intros (i & -> & Hi & Hno). fold js n in Hi. split; [lia|]. destruct (Hup i Hi) as (x & Hx & [(k & Hpk & _)|(_ & _ & Hh)]); [exfalso; eapply Hno; eauto|]. rewrite Hh. reflexivity.
      + rewrite U1 in Q4. rewrite U2 in Q5. rewrite U3 in Q6. cbn in Q6. rewrite app_nil_r in Q6. repeat split; congruence.
      + pose proof (link_root conv r nx) as HL. fold js in HL. fold m in HL. rewrite L4, L3, L2. exact HL.
    - intros i j Hj. assert (Hi : i < n) by (apply lookup_lt_Some in Hj; exact Hj). destruct (C1 i j Hj) as (jt & Ejt & E1).
      destruct (C2 _ _ E1) as (x2 & E2 & J2 & (Q1 & Q2 & Q3) & L2 & P2 & K2). destruct (C3 _ _ E2) as (x3 & E3 & (J3 & P3 & K3 & L3) & Q4 & Q5 & Q6).
      destruct (C4 _ _ E3) as (x4 & E4 & J4 & (Q7 & Q8 & Q9) & L4 & P4 & K4). exists x4. split; [exact E4|].
      cbn [fresh_node n_joint n_parent n_children n_link n_mimic_parent n_mimic_children n_mimic] in *.
      assert (Ein : Sn nx + i ∈ seq (Sn nx) n) by (apply elem_of_seq; lia).
      constructor.
      + congruence.
      + rewrite Hrefs in P4. destruct (decide (Sn nx + i ∈ seq (Sn nx) n)) as [_|?]; [|contradiction]. destruct (Hup i Hi) as (x & Hx & HU). assert (x = x3) as -> by congruence.
        destruct HU as [(k & Hpk & Hp & Hh)|(Hno & Hp & Hh)]; rewrite Hh in P4; [left; exists k|right]; (split; [assumption|congruence]).
      + destruct (decide (Sn nx + i = nx)); [lia|]. rewrite K4, K3, K2, app_nil_r. cbn [app].
        pose proof (contrib_joint r nx Hwn i j Hj) as HC. fold js in HC. fold m in HC. rewrite HC.
        destruct (decide (uj_child j ∈ map ul_name (r_links r))) as [Hd|Hd].
        * pose proof (m_plist r nx (uj_child j)) as HP. fold js in HP. fold m in HP. rewrite HP. apply idxs_in_order. intros k. split.
          -- intros (jk & ji & Hjk & Hji & Hc & _). exists jk. split; [exact Hjk|]. apply bool_decide_eq_true. assert (ji = j) as -> by (apply Some_inj; rewrite <- Hji; exact Hj). congruence.
          -- intros (jk & Hjk & Hc). apply bool_decide_eq_true in Hc. exists jk, j. repeat split; auto. rewrite Hc. apply declared_names. exact Hd.
        * split; [constructor|]. intros a. split; [intros H; inversion H|]. intros (k & _ & (jk & ji & Hjk & Hji & Hc & Hdec)). exfalso. apply Hd.
          assert (ji = j) as -> by (apply Some_inj; rewrite <- Hji; exact Hj). rewrite Hc. apply declared_names. exact Hdec.
      + pose proof (mp_joint conv r nx Hwn i j Hj Hk) as HM. fold js in HM. fold m in HM. rewrite Q7, Q4, Q1, Q9, Q5, Q3. exact HM.
      + rewrite Q8, Q6, Q2. cbn [app]. pose proof (mc_joint conv r nx Hwn i j Hj) as HM. fold js in HM. fold m in HM. rewrite HM. apply idxs_in_order. intros k. split.
        * intros (mi & (jk & ji & Hjk & Hji & Hmi & Hn)). exists jk. split; [exact Hjk|]. apply bool_decide_eq_true. assert (ji = j) as -> by (apply Some_inj; rewrite <- Hji; exact Hj).
          unfold mimic_name. rewrite Hmi. cbn. congruence.
        * intros (jk & Hjk & Hc). apply bool_decide_eq_true in Hc. unfold mimic_name in Hc. destruct (uj_mimic jk) as [mi|] eqn:Emi; [|discriminate]. cbn in Hc. injection Hc as Hc.
          exists mi, jk, j. auto.
      + pose proof (link_joint conv r nx Hwn i j Hj) as HL. fold js in HL. fold m in HL. rewrite L4, L3, L2. exact HL.
  Qed.
End UrdfProofs3.
