(** * Where a loaded robot draws and weighs its links *)
From Coq Require Import String Reals Lra Sorting.Permutation.
From stdpp Require Import gmap strings.
From Verif Require Import Scalar ScalarR Geometry Joint Link Prog NodeM ChainM FuncsM IkM RunLemmas SpecJoint SpecNode SpecGraph GraphProofs SpecGeom RGeom GeomProofs
  SpecChain ChainProofs SpecFK FKProofs SpecIk Api SpecCom PropCom UrdfM SpecUrdf PropGeom PropFK PropUrdf SpecPlace PlaceProofs PlaceRun.
Open Scope R_scope.

Lemma pose_move (p : upose R) x : move (isometry_from cv p) x = pose_step p x.
Proof. destruct p as [xyz [a b c]]. apply C49_isometry. Qed.
Lemma pose_proper (p : upose R) : proper (isometry_from cv p).
Proof. destruct p as [xyz [a b c]]. apply (C49_rpy a b c (V3 0 0 0)). Qed.
Lemma move_inj w x y : proper w -> move w x = move w y -> x = y.
Proof.
  intros Hw E. rewrite <- (turn_conj (rt w) x Hw), <- (turn_conj (rt w) y Hw). f_equal.
  unfold move in E. destruct (turn (rt w) x), (turn (rt w) y), (tr w). unfold plus in E. cbn in E. injection E. intros. f_equal; lra.
Qed.

Section Links.
  Context (r : robot R) (nx : nat) (h0 h1 h2 : gmap nat (node R)) (q : nat -> R).
  Context (HL : loaded cv r nx h0 h1) (HB : heaps same_but_position h1 h2) (Hs : forall j, j ∈ r_joints r -> sound_joint j)
    (Hq : stands r nx h2 q) (Hwn : well_named r).

  Lemma pl_root_world w : world h2 nx w -> proper w /\ forall x, move w x = x.
  Proof. intros (l & ts & Hp & Hts & ->). exact (proj1 (pl_path r nx h0 h1 h2 q HL HB Hs Hq _ _ Hp ts Hts) eq_refl). Qed.

  (** what the frame above a joint is *)
  Lemma parent_frame_under i pw : is_Some (h2 !! (S nx + i)%nat) -> parent_frame h2 (S nx + i)%nat pw ->
    exists j, r_joints r !! i = Some j /\ proper pw /\ (forall x, under r q i x (move pw x)) /\ (forall x, placed r q i x (move pw (joint_step j (q i) x))).
  Proof.
    intros Hi Hpf. destruct (pl_joint r nx h0 h1 h2 q HL HB Hs Hq i Hi) as (j & n & Hj & Hn & Hcase & _ & _). exists j. split; [exact Hj|].
    destruct (pl_root r nx h0 h1 h2 HL HB) as (nr & Hnr & _).
    assert (Hlive : forall p, n_parent n = Some p -> is_Some (h2 !! p) -> exists pw', world h2 p pw' /\ pw = pw').
    { intros p Hp Hl. destruct Hpf as [[[_ Hno] _]|(p' & [(n' & Hn' & Hp') _] & Hw)].
      - destruct (Hno p). split; [exists n; auto|exact Hl].
      - assert (p' = p) as -> by congruence. eauto. }
    destruct Hcase as [(k & Hk & Hp)|[Hno Hp]].
    - destruct (Hlive _ Hp) as (pw' & Hw & ->).
      { destruct Hk as (ji & jk & _ & Hjk & _). destruct (ld_joint _ _ _ _ _ HL k jk Hjk) as (m & Hm & _). destruct (pl_node h1 h2 HB _ _ Hm) as (m' & Hm' & _). eauto. }
      destruct (pl_world r nx h0 h1 h2 q HL HB Hs Hq k pw' Hw) as [HP HX]. split; [exact HP|]. split.
      + intros x. right. exists k. auto.
      + intros x. eapply placed_step; eauto.
    - destruct (Hlive _ Hp) as (pw' & Hw & ->); [eauto|]. destruct (pl_root_world _ Hw) as [HP HX]. split; [exact HP|]. split.
      + intros x. left. rewrite HX. auto.
      + intros x. rewrite HX. apply placed_base; assumption.
  Qed.
  Lemma drawn_lemma i pw p : is_Some (h2 !! (S nx + i)%nat) -> parent_frame h2 (S nx + i)%nat pw ->
    forall j, r_joints r !! i = Some j -> drawn r q i j p (iso_mul pw (isometry_from cv p)).
  Proof.
    intros Hi Hpf j Hj. destruct (parent_frame_under i pw Hi Hpf) as (j' & Hj' & HP & HU & HX). assert (j' = j) as -> by congruence.
    split; [apply proper_mul; [exact HP|apply pose_proper]|]. intros x. rewrite iso_mul_move, pose_move by (exact HP || apply pose_proper).
    split; [apply HU|]. split.
    - intros H. pose proof (placed_fun r q i _ _ _ Hwn (HX _) H) as E. apply (move_inj pw _ _ HP). symmetry. exact E.
    - intros E. rewrite <- E at 2. apply HX.
  Qed.

  (** ** the masses *)
  Context (Hc : complete r).
  (** the link that a node carries *)
  Definition link_of (a : nat) (l : ulink R) : Prop :=
    l ∈ r_links r /\ ((a = nx /\ free_link r l) \/ exists i j, a = (S nx + i)%nat /\ r_joints r !! i = Some j /\ uj_child j = ul_name l).
  Lemma node_link a n : h2 !! a = Some n -> (nx <= a)%nat -> exists l, link_of a l /\ n_link n = Some (link_from cv l).
  Proof.
    intros Hn Ha. pose proof (HB a) as HBa. rewrite Hn in HBa. destruct (h1 !! a) as [n1|] eqn:E1; [|contradiction].
    destruct HBa as (_ & _ & _ & _ & _ & _ & _ & _ & _ & _ & El). destruct (decide (a = nx)) as [->|Hne].
    - destruct (ld_root _ _ _ _ _ HL) as (n' & Hn' & Hr). assert (n' = n1) as -> by congruence.
      destruct (rn_link _ _ _ _ Hr) as [(l1 & l & l2 & E & Hf & _ & Hl)|[Hno _]].
      + exists l. split; [|congruence]. split; [rewrite E; set_solver|]. left. auto.
      + exfalso. destruct Hc as [_ (l & Hl & Hf & _)]. exact (Hno l Hl Hf).
    - destruct (decide (a < S nx + length (r_joints r))%nat) as [Hlt|Hge].
      2:{ rewrite (ld_new _ _ _ _ _ HL) in E1 by lia. discriminate. }
      destruct (lookup_lt_is_Some_2 (r_joints r) (a - S nx)) as [j Hj]; [lia|]. destruct (ld_joint _ _ _ _ _ HL _ _ Hj) as (n' & Hn' & Hjn).
      replace (S nx + (a - S nx))%nat with a in Hn' by lia. assert (n' = n1) as -> by congruence.
      destruct (jn_link _ _ _ _ _ _ Hjn) as [(l & Hl & Hnm & E)|[Hno _]].
      + exists l. split; [|congruence]. split; [exact Hl|]. right. exists (a - S nx)%nat, j. split; [lia|]. auto.
      + exfalso. apply Hno. apply Hc. eapply elem_of_list_lookup_2; eauto.
  Qed.
  Lemma centers_weights l cs : link_centers h2 l cs -> (forall a, a ∈ l -> (nx <= a)%nat) ->
    exists ls, Forall2 link_of l ls /\ Forall2 (weighed r q) ls cs.
  Proof.
    induction 1 as [|a l cs n Hn Hnl _ IH|a l cs n lk w Hn Hlk Hw _ IH]; intros Hge.
    - exists []. split; constructor.
    - exfalso. destruct (node_link a n Hn) as (l0 & _ & E); [apply Hge; left|congruence].
    - destruct IH as (ls & F1 & F2); [intros; apply Hge; right; assumption|].
      destruct (node_link a n Hn) as (l0 & Hl0 & E); [apply Hge; left|]. exists (l0 :: ls). split; constructor; auto.
      assert (lk = link_from cv l0) as -> by congruence. split; [reflexivity|].
      assert (tr (in_origin (l_inertial (link_from cv l0))) = u_xyz (ui_origin (ul_inertial l0))) as ->.
      { cbn. unfold translation_from, conv_v3. destruct (u_xyz (ui_origin (ul_inertial l0))). reflexivity. }
      cbn [snd].
      destruct Hl0 as [_ [[-> Hf]|(i & j & -> & Hj & Hnm)]].
      + left. split; [exact Hf|]. apply pl_root_world, Hw.
      + right. exists i, j. split; [exact Hj|]. split; [exact Hnm|]. apply (pl_world r nx h0 h1 h2 q HL HB Hs Hq i w Hw).
  Qed.
  Lemma link_of_inj a a' l : link_of a l -> link_of a' l -> a' = a.
  Proof.
    intros [_ [[-> Hf]|(i & j & -> & Hj & Hnm)]] [_ [[-> Hf']|(i' & j' & -> & Hj' & Hnm')]].
    - reflexivity.
    - destruct (Hf j'); [eapply elem_of_list_lookup_2; eauto|exact Hnm'].
    - destruct (Hf' j); [eapply elem_of_list_lookup_2; eauto|exact Hnm].
    - f_equal. apply (NoDup_lookup _ i' i (ul_name l) (wn_children _ Hwn)).
      + rewrite list_lookup_fmap, Hj'. cbn. congruence.
      + rewrite list_lookup_fmap, Hj. cbn. congruence.
  Qed.
  Lemma link_of_fun a l l' : link_of a l -> link_of a l' -> l' = l.
  Proof.
    intros [Hl [[-> Hf]|(i & j & -> & Hj & Hnm)]] [Hl' [[Ha' Hf']|(i' & j' & Ha' & Hj' & Hnm')]]; try lia.
    - destruct Hc as [_ (l0 & _ & _ & Hu)]. rewrite (Hu l' Hl' Hf'), (Hu l Hl Hf). reflexivity.
    - assert (i' = i) as -> by lia. assert (j' = j) as -> by congruence.
      apply elem_of_list_lookup in Hl as [u Hu]. apply elem_of_list_lookup in Hl' as [u' Hu'].
      assert (u' = u) as ->; [|congruence]. apply (NoDup_lookup _ u' u (uj_child j) (wn_links _ Hwn)).
      + rewrite list_lookup_fmap, Hu'. cbn. congruence.
      + rewrite list_lookup_fmap, Hu. cbn. congruence.
  Qed.
  Lemma links_all l ls : l ≡ₚ seq nx (S (length (r_joints r))) -> Forall2 link_of l ls -> ls ≡ₚ r_links r.
  Proof.
    intros Hperm HF. apply NoDup_Permutation.
    - assert (Hnd : NoDup l) by (rewrite Hperm; apply NoDup_seq). clear Hperm. induction HF as [|a l0 l ls Ha HF IH]; [constructor|].
      apply NoDup_cons in Hnd as [Hna Hnd]. constructor; [|auto]. intros Hin. apply elem_of_list_lookup in Hin as [k Hk].
      destruct (Forall2_lookup_r _ _ _ _ _ HF Hk) as (a' & Ha' & Hl'). apply Hna. rewrite <- (link_of_inj _ _ _ Ha Hl'). eapply elem_of_list_lookup_2; eauto.
    - pose proof (wn_links _ Hwn) as Hn. apply NoDup_fmap_1 in Hn. exact Hn.
    - intros l0. split.
      + intros Hin. apply elem_of_list_lookup in Hin as [k Hk]. destruct (Forall2_lookup_r _ _ _ _ _ HF Hk) as (a & _ & Hl0). apply Hl0.
      + intros Hin. assert (Ha : exists a, a ∈ l /\ link_of a l0).
        { destruct (decide (Exists (fun j => uj_child j = ul_name l0) (r_joints r))) as [Hex|Hno].
          - apply Exists_exists in Hex as (j & Hj & Hnm). apply elem_of_list_lookup in Hj as [i Hi]. exists (S nx + i)%nat. split.
            + rewrite Hperm. apply elem_of_seq. apply lookup_lt_Some in Hi. lia.
            + split; [exact Hin|]. right. eauto.
          - exists nx. split; [rewrite Hperm; apply elem_of_seq; lia|]. split; [exact Hin|]. left. split; [reflexivity|].
            intros j Hj E. apply Hno, Exists_exists. eauto. }
        destruct Ha as (a & Ha & Hl0). apply elem_of_list_lookup in Ha as [k Hk]. destruct (Forall2_lookup_l _ _ _ _ _ HF Hk) as (l1 & Hl1 & Hl).
        rewrite (link_of_fun _ _ _ Hl Hl0). eapply elem_of_list_lookup_2; eauto.
  Qed.
  Lemma rsum_perm f cs cs' : cs ≡ₚ cs' -> rsum f cs = rsum f cs'.
  Proof. unfold rsum. induction 1 as [|x l l' _ IH|x y l|? ? ? _ IH1 _ IH2]; cbn; [reflexivity|rewrite IH; reflexivity|ring|congruence]. Qed.
  Lemma mean_perm cs cs' : cs ≡ₚ cs' -> mean cs = mean cs'.
  Proof. intros H. unfold mean. rewrite !(rsum_perm _ _ _ H). reflexivity. Qed.
  Lemma masses_lemma l cs : l ≡ₚ seq nx (S (length (r_joints r))) -> link_centers h2 l cs ->
    exists cs', Forall2 (weighed r q) (r_links r) cs' /\ mean cs' = mean cs.
  Proof.
    intros Hperm HC. destruct (centers_weights l cs HC) as (ls & F1 & F2).
    { intros a Ha. rewrite Hperm in Ha. apply elem_of_seq in Ha. lia. }
    pose proof (links_all l ls Hperm F1) as HP. destruct (Permutation_Forall2 HP F2) as (cs' & HP' & F').
    exists cs'. split; [exact F'|]. symmetry. apply mean_perm, HP'.
  Qed.
End Links.

Section Run.
  Context (t : nat) (r : robot R) (h : gmap nat (node R)) (nx fuel : nat).
  Context (Hok : heap_ok h nx) (Hwn : well_named r) (Hs : forall j, j ∈ r_joints r -> sound_joint j)
    (Hk : mimics_known r) (Hac : acyclic r) (Hf : (S (length (r_joints r)) < fuel)%nat).
  Notation nx' := (S nx + length (r_joints r))%nat.

  Lemma weigh_lemma : complete r -> exists c h1, run t (chain_from_robot cv fuel r) (quiet h nx) = Done c (quiet h1 nx') /\
    forall ps q, given nx (c_movable c) ps q ->
    exists h2 cs s, run t (set_joint_positions_unchecked c ps) (quiet h1 nx') = Done tt (quiet h2 nx') /\
      run t (center_of_mass c) (quiet h2 nx') = Done (mean cs) s /\ Forall2 (weighed r q) (r_links r) cs.
  Proof.
    intros Hc. destruct (load_and_set t r h nx fuel Hok Hwn Hs Hk Hac Hf) as (c & h1 & R1 & HL & _ & Hperm & Hset). exists c, h1. split; [exact R1|]. intros ps q Hq.
    destruct (Hset ps) as (h2 & R2 & HB & Hlive & Hpf & Hst). specialize (Hst q Hq).
    destruct (C29_mean t h2 nx' c Hlive Hpf) as (cs & h3 & HC & R3).
    destruct (masses_lemma r nx h h1 h2 q HL HB Hs Hst Hwn Hc _ cs Hperm HC) as (cs' & F & E).
    exists h2, cs', (quiet h3 nx'). split; [exact R2|]. split; [rewrite E; exact R3|exact F].
  Qed.
  Lemma draw_lemma : exists c h1, run t (chain_from_robot cv fuel r) (quiet h nx) = Done c (quiet h1 nx') /\
    forall ps q, given nx (c_movable c) ps q ->
    exists h2 h3, run t (set_joint_positions_unchecked c ps) (quiet h1 nx') = Done tt (quiet h2 nx') /\
      run t (update_link_transforms c) (quiet h2 nx') = Done tt (quiet h3 nx') /\
      forall i j l, r_joints r !! i = Some j -> l ∈ r_links r -> ul_name l = uj_child j ->
      exists n lk, h3 !! (S nx + i)%nat = Some n /\ n_link n = Some lk /\
        (exists w, in_wt (l_inertial lk) = Some w /\ drawn r q i j (ui_origin (ul_inertial l)) w) /\
        Forall2 (fun v v' => exists w, vi_wt v' = Some w /\ drawn r q i j (uv_origin v) w) (ul_visual l) (l_visuals lk) /\
        Forall2 (fun v v' => exists w, co_wt v' = Some w /\ drawn r q i j (uc_origin v) w) (ul_collision l) (l_collisions lk).
  Proof.
    destruct (load_and_set t r h nx fuel Hok Hwn Hs Hk Hac Hf) as (c & h1 & R1 & HL & _ & Hperm & Hset). exists c, h1. split; [exact R1|]. intros ps q Hq.
    destruct (Hset ps) as (h2 & R2 & HB & Hlive & Hpf & Hst). specialize (Hst q Hq).
    destruct (C28_update_link_transforms t h2 nx' c Hlive Hpf) as (h3 & R3 & Hin & _). exists h2, h3. split; [exact R2|]. split; [exact R3|].
    intros i j l Hj Hl Hnm. destruct (Hin (S nx + i)%nat) as (n & n' & w & pw & Hn & Hn' & _ & Hfr & [_ Hlk]).
    { rewrite Hperm. apply elem_of_seq. apply lookup_lt_Some in Hj. lia. }
    assert (El : n_link n = Some (link_from cv l)).
    { destruct (ld_joint _ _ _ _ _ HL i j Hj) as (n1 & Hn1 & Hjn). specialize (HB (S nx + i)%nat). rewrite Hn1, Hn in HB.
      destruct HB as (_ & _ & _ & _ & _ & _ & _ & _ & _ & _ & ->). destruct (jn_link _ _ _ _ _ _ Hjn) as [(l' & Hl' & Hnm' & ->)|[Hno _]].
      - do 2 f_equal. apply elem_of_list_lookup in Hl as [u Hu]. apply elem_of_list_lookup in Hl' as [u' Hu'].
        assert (u' = u) as ->; [|congruence]. apply (NoDup_lookup _ u' u (uj_child j) (wn_links _ Hwn)).
        + rewrite list_lookup_fmap, Hu'. cbn. congruence.
        + rewrite list_lookup_fmap, Hu. cbn. congruence.
      - destruct Hno. exists l. auto. }
    rewrite El in Hlk. destruct (n_link n') as [lk|] eqn:En'; [|contradiction]. destruct Hlk as (_ & Hi & Hv & Hco).
    assert (D : forall p, drawn r q i j p (iso_mul pw (isometry_from cv p))).
    { intros p. eapply (drawn_lemma r nx h h1 h2 q); eauto. }
    exists n', lk. split; [exact Hn'|]. split; [exact En'|]. split; [|split].
    - destruct Hi as [Hi _]. eexists. split; [exact Hi|]. apply D.
    - change (Forall2 (visual_placed pw) (visual_from cv <$> ul_visual l) (l_visuals lk)) in Hv. rewrite Forall2_fmap_l in Hv. refine (Forall2_impl _ _ _ _ Hv _). intros v v' [Hw _]. eexists. split; [exact Hw|]. apply D.
    - change (Forall2 (collision_placed pw) (collision_from cv <$> ul_collision l) (l_collisions lk)) in Hco. rewrite Forall2_fmap_l in Hco. refine (Forall2_impl _ _ _ _ Hco _). intros v v' [Hw _]. eexists. split; [exact Hw|]. apply D.
  Qed.
End Run.
