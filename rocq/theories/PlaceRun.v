(** * Running the forward and the inverse problem on a robot just loaded *)
From Coq Require Import String Reals Lra.
From stdpp Require Import gmap strings.
From Verif Require Import Scalar ScalarR Geometry Joint Link Prog NodeM ChainM FuncsM IkM RunLemmas SpecJoint SpecNode SpecGraph GraphProofs SpecGeom RGeom GeomProofs
  SpecChain ChainProofs SpecFK FKProofs SpecIk IkProofs Api UrdfM SpecUrdf UrdfProofs UrdfProofs2 UrdfProofs3 UrdfProofs4 UrdfProofs5 PropGeom PropChain PropFK PropIk PropUrdf SpecPlace PlaceProofs.
Open Scope R_scope.

Section Load.
  Context (t : nat) (r : robot R) (h : gmap nat (node R)) (nx fuel : nat).
  Context (Hok : heap_ok h nx) (Hwn : well_named r) (Hs : forall j, j ∈ r_joints r -> sound_joint j)
    (Hk : mimics_known r) (Hac : acyclic r) (Hf : (S (length (r_joints r)) < fuel)%nat).
  Notation nx' := (S nx + length (r_joints r))%nat.

  Lemma moved_same (n n' : node R) p : node_moved n p n' -> same_but_position n n'.
  Proof. intros ((_ & _ & _ & ? & ? & ? & ? & ?) & ? & ? & ? & ? & ? & ?). repeat split; assumption. Qed.
  Lemma heaps_same_parents (h1 h2 : gmap nat (node R)) : heaps same_but_position h1 h2 -> same_parents h1 h2.
  Proof.
    intros H a. specialize (H a). destruct (h1 !! a), (h2 !! a); try contradiction; [|reflexivity].
    destruct H as (_ & _ & _ & _ & _ & E & _). cbn. f_equal. exact E.
  Qed.
  Lemma heaps_chain (h1 h2 : gmap nat (node R)) l c : heaps same_but_position h1 h2 -> chain_of h1 l c -> chain_of h2 l c.
  Proof.
    intros H (H1 & H2 & H3).
    assert (E : List.filter (node_movable h2) l = List.filter (node_movable h1) l).
    { apply List.filter_ext. intros a. unfold node_movable. specialize (H a). destruct (h1 !! a), (h2 !! a); try contradiction; [|reflexivity].
      destruct H as (_ & E & _). rewrite E. reflexivity. }
    split; [exact H1|]. rewrite E. auto.
  Qed.

  Lemma load_and_set : exists c h1, run t (chain_from_robot cv fuel r) (quiet h nx) = Done c (quiet h1 nx') /\
    loaded cv r nx h h1 /\ chain_of h1 (c_nodes c) c /\ c_nodes c ≡ₚ seq nx (S (length (r_joints r))) /\
    forall ps, exists h2, run t (set_joint_positions_unchecked c ps) (quiet h1 nx') = Done tt (quiet h2 nx') /\
      heaps same_but_position h1 h2 /\ all_live h2 (c_nodes c) /\ parents_first h2 (c_nodes c) /\
      forall q, given nx (c_movable c) ps q -> stands r nx h2 q.
  Proof.
    destruct (C44_tree cv t r h nx fuel Hok Hwn (sound_converts r Hs) Hk Hac Hf) as (c & h1 & R1 & Hperm & _ & Hpf & Hch & HL & _).
    exists c, h1. split; [exact R1|]. split; [exact HL|]. split; [exact Hch|]. split; [exact Hperm|]. intros ps.
    assert (Hnd : NoDup (c_nodes c)) by (rewrite Hperm; apply NoDup_seq).
    assert (Hndm : NoDup (c_movable c)).
    { destruct Hch as (_ & -> & _). apply NoDup_ListNoDup, List.NoDup_filter, NoDup_ListNoDup, Hnd. }
    assert (Hlive : all_live h1 (c_nodes c)).
    { intros a Ha. rewrite Hperm in Ha. apply elem_of_seq in Ha. destruct (decide (a = nx)) as [->|Hne].
      - destruct (ld_root _ _ _ _ _ HL) as (n & Hn & _). eauto.
      - destruct (lookup_lt_is_Some_2 (r_joints r) (a - S nx)) as [j Hj]; [lia|]. destruct (ld_joint _ _ _ _ _ HL _ _ Hj) as (n & Hn & _).
        replace (S nx + (a - S nx))%nat with a in Hn by lia. eauto. }
    assert (Hsub : forall a, a ∈ c_movable c -> a ∈ c_nodes c).
    { destruct Hch as (_ & -> & _). intros a Ha. apply elem_of_list_In, filter_In in Ha as [Ha _]. apply elem_of_list_In, Ha. }
    destruct (C17_unchecked t h1 nx' c ps Hndm) as (h2 & R2 & Hin & Hout); [intros a Ha; auto|].
    assert (Hat : forall a, (exists k p, c_movable c !! k = Some a /\ ps !! k = Some p) \/ h2 !! a = h1 !! a).
    { intros a. destruct (decide (a ∈ take (length ps) (c_movable c))) as [Ha|Ha]; [left|right; auto].
      apply elem_of_list_lookup in Ha as [k Hka]. apply lookup_take_Some in Hka as [Hka Hlt].
      destruct (lookup_lt_is_Some_2 ps k Hlt) as [p Hp]. eauto. }
    assert (HB : heaps same_but_position h1 h2).
    { intros a. destruct (Hat a) as [(k & p & Ha & Hp)| -> ].
      - destruct (Hin k a p Ha Hp) as (n & n' & -> & -> & Hm). eapply moved_same; eauto.
      - destruct (h1 !! a); [repeat split|exact I]. }
    pose proof (heaps_same_parents _ _ HB) as HP.
    exists h2. split; [exact R2|]. split; [exact HB|]. split; [intros a Ha; eapply same_parents_live; eauto|]. split.
    - intros l1 a l2 p E Hlp. apply (same_parents_lp _ _ _ _ (same_parents_sym _ _ HP)) in Hlp as [(n & Hn & Hnp) _].
      destruct (decide (a = nx)) as [->|Hne].
      + destruct (ld_root _ _ _ _ _ HL) as (n' & Hn' & Hr). assert (n' = n) as -> by congruence. rewrite (rn_parent _ _ _ _ Hr) in Hnp. discriminate.
      + destruct (Hpf l1 a l2 E Hne) as (p' & Hp' & n' & Hn' & Hnp'). assert (p' = p) as -> by congruence. exact Hp'.
    - intros q Hq i Hi. destruct (lookup_lt_is_Some_2 _ _ Hi) as [j Hj]. destruct (ld_joint _ _ _ _ _ HL i j Hj) as (n & Hn & Hjn).
      destruct (Hq i) as [Q1 Q2]. destruct (Hat (S nx + i)%nat) as [(k & p & Ha & Hp)|E].
      + destruct (Hin k _ p Ha Hp) as (m & m' & _ & Hm' & Hmv). exists m'. split; [exact Hm'|]. rewrite (Q1 k p Ha Hp). apply Hmv.
      + destruct (decide ((S nx + i)%nat ∈ take (length ps) (c_movable c))) as [Ha|Ha].
        * apply elem_of_list_lookup in Ha as [k Hka]. apply lookup_take_Some in Hka as [Hka Hlt]. destruct (lookup_lt_is_Some_2 ps k Hlt) as [p Hp].
          destruct (Hin k _ p Hka Hp) as (m & m' & _ & Hm' & Hmv). exists m'. split; [exact Hm'|]. rewrite (Q1 k p Hka Hp). apply Hmv.
        * exists n. split; [congruence|]. rewrite Q2.
          -- destruct (C45_conversion cv j _ (jn_joint _ _ _ _ _ _ Hjn)) as (_ & E0 & _). exact E0.
          -- intros k Hka. apply lookup_ge_None_2. destruct (decide (length ps <= k)%nat) as [|Hlt]; [assumption|]. exfalso. apply Ha.
             apply elem_of_list_lookup. exists k. apply lookup_take_Some. split; [exact Hka|lia].
  Qed.

  Lemma forward_lemma : exists c h1, run t (chain_from_robot cv fuel r) (quiet h nx) = Done c (quiet h1 nx') /\
    forall ps q, given nx (c_movable c) ps q ->
    exists h2 ws h3, run t (set_joint_positions_unchecked c ps) (quiet h1 nx') = Done tt (quiet h2 nx') /\
      run t (update_transforms c) (quiet h2 nx') = Done ws (quiet h3 nx') /\
      forall i, (i < length (r_joints r))%nat -> exists k w, c_nodes c !! k = Some (S nx + i)%nat /\ ws !! k = Some w /\
        wt_of h3 (S nx + i)%nat (Some w) /\ proper w /\ forall x, placed r q i x (move w x).
  Proof.
    destruct load_and_set as (c & h1 & R1 & HL & _ & Hperm & Hset). exists c, h1. split; [exact R1|]. intros ps q Hq.
    destruct (Hset ps) as (h2 & R2 & HB & Hlive & Hpf & Hst). specialize (Hst q Hq).
    destruct (C18_update_transforms t h2 nx' c Hlive Hpf) as (ws & h3 & R3 & Hw & Hc & _). exists h2, ws, h3. split; [exact R2|]. split; [exact R3|].
    intros i Hi. assert (Ha : (S nx + i)%nat ∈ c_nodes c) by (rewrite Hperm; apply elem_of_seq; lia).
    apply elem_of_list_lookup in Ha as [k Hka]. destruct (Forall2_lookup_l _ _ _ _ _ Hw Hka) as (w & Hwk & Hworld).
    destruct (Forall2_lookup_lr _ _ _ _ _ _ Hc Hka Hwk) as (n & n' & _ & Hn' & Hwt).
    exists k, w. split; [exact Hka|]. split; [exact Hwk|]. split; [exists n'; split; [exact Hn'|symmetry; apply Hwt]|].
    exact (pl_world r nx h h1 h2 q HL HB Hs Hst i w Hworld).
  Qed.

  Lemma arm_lemma : exists c h1, run t (chain_from_robot cv fuel r) (quiet h nx) = Done c (quiet h1 nx') /\ loaded cv r nx h h1 /\
    forall ps q, given nx (c_movable c) ps q ->
    exists h2, run t (set_joint_positions_unchecked c ps) (quiet h1 nx') = Done tt (quiet h2 nx') /\ heaps same_but_position h1 h2 /\ stands r nx h2 q /\
    forall i, (i < length (r_joints r))%nat -> exists arm l, run t (from_end fuel (S nx + i)%nat) (quiet h2 nx') = Done arm (quiet h2 nx') /\
      path_up h2 (S nx + i)%nat l /\ c_nodes arm = rev l /\ chain_of h2 (c_nodes arm) arm /\ all_live h2 (c_nodes arm) /\
      limits_ok h2 (c_movable arm) /\ (inside_tags r q -> inside_limits h2 (c_movable arm)).
  Proof.
    destruct load_and_set as (c & h1 & R1 & HL & _ & Hperm & Hset). exists c, h1. split; [exact R1|]. split; [exact HL|]. intros ps q Hq.
    destruct (Hset ps) as (h2 & R2 & HB & Hlive & Hpf & Hst). specialize (Hst q Hq). exists h2. split; [exact R2|]. split; [exact HB|]. split; [exact Hst|]. intros i Hi.
    destruct (C18_update_transforms t h2 nx' c Hlive Hpf) as (ws & h3 & _ & Hw & _).
    assert (Ha : (S nx + i)%nat ∈ c_nodes c) by (rewrite Hperm; apply elem_of_seq; lia).
    apply elem_of_list_lookup in Ha as [k Hka]. destruct (Forall2_lookup_l _ _ _ _ _ Hw Hka) as (w0 & _ & (l & ts & Hpath & _)).
    assert (Hloc : forall a, a ∈ l -> a ∈ c_nodes c).
    { intros a Ha. rewrite (path_up_rtc _ _ _ Hpath) in Ha. apply elem_of_list_lookup_2 in Hka. clear -Ha Hka Hpf. revert Hka. induction Ha as [a|a b d Hab _ IH]; intros Hin; [exact Hin|].
      apply IH. apply elem_of_list_split in Hin as (l1 & l2 & E). rewrite E. pose proof (Hpf _ _ _ _ E Hab). set_solver. }
    assert (Hlen : (length l < fuel)%nat).
    { assert (length l <= length (c_nodes c))%nat by (apply submseteq_length, NoDup_submseteq; [eapply path_up_nodup; eauto|exact Hloc]).
      rewrite Hperm, seq_length in H. lia. }
    destruct (C13_from_end t h2 nx' _ l fuel Hpath Hlen) as (arm & R3 & Harm).
    assert (Hna : c_nodes arm = rev l) by apply Harm.
    assert (Harm' : chain_of h2 (c_nodes arm) arm) by (rewrite Hna; exact Harm).
    assert (Hal : all_live h2 (c_nodes arm)) by (intros a Ha; rewrite Hna in Ha; apply Hlive, Hloc; apply elem_of_list_In, in_rev, elem_of_list_In, Ha).
    assert (Htag : forall a n, a ∈ c_movable arm -> h2 !! a = Some n -> exists i j, a = (S nx + i)%nat /\ r_joints r !! i = Some j /\ uj_lower j <= uj_upper j /\
      j_position (n_joint n) = q i /\ forall rg, j_limits (n_joint n) = Some rg -> uj_lower j < uj_upper j /\ rg = Range (uj_lower j) (uj_upper j)).
    { intros a n Ha Hn. pose proof (HB a) as HBa. rewrite Hn in HBa. destruct (h1 !! a) as [n1|] eqn:E1; [|contradiction].
      destruct HBa as (_ & Et & _ & El & _).
      destruct Harm as (_ & Em & _). rewrite Em in Ha. apply elem_of_list_In, filter_In in Ha as [Ha Hmv]. apply in_rev in Ha. apply elem_of_list_In, Hloc in Ha.
      unfold node_movable in Hmv. rewrite Hn, Et in Hmv.
      rewrite Hperm in Ha. apply elem_of_seq in Ha. destruct (decide (a = nx)) as [->|Hne].
      - destruct (ld_root _ _ _ _ _ HL) as (n' & Hn' & Hr). assert (n' = n1) as -> by congruence. rewrite (rn_joint _ _ _ _ Hr) in Hmv. discriminate.
      - destruct (lookup_lt_is_Some_2 (r_joints r) (a - S nx)) as [j Hj]; [lia|]. destruct (ld_joint _ _ _ _ _ HL _ _ Hj) as (n' & Hn' & Hjn).
        destruct (Hst (a - S nx)%nat) as (n2 & Hn2 & Hp2); [lia|].
        replace (S nx + (a - S nx))%nat with a in Hn', Hn2 by lia. assert (n' = n1) as -> by congruence. assert (n2 = n) as -> by congruence.
        destruct (Hs j) as [Hle _]; [eapply elem_of_list_lookup_2; eauto|]. destruct (C45_limits_real j) as [HC _].
        destruct (HC Hle) as (jt & Ejt & HC1 & HC2). rewrite (jn_joint _ _ _ _ _ _ Hjn) in Ejt. injection Ejt as <-.
        exists (a - S nx)%nat, j. split; [lia|]. split; [exact Hj|]. split; [exact Hle|]. split; [exact Hp2|]. rewrite El. intros rg.
        destruct (Rle_lt_or_eq_dec _ _ Hle) as [Hlt|Heq]; [rewrite HC2 by exact Hlt|rewrite HC1 by exact Heq; discriminate].
        intros Er. injection Er as <-. auto. }
    exists arm, l. split; [exact R3|]. split; [exact Hpath|]. split; [exact Hna|]. split; [exact Harm'|]. split; [exact Hal|]. split.
    - intros a n Ha Hn rg Er. destruct (Htag a n Ha Hn) as (i' & j & _ & _ & Hle & _ & Hrg). destruct (Hrg rg Er) as [_ ->]. apply Rleb_spec. exact Hle.
    - intros Hin a n Ha Hn rg Er. destruct (Htag a n Ha Hn) as (i' & j & _ & Hj & _ & -> & Hrg). destruct (Hrg rg Er) as [Hlt ->].
      destruct (Hin i' j Hj Hlt). split; apply Rleb_spec; assumption.
  Qed.

  Lemma inverse_lemma : exists c h1, run t (chain_from_robot cv fuel r) (quiet h nx) = Done c (quiet h1 nx') /\
    forall ps q, given nx (c_movable c) ps q ->
    exists h2, run t (set_joint_positions_unchecked c ps) (quiet h1 nx') = Done tt (quiet h2 nx') /\
    forall i, (i < length (r_joints r))%nat -> exists arm, run t (from_end fuel (S nx + i)%nat) (quiet h2 nx') = Done arm (quiet h2 nx') /\
    forall ovf (la : linalg R) (sv : solver R) target cs s, inside_tags r q \/ sized la /\ ignored_joint_names cs = [] ->
    run t (solve_with_constraints ovf la sv arm target cs) (quiet h2 nx') = Done (Ok tt) s ->
    exists q' w, stands r nx (heap s) q' /\ proper w /\ (forall x, placed r q' i x (move w x)) /\ on_target sv cs target w.
  Proof.
    destruct arm_lemma as (c & h1 & R1 & HL & Hset). exists c, h1. split; [exact R1|]. intros ps q Hq.
    destruct (Hset ps q Hq) as (h2 & R2 & HB & _ & Harm). exists h2. split; [exact R2|]. intros i Hi.
    destruct (Harm i Hi) as (arm & l & R3 & Hpath & Hna & Hc & Hal & Hlim & Hins). exists arm. split; [exact R3|]. intros ovf la sv target cs s Hst0 E.
    assert (E' : exists h' w, s = quiet h' nx' /\ run t (end_transform arm) s = Done w s /\ on_target sv cs target w /\ only_moved (c_movable arm) h2 h').
    { destruct Hst0 as [Hin|[Hla Hig]].
      - exact (C31_ok_means_on_target t ovf la sv h2 nx' arm target cs s Hc Hal Hlim (Hins Hin) E).
      - exact (C31_any_start t ovf la sv h2 nx' arm target cs s Hc Hal Hlim Hla (or_introl Hig) E). }
    destruct E' as (h' & w & -> & Rw & Htg & [HB' _]).
    assert (HB2 : heaps same_but_position h1 h').
    { intros a. specialize (HB a). specialize (HB' a). destruct (h1 !! a), (h2 !! a), (h' !! a); try contradiction; try exact I.
      destruct HB as (? & ? & ? & ? & ? & ? & ? & ? & ? & ? & ?), HB' as (? & ? & ? & ? & ? & ? & ? & ? & ? & ? & ?). repeat split; congruence. }
    assert (Hpath' : path_up h' (S nx + i)%nat l) by (eapply same_parents_path; [apply heaps_same_parents, HB'|exact Hpath]).
    destruct (C19_end_transform t h' nx' arm _ l Hpath' Hna) as (w' & _ & _ & Rw' & _ & _ & Hworld).
    assert (w' = w) as -> by congruence.
    set (q' := fun i => default 0 (position_at h' (S nx + i)%nat)).
    assert (Hst : stands r nx h' q').
    { intros k' Hk'. destruct (lookup_lt_is_Some_2 _ _ Hk') as [j Hj]. destruct (ld_joint _ _ _ _ _ HL k' j Hj) as (n & Hn & _).
      specialize (HB2 (S nx + k')%nat). rewrite Hn in HB2. destruct (h' !! (S nx + k')%nat) as [n'|] eqn:En; [|contradiction].
      exists n'. split; [reflexivity|]. unfold q', position_at. rewrite En. reflexivity. }
    exists q', w. split; [exact Hst|]. destruct (pl_world r nx h h1 h' q' HL HB2 Hs Hst i w Hworld) as [Hp Hx]. split; [exact Hp|]. split; [exact Hx|exact Htg].
  Qed.
End Load.
