(** * What the caches cannot change *)
From Coq Require Import String NArith.
From stdpp Require Import gmap.
From Verif Require Import Scalar Geometry Joint Link Prog NodeM ChainM FuncsM IkM RunLemmas
  SpecJoint SpecNode RangeProofs JointProofs NodeProofs SpecGraph GraphProofs SpecChain ChainProofs
  SpecFK FKProofs VelocityProofs IkLookup SpecIk IkProofs JacProofs SpecCom ComProofs.

Section Hist.
  Context {T : Type} `{Sc : Scalar T}.
  Implicit Types (h : gmap nat (node T)).

  (** ** the tree and the frames *)
  Lemma frozen_live_parent h h' a p : frozen h h' -> live_parent h a p -> live_parent h' a p.
  Proof.
    intros Hf [(n & Hn & Hp) Hl]. destruct (frozen_at _ _ _ _ Hf Hn) as (n' & Hn' & E). apply bare_eq in E as (_ & _ & _ & _ & _ & E & _).
    split; [exists n'; split; [exact Hn'|rewrite E; exact Hp]|]. destruct Hl as [m Hm]. destruct (frozen_at _ _ _ _ Hf Hm) as (m' & -> & _). eauto.
  Qed.
  Lemma frozen_no_parent h h' a : frozen h h' -> no_parent h a -> no_parent h' a.
  Proof.
    intros Hf [[n Hn] Hno]. destruct (frozen_at _ _ _ _ Hf Hn) as (n' & Hn' & _). split; [eauto|].
    intros p Hp. apply (Hno p). eapply frozen_live_parent; [apply frozen_sym; exact Hf|exact Hp].
  Qed.
  Lemma frozen_path h h' a l : frozen h h' -> path_up h a l -> path_up h' a l.
  Proof. intros Hf. induction 1; [constructor; eapply frozen_no_parent; eauto|econstructor; [eapply frozen_live_parent; eauto|assumption]]. Qed.
  Lemma frozen_parents_first h h' l : frozen h h' -> parents_first h l -> parents_first h' l.
  Proof. intros Hf H l1 a l2 p E Hp. eapply H; [exact E|]. eapply frozen_live_parent; [apply frozen_sym; exact Hf|exact Hp]. Qed.
  Lemma unch_world h h' a w : unch h h' -> world h a w -> world h' a w.
  Proof.
    intros Hu (l & ts & Hp & Hts & ->). exists l, ts. split; [eapply frozen_path; [apply unch_frozen; exact Hu|exact Hp]|].
    split; [eapply unch_locals; eauto|reflexivity].
  Qed.
  Lemma unch_centers h h' l cs : unch h h' -> centers h l cs -> centers h' l cs.
  Proof.
    intros Hu. induction 1 as [|a l cs n Hn Hk Hc IH|a l cs n lk w Hn Hk Hw Hc IH]; [constructor| |];
      destruct (unch_at _ _ _ _ Hu Hn) as (n' & Hn' & E); apply strip_eq in E; unfold same_but_caches in E;
      assert (El : n_link n' = n_link n) by apply E.
    - apply centers_none with n'; [exact Hn'|congruence|exact IH].
    - apply centers_link with n'; [exact Hn'|congruence|eapply unch_world; eauto|exact IH].
  Qed.

  (** ** programs that answer alike on states that differ in caches only *)
  Variable arm : chain.
  Definition good h : Prop :=
    chain_of h (c_nodes arm) arm /\ all_live h (c_nodes arm) /\ parents_first h (c_nodes arm) /\ plain h (c_movable arm).
  Lemma frozen_good h h' : frozen h h' -> good h -> good h'.
  Proof.
    intros Hf (H1 & H2 & H3 & H4). split; [eapply frozen_chain; eauto|]. split; [eapply frozen_live; eauto|].
    split; [eapply frozen_parents_first; eauto|eapply frozen_plain; eauto].
  Qed.
  Lemma unch_good h h' : unch h h' -> good h -> good h'.
  Proof. intros H. apply frozen_good, unch_frozen, H. Qed.
  Definition alike {A} nx nx' (o o' : outcome T A) : Prop :=
    match o, o' with
    | Done x s, Done x' s' => x' = x /\ exists h h', s = quiet h nx /\ s' = quiet h' nx' /\ good h /\ unch h h'
    | Panicked m _, Panicked m' _ => m' = m
    | _, _ => False
    end.
  Definition steady {A} (p : prog T A) : Prop :=
    forall t t' h h' nx nx', good h -> unch h h' -> alike nx nx' (run t p (quiet h nx)) (run t' p (quiet h' nx')).

  Lemma alike_done {A} nx nx' (x : A) h h' : good h -> unch h h' -> alike nx nx' (Done x (quiet h nx)) (Done x (quiet h' nx')).
  Proof. intros Hg Hu. split; [reflexivity|]. exists h, h'. auto. Qed.
  Lemma st_ret {A} (x : A) : steady (Ret x).
  Proof. intros t t' h h' nx nx' Hg Hu. apply alike_done; assumption. Qed.
  Lemma st_panic {A} m : steady (Panic (A := A) m).
  Proof. intros t t' h h' nx nx' Hg Hu. reflexivity. Qed.
  Lemma st_bind {A B} (p : prog T A) (f : A -> prog T B) : steady p -> (forall x, steady (f x)) -> steady (bind p f).
  Proof.
    intros Hp Hf t t' h h' nx nx' Hg Hu. rewrite !run_bind. specialize (Hp t t' h h' nx nx' Hg Hu).
    destruct (run t p (quiet h nx)), (run t' p (quiet h' nx')); cbn in Hp |- *; try contradiction; [|exact Hp].
    destruct Hp as (-> & h1 & h1' & -> & -> & Hg1 & Hu1). apply Hf; assumption.
  Qed.
  Lemma st_expect {A} (o : option A) m : steady (expect (T := T) o m).
  Proof. destruct o; [apply st_ret|apply st_panic]. Qed.
  Lemma st_usize_sub ovf a b : steady (usize_sub (T := T) ovf a b).
  Proof. unfold usize_sub. repeat case_match; auto using st_ret, st_panic. Qed.
  Lemma st_remove_rows ovf ops : forall i r m, steady (remove_rows (T := T) ovf i r ops m).
  Proof.
    induction ops as [|[] ops IH]; intros i r m; cbn [remove_rows]; [apply st_ret|apply IH|].
    apply st_bind; [apply st_usize_sub|]. intros k. case_match; [apply IH|apply st_panic].
  Qed.
  Lemma st_remove_columns {A} ovf idx : forall i (l : list A), steady (remove_columns (T := T) ovf i idx l).
  Proof.
    induction idx as [|j idx IH]; intros i l; cbn [remove_columns]; [apply st_ret|].
    apply st_bind; [apply st_usize_sub|]. intros k. apply st_bind; [|intros; apply IH].
    unfold remove_nth. case_match; auto using st_ret, st_panic.
  Qed.
  Lemma st_insert_rows idx : forall l, steady (insert_rows (T := T) idx l).
  Proof.
    induction idx as [|j idx IH]; intros l; cbn [insert_rows]; [apply st_ret|].
    apply st_bind; [|intros; apply IH]. unfold insert_nth. case_match; auto using st_ret, st_panic.
  Qed.
  Lemma st_new_positions ovf la sv orig err jac av req idx :
    steady (new_positions ovf la sv orig err jac av req idx).
  Proof.
    unfold new_positions.
    repeat first [apply st_ret | apply st_panic
      | apply st_bind; [first [apply st_expect|apply st_remove_columns|apply st_insert_rows]|intros ?]
      | case_match].
  Qed.
  Lemma st_read {A} a (g : node T -> A) : a ∈ c_movable arm -> (forall n n', same_but_caches n n' -> g n' = g n) -> steady (read a g).
  Proof.
    intros Ha Hgn t t' h h' nx nx' Hg Hu. destruct Hg as (Hc & Hr). destruct (movable_live _ _ _ Hc a Ha) as [n Hn].
    destruct (unch_at _ _ _ _ Hu Hn) as (n' & Hn' & E). apply strip_eq in E.
    assert (Er : run t (read a g) (quiet h nx) = Done (g n) (quiet h nx)) by exact (run_read t a g h nx ∅ n Hn (lookup_empty _)).
    assert (Er' : run t' (read a g) (quiet h' nx') = Done (g n') (quiet h' nx')) by exact (run_read t' a g h' nx' ∅ n' Hn' (lookup_empty _)).
    rewrite Er, Er', (Hgn n n' E). apply alike_done; [split; assumption|assumption].
  Qed.
  Lemma st_position nm l : (forall a, a ∈ l -> a ∈ c_movable arm) ->
    steady (positionM (fun a => read a (fun n : node T => String.eqb (j_name (n_joint n)) nm)) l).
  Proof.
    induction l as [|a l IH]; intros Hl; cbn [positionM]; [apply st_ret|].
    apply st_bind; [apply st_read; [apply Hl; set_solver|]|].
    - intros n n' (E & _). rewrite E. reflexivity.
    - intros []; [apply st_ret|]. apply st_bind; [apply IH; intros; apply Hl; set_solver|]. intros. apply st_ret.
  Qed.
  Lemma st_ignored names : steady (ignored_indices arm names).
  Proof.
    induction names as [|nm names IH]; cbn [ignored_indices]; [apply st_ret|].
    apply st_bind; [apply st_position; auto|]. intros [i|]; [|apply st_ret]. apply st_bind; [exact IH|]. intros. apply st_ret.
  Qed.
  Lemma st_positions : steady (joint_positions arm).
  Proof.
    intros t t' h h' nx nx' Hg Hu. destruct Hg as (Hc & Hr). pose proof (frozen_chain _ _ _ _ (unch_frozen _ _ Hu) Hc) as Hc'.
    destruct (run_positions t h nx arm _ Hc) as (ps & -> & _ & Hp). destruct (run_positions t' h' nx' arm _ Hc') as (ps' & -> & _ & Hp').
    assert (ps' = ps) as ->.
    { assert (E : map Some ps' = map Some ps).
      { rewrite Hp, Hp'. apply map_ext. intros a. apply unch_position. exact Hu. }
      clear -E. revert ps E. induction ps' as [|x l IH]; intros [|y l'] E; try discriminate; [reflexivity|]. cbn in E. f_equal; [congruence|]. apply IH. congruence. }
    apply alike_done; [split; assumption|exact Hu].
  Qed.
  Lemma st_end : steady (end_transform arm).
  Proof.
    intros t t' h h' nx nx' Hg Hu. destruct Hg as (Hc & Hl & Hr). destruct (locals_exist h _ Hl) as [ts Hts].
    unfold end_transform. rewrite (run_end_fold t h nx _ ts Hts iso1), (run_end_fold t' h' nx' _ ts (unch_locals _ _ _ _ Hu Hts) iso1).
    apply alike_done; [split; [assumption|split; assumption]|exact Hu].
  Qed.
  Lemma st_jacobian : steady (jacobian arm).
  Proof.
    intros t t' h h' nx nx' Hg Hu. pose proof (unch_good _ _ Hu Hg) as Hg'. pose proof Hg as (Hc & Hl & Hp & _). pose proof Hg' as (Hc' & Hl' & Hp' & _).
    destruct (locals_exist h _ Hl) as [ts Hts].
    destruct (run_jacobian t h nx arm ts (parents_first_order _ _ Hl Hp) Hc Hts) as (cols & h1 & Hr & Hlen & Hcols).
    destruct (run_jacobian t' h' nx' arm ts (parents_first_order _ _ Hl' Hp') Hc' (unch_locals _ _ _ _ Hu Hts)) as (cols' & h1' & Hr' & Hlen' & Hcols').
    destruct (jacobian_done _ _ _ _ _ _ Hl Hr) as (k & Ek & Hk & _). destruct (jacobian_done _ _ _ _ _ _ Hl' Hr') as (k' & Ek' & Hk' & _).
    apply (f_equal heap) in Ek, Ek'. cbn in Ek, Ek'. subst k k'. rewrite Hr, Hr'.
    assert (cols' = cols) as ->.
    { assert (Hm : forall a, a ∈ c_movable arm -> a ∈ c_nodes arm).
      { intros a Ha. destruct Hc as (_ & E & _). rewrite E in Ha. apply elem_of_list_In, filter_In in Ha as [Ha _]. apply elem_of_list_In. exact Ha. }
      clear Hlen Hlen' Hr Hr'. revert cols cols' Hcols Hcols' Hm. generalize (c_movable arm) as m. induction m as [|a m IH]; intros cols cols' H1 H2 Hm.
      - inversion H1; inversion H2; reflexivity.
      - inversion H1 as [|? col ? cols0 H1a H1b]; subst. inversion H2 as [|? col' ? cols0' H2a H2b]; subst. f_equal; [|apply IH; [exact H1b|exact H2b|intros; apply Hm; set_solver]].
        destruct H1a as (n & w & Hn & Hb & E). destruct H2a as (n' & w' & Hn' & Hb' & E').
        assert (Ha : a ∈ c_nodes arm) by (apply Hm; set_solver).
        apply based_world in Hb; [|exact Hp|exact Ha]. apply based_world in Hb'; [|exact Hp'|exact Ha].
        assert (w' = w) as -> by (eapply world_fun; [exact Hb'|eapply unch_world; eauto]).
        destruct (unch_at _ _ _ _ Hu Hn) as (n2 & Hn2 & Es). assert (n2 = n') as -> by congruence. apply strip_eq in Es as (_ & Et & _).
        rewrite Et in E'. congruence. }
    apply alike_done; [eapply unch_good; [exact Hk|exact Hg]|]. eapply unch_trans; [apply unch_sym; exact Hk|]. eapply unch_trans; [exact Hu|exact Hk'].
  Qed.
  (** the setters *)
  Definition respects (F : T -> node T -> node T) : Prop := forall p n n', strip n' = strip n -> strip (F p n') = strip (F p n).
  Lemma upd_all_unch F l : respects F -> forall h h', unch h h' -> unch (upd_all F h l) (upd_all F h' l).
  Proof.
    intros HF. induction l as [|[a p] l IH]; intros h h' Hu; [exact Hu|]. rewrite !upd_all_cons. apply IH. intros b.
    destruct (decide (b = a)) as [->|Hb]; [|rewrite !lookup_alter_ne by auto; apply Hu].
    rewrite !lookup_alter. specialize (Hu a). destruct (h !! a) as [n|], (h' !! a) as [n'|]; cbn in *; try congruence. f_equal. apply HF. congruence.
  Qed.
  Lemma clampF_respects : respects clampF.
  Proof.
    intros p [a1 a2 [] a4 a5 a6 a7] [b1 b2 [] b4 b5 b6 b7] E. apply strip_eq in E. unfold same_but_caches in E. cbn in E.
    destruct_and!. subst. unfold clampF, joint_set_clamped, is_movable. cbn. case_match; reflexivity.
  Qed.
  Lemma move1_respects : respects move1.
  Proof.
    intros p [a1 a2 [] a4 a5 a6 a7] [b1 b2 [] b4 b5 b6 b7] E. apply strip_eq in E. unfold same_but_caches in E. cbn in E.
    destruct_and!. subst. reflexivity.
  Qed.
  Lemma move1_frozen h a n p : h !! a = Some n -> frozen h (<[a := move1 p n]> h).
  Proof.
    intros Hn b. destruct (decide (b = a)) as [->|Hb]; [|rewrite lookup_insert_ne by auto; reflexivity].
    rewrite lookup_insert, Hn. cbn. f_equal.
  Qed.
  Lemma st_clamped ps : steady (set_joint_positions_clamped arm ps).
  Proof.
    intros t t' h h' nx nx' Hg Hu. pose proof (unch_good _ _ Hu Hg) as Hg'.
    rewrite (run_clamped t h nx arm ps) by (eapply movable_live; apply Hg). rewrite (run_clamped t' h' nx' arm ps) by (eapply movable_live; apply Hg').
    apply alike_done; [eapply frozen_good; [apply upd_clamp_frozen|exact Hg]|]. apply upd_all_unch; [exact clampF_respects|exact Hu].
  Qed.
  Lemma st_set_one a p : a ∈ c_movable arm -> steady (node_set_joint_position a p).
  Proof.
    intros Ha t t' h h' nx nx' Hg Hu. pose proof (unch_good _ _ Hu Hg) as Hg'.
    destruct (proj2 (proj2 (proj2 (proj2 Hg))) a Ha) as (n & Hn & Hm). destruct (proj2 (proj2 (proj2 (proj2 Hg'))) a Ha) as (n' & Hn' & Hm').
    destruct (unch_at _ _ _ _ Hu Hn) as (n2 & Hn2 & E). assert (n2 = n') as -> by congruence. pose proof E as E0. apply strip_eq in E as (E1 & E2 & E3 & E4 & E5 & E6 & _).
    assert (Had : admissible (n_joint n') p <-> admissible (n_joint n) p) by (unfold admissible, movable, within_limits; rewrite E2, E5; reflexivity).
    assert (Herr : forall e, snd (joint_set (n_joint n) p) = Err e -> forall e', snd (joint_set (n_joint n') p) = Err e' -> e' = e).
    { intros e H e' H'. unfold joint_set, is_movable in *. rewrite E1, E2, E5 in H'. repeat case_match; cbn in *; congruence. }
    destruct (run_set_plain t h nx a n p Hn Hm) as [[Ha1 Hr]|(e & Ha1 & He & Hr)];
      destruct (run_set_plain t' h' nx' a n' p Hn' Hm') as [[Ha2 Hr']|(e' & Ha2 & He' & Hr')]; try tauto; rewrite Hr, Hr'.
    - apply alike_done; [eapply frozen_good; [eapply move1_frozen; exact Hn|exact Hg]|]. intros b.
      destruct (decide (b = a)) as [->|Hb]; [rewrite !lookup_insert; cbn; f_equal; apply move1_respects; exact E0|rewrite !lookup_insert_ne by auto; apply Hu].
    - rewrite (Herr e He e' He'). apply alike_done; assumption.
  Qed.
  Lemma st_set ps : steady (set_joint_positions arm ps).
  Proof.
    unfold set_joint_positions. case_match; [|apply st_ret || apply st_panic].
    assert (Hl : forall ap, ap ∈ zip (c_movable arm) ps -> fst ap ∈ c_movable arm).
    { intros ap Hap. eapply zip_fst_sub. apply elem_of_list_In, in_map, elem_of_list_In. exact Hap. }
    revert Hl. generalize (zip (c_movable arm) ps) as l. induction l as [|ap l IH]; intros Hl; cbn [forM_try]; [apply st_ret|].
    apply st_bind; [apply st_set_one, Hl; set_solver|]. intros [?|?]; [apply IH; intros; apply Hl; set_solver|apply st_ret].
  Qed.

  (** ** the solver *)
  Lemma st_one_loop ovf la sv target ops idx : steady (solve_one_loop_with_constraints ovf la sv arm target ops idx).
  Proof.
    unfold solve_one_loop_with_constraints. apply st_bind; [apply st_positions|]. intros orig. apply st_bind; [apply st_usize_sub|]. intros av.
    apply st_bind; [apply st_end|]. intros t_n. apply st_bind; [apply st_jacobian|]. intros J. apply st_bind; [apply st_remove_rows|]. intros J2.
    apply st_bind; [apply st_remove_columns|]. intros cols. apply st_bind; [apply st_new_positions|]. intros [ps|e]; [|apply st_ret].
    apply st_bind; [apply st_clamped|]. intros _. apply st_bind; [apply st_end|]. intros. apply st_ret.
  Qed.
  Lemma st_loop ovf la sv target ops idx orig n : forall last, steady (ik_loop ovf la sv arm target ops idx orig n last).
  Proof.
    induction n as [|n IH]; intros last; cbn [ik_loop].
    - apply st_bind; [apply st_set|]. intros [x|e]; [|apply st_ret]. apply st_bind; [apply st_expect|]. intros. apply st_ret.
    - apply st_bind; [apply st_one_loop|]. intros [d|e]; [|apply st_ret]. destruct (reached _ _); [|apply IH].
      apply st_bind; [apply st_positions|]. intros ps. apply st_bind; [apply st_clamped|]. intros. apply st_ret.
  Qed.
  Lemma st_solve ovf la sv target c : steady (solve_with_constraints ovf la sv arm target c).
  Proof.
    unfold solve_with_constraints, solve_with_constraints_internal. apply st_bind; [apply st_positions|]. intros orig. apply st_bind.
    - apply st_bind; [apply st_positions|]. intros o. apply st_bind; [apply st_usize_sub|]. intros av. case_match; [apply st_ret|].
      apply st_bind; [apply st_ignored|]. intros [idx|e]; [apply st_loop|apply st_ret].
    - intros re. case_match; [|apply st_ret]. apply st_bind; [apply st_set|]. intros [x|e]; apply st_ret.
  Qed.

  (** ** the rest of the queries *)
  Lemma Forall2_world_fun h l ws ws' : Forall2 (world h) l ws -> Forall2 (world h) l ws' -> ws' = ws.
  Proof.
    intros H. revert ws'. induction H as [|a w l ws Hw Hr IH]; intros ws' H'; inversion H' as [|? w' ? l' Hw' Hr']; subst; f_equal; auto.
    eapply world_fun; eauto.
  Qed.
  Lemma st_update : steady (update_transforms arm).
  Proof.
    intros t t' h h' nx nx' Hg Hu. pose proof (unch_good _ _ Hu Hg) as Hg'. pose proof Hg as (_ & Hl & Hp & _). pose proof Hg' as (_ & Hl' & Hp' & _).
    destruct (update_transforms_lemma t h nx arm Hl Hp) as (ws & k & Hr & Hw & _). destruct (update_transforms_lemma t' h' nx' arm Hl' Hp') as (ws' & k' & Hr' & Hw' & _).
    destruct (update_transforms_unch _ _ _ _ _ _ Hl Hr) as (k1 & Ek & Hk). destruct (update_transforms_unch _ _ _ _ _ _ Hl' Hr') as (k1' & Ek' & Hk').
    apply (f_equal heap) in Ek, Ek'. cbn in Ek, Ek'. subst k1 k1'. rewrite Hr, Hr'.
    assert (ws' = ws) as ->.
    { eapply Forall2_world_fun; [|exact Hw']. eapply Forall2_impl; [exact Hw|]. intros a w. apply unch_world. exact Hu. }
    apply alike_done; [eapply unch_good; [exact Hk|exact Hg]|]. eapply unch_trans; [apply unch_sym; exact Hk|]. eapply unch_trans; [exact Hu|exact Hk'].
  Qed.
End Hist.
