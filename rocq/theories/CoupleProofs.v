(** * Arms with mimic joints *)
From Coq Require Import String.
From stdpp Require Import gmap.
From Verif Require Import Scalar Geometry Joint Link Prog NodeM ChainM FuncsM IkM RunLemmas SpecJoint SpecNode SpecGraph NodeProofs
  SpecChain ChainProofs SpecFK FKProofs IkLookup SpecIk IkProofs SpecCouple.

Section Couple.
  Context {T : Type} `{Sc : Scalar T}.
  Implicit Types (h : gmap nat (node T)).

  Lemma moved_bare n p n' : node_moved n p n' -> bare n' = bare n /\ j_position (n_joint n') = p.
  Proof.
    intros ((E1 & E2 & E3 & E4 & E5 & E6 & E7 & E8) & H2 & H3 & H4 & H5 & H6 & H7). split; [|assumption].
    apply bare_eq. repeat split; assumption.
  Qed.
  Lemma frozen_mimic_wf h h' : frozen h h' -> mimic_wf h -> mimic_wf h'.
  Proof.
    intros H Hwf a n' c Hn' Hc. destruct (frozen_at _ _ _ _ (frozen_sym _ _ H) Hn') as (n & Hn & E). apply bare_eq in E. red in E. destruct_and!.
    destruct (Hwf a n c Hn) as (cn & Hcn & Hq1 & Hq2); [congruence|]. destruct (frozen_at _ _ _ _ H Hcn) as (cn' & Hcn' & E). apply bare_eq in E. red in E. destruct_and!.
    exists cn'. split; [assumption|]. split; congruence.
  Qed.
  Lemma frozen_free h h' a : frozen h h' -> free_node h a <-> free_node h' a.
  Proof.
    assert (G : forall h h', frozen h h' -> free_node h a -> free_node h' a).
    { clear. intros h h' H (n & Hn & E0). destruct (frozen_at _ _ _ _ H Hn) as (n' & Hn' & E). apply bare_eq in E. red in E. destruct_and!. exists n'. split; [assumption|congruence]. }
    intros H. split; apply G; [assumption|]. apply frozen_sym. assumption.
  Qed.
  Lemma frozen_drives h h' a c : frozen h h' -> drives h a c <-> drives h' a c.
  Proof.
    assert (G : forall h h', frozen h h' -> drives h a c -> drives h' a c).
    { clear. intros h h' H (n & Hn & E0). destruct (frozen_at _ _ _ _ H Hn) as (n' & Hn' & E). apply bare_eq in E. red in E. destruct_and!. exists n'. split; [assumption|congruence]. }
    intros H. split; apply G; [assumption|]. apply frozen_sym. assumption.
  Qed.
  Lemma driven_not_free h a c : mimic_wf h -> drives h a c -> ~ free_node h c.
  Proof. intros Hwf (n & Hn & Hc) (m & Hm & E). destruct (Hwf a n c Hn Hc) as (cn & Hcn & [w Hw] & _). congruence. Qed.

  (** what one successful [set_joint_position] does *)
  Definition target_of h (c : nat) (p q : T) : Prop := exists cn m, h !! c = Some cn /\ n_mimic cn = Some m /\ q = follow_position m p.
  Lemma set_one t h nx a p s : mimic_wf h -> is_Some (h !! a) ->
    run t (node_set_joint_position a p) (quiet h nx) = Done (Ok tt) s ->
    exists h', s = quiet h' nx /\ frozen h h' /\
      (free_node h a -> position_at h' a = Some p /\ forall c, drives h a c -> exists q, target_of h c p q /\ position_at h' c = Some q) /\
      (forall b, ~ (free_node h a /\ (b = a \/ drives h a b)) -> h' !! b = h !! b).
  Proof.
    intros Hwf [n Hn] E. destruct (n_mimic_parent n) as [w|] eqn:Hm.
    - rewrite (set_position_mimic_child_lemma t h nx a n w p Hn Hm) in E. injection E as <-. exists h. split; [reflexivity|]. split; [apply frozen_refl|]. split; [|reflexivity].
      intros (n0 & Hn0 & E0). congruence.
    - destruct (set_position_ok_lemma t h nx a n p s Hwf Hn Hm E) as (h' & -> & (n' & Hn' & Hmv) & Hc & Ho). exists h'. split; [reflexivity|].
      assert (Ff : frozen h h').
      { intros b. destruct (decide (b = a)) as [->|Hb]; [rewrite Hn, Hn'; cbn; f_equal; apply (moved_bare _ _ _ Hmv)|].
        destruct (decide (b ∈ n_mimic_children n)) as [Hin|Hin]; [|rewrite Ho by assumption; reflexivity].
        destruct (Hc b Hin) as (cn & m & cn' & Hcn & _ & Hcn' & Hmc). rewrite Hcn, Hcn'. cbn. f_equal. apply (moved_bare _ _ _ Hmc). }
      split; [exact Ff|]. split.
      + intros _. split; [unfold position_at; rewrite Hn'; f_equal; apply (moved_bare _ _ _ Hmv)|].
        intros c (n0 & Hn0 & Hin). assert (n0 = n) as -> by congruence. destruct (Hc c Hin) as (cn & m & cn' & Hcn & Hcm & Hcn' & Hmc).
        exists (follow_position m p). split; [exists cn, m; auto|]. unfold position_at. rewrite Hcn'. f_equal. apply (moved_bare _ _ _ Hmc).
      + intros b Hb. apply Ho; [intros ->|intros Hin]; apply Hb; (split; [exists n; auto|]); [left; reflexivity|right; exists n; auto].
  Qed.
  Lemma frozen_target h h' c p q : frozen h h' -> target_of h c p q -> target_of h' c p q.
  Proof. intros H (cn & m & Hcn & Hm & ->). destruct (frozen_at _ _ _ _ H Hcn) as (cn' & Hcn' & E). apply bare_eq in E. red in E. destruct_and!. exists cn', m. split; [assumption|]. split; [congruence|reflexivity]. Qed.
  Lemma target_fun h c p q q' : target_of h c p q -> target_of h c p q' -> q = q'.
  Proof. intros (cn & m & Hcn & Hm & ->) (cn' & m' & Hcn' & Hm' & ->). congruence. Qed.

  Lemma set_each t nx l : forall h s, mimic_wf h -> NoDup l.*1 -> one_driver h l.*1 -> all_live h l.*1 ->
    run t (forM_try (fun ap => node_set_joint_position (fst ap) (snd ap)) l) (quiet h nx) = Done (Ok tt) s ->
    exists h', s = quiet h' nx /\ frozen h h' /\
      (forall a p, (a, p) ∈ l -> free_node h a -> position_at h' a = Some p /\ forall c, drives h a c -> exists q, target_of h c p q /\ position_at h' c = Some q) /\
      (forall b, ~ (exists a, a ∈ l.*1 /\ free_node h a /\ (b = a \/ drives h a b)) -> h' !! b = h !! b).
  Proof.
    induction l as [|[a p] l IH]; intros h s Hwf Hnd Hone Hl E; cbn [forM_try fst snd] in E.
    - injection E as <-. exists h. split; [reflexivity|]. split; [apply frozen_refl|]. split; [|reflexivity]. intros a p Hin. inversion Hin.
    - cbn in Hnd, Hone, Hl. apply NoDup_cons in Hnd as [Hna Hnd]. apply run_bind_inv in E as ([[]|e] & s1 & E1 & E); [|discriminate].
      destruct (set_one t h nx a p s1 Hwf) as (h1 & -> & Ff & Hp & Ho); [apply Hl; set_solver|exact E1|].
      destruct (IH h1 s) as (h2 & -> & Ff2 & Hp2 & Ho2); [eapply frozen_mimic_wf; eauto|assumption| | |exact E|].
      { intros x y c Hx Hy H1 H2 H3 H4. apply (Hone x y c); [set_solver|set_solver| | | |]; try (eapply frozen_free; eassumption); eapply frozen_drives; eassumption. }
      { eapply frozen_live; [eassumption|]. intros b Hb. apply Hl. set_solver. }
      exists h2. split; [reflexivity|]. split; [eapply frozen_trans; eauto|]. split.
      + intros b q Hin Hfr. apply elem_of_cons in Hin as [Hin|Hin].
        * injection Hin as -> ->. destruct (Hp Hfr) as [Hpa Hpc]. split.
          -- unfold position_at in *. rewrite Ho2; [exact Hpa|]. intros (x & Hx & Hxf & [->|Hxd]); [exact (Hna Hx)|].
             apply (frozen_drives h h1 x a Ff) in Hxd. exact (driven_not_free h x a Hwf Hxd Hfr).
          -- intros c Hc. destruct (Hpc c Hc) as (r & Hr & Hrc). exists r. split; [exact Hr|]. unfold position_at in *. rewrite Ho2; [exact Hrc|].
             intros (x & Hx & Hxf & [->|Hxd]).
             ++ apply (frozen_free h h1 x Ff) in Hxf. exact (driven_not_free h a x Hwf Hc Hxf).
             ++ apply (frozen_free h h1 x Ff) in Hxf. apply (frozen_drives h h1 x c Ff) in Hxd. apply Hna.
                rewrite (Hone a x c); [exact Hx|set_solver|set_solver|assumption|assumption|assumption|assumption].
        * destruct (Hp2 b q Hin) as [Hb1 Hb2]; [apply (frozen_free h h1 b Ff); exact Hfr|]. split; [exact Hb1|].
          intros c Hc. destruct (Hb2 c) as (r & Hr & Hrc); [apply (frozen_drives h h1 b c Ff); exact Hc|]. exists r. split; [|exact Hrc]. eapply frozen_target; [apply frozen_sym; exact Ff|exact Hr].
      + intros b Hb. rewrite Ho2, Ho; [reflexivity| |].
        * intros [Hf Hd]. apply Hb. exists a. cbn. split; [set_solver|]. auto.
        * intros (x & Hx & Hxf & Hd). apply Hb. exists x. cbn. split; [set_solver|]. split; [apply (frozen_free h h1 x Ff); exact Hxf|].
          destruct Hd as [->|Hd]; [left; reflexivity|right; apply (frozen_drives h h1 x b Ff); exact Hd].
  Qed.

  (** restoring: every value written is the one of [h] *)
  Lemma restore_one t h h' nx l a p : coupled h l -> frozen h h' -> a ∈ l -> position_at h a = Some p -> admissible_at h a p ->
    exists h2, run t (node_set_joint_position a p) (quiet h' nx) = Done (Ok tt) (quiet h2 nx) /\ frozen h h2 /\
      (forall b, position_at h2 b = position_at h' b \/ position_at h2 b = position_at h b) /\
      (free_node h a -> position_at h2 a = position_at h a /\ forall c, drives h a c -> position_at h2 c = position_at h c).
  Proof.
    intros (Hwf & Hst & _) Ff Ha Hp Hadm. pose proof (frozen_mimic_wf _ _ Ff Hwf) as Hwf'.
    unfold position_at in Hp. destruct (h !! a) as [n|] eqn:Hn; [|discriminate]. injection Hp as Hp.
    destruct (frozen_at _ _ _ _ Ff Hn) as (n' & Hn' & E). pose proof E as E'. apply bare_eq in E'. red in E'. destruct_and!.
    assert (Hok : exists s, run t (node_set_joint_position a p) (quiet h' nx) = Done (Ok tt) s).
    { destruct (n_mimic_parent n') as [w|] eqn:Hm.
      - exists (quiet h' nx). eapply set_position_mimic_child_lemma; eauto.
      - apply (set_position_ok_iff_lemma t h' nx a n' p Hwf' Hn' Hm). split.
        + destruct (frozen_adm _ _ _ _ Ff Hadm) as (n0 & Hn0 & Hx). congruence.
        + intros c j q Hc (cn' & m & Hcn' & Hcm & -> & ->).
          destruct (Hst a c p Ha) as (cn & m' & Hcn & Hcm' & Hpos & Hac); [exists n; split; [assumption|congruence]|exists n; split; [assumption|congruence]|unfold position_at; rewrite Hn; congruence|].
          destruct (frozen_at _ _ _ _ Ff Hcn) as (cn0 & Hcn0 & Ec). assert (cn0 = cn') as -> by congruence. apply bare_eq in Ec. red in Ec. destruct_and!.
          assert (m' = m) as -> by congruence. rewrite <- Hpos. unfold admissible, movable, within_limits in *.
          destruct Hac as [Hac1 Hac2]. split; [congruence|]. intros r Hr. apply Hac2. congruence. }
    destruct Hok as [s Hs]. destruct (set_one t h' nx a p s Hwf') as (h2 & -> & Ff2 & Hpa & Ho); [eauto|exact Hs|].
    exists h2. split; [exact Hs|]. split; [eapply frozen_trans; eauto|].
    assert (Hchild : forall c, free_node h a -> drives h a c -> position_at h2 c = position_at h c).
    { intros c Hfr Hd. destruct Hpa as [_ Hpc]; [apply (frozen_free _ _ _ Ff); exact Hfr|].
      destruct (Hpc c) as (q & Hq & ->); [apply (frozen_drives _ _ _ _ Ff); exact Hd|].
      destruct (Hst a c p Ha Hfr Hd) as (cn & m' & Hcn & Hcm' & Hpos & _); [unfold position_at; rewrite Hn; congruence|].
      unfold position_at. rewrite Hcn. f_equal. rewrite Hpos. eapply target_fun; [eapply frozen_target; [apply frozen_sym; exact Ff|exact Hq]|]. exists cn, m'. auto. }
    assert (Hself : free_node h a -> position_at h2 a = position_at h a).
    { intros Hfr. destruct Hpa as [-> _]; [apply (frozen_free _ _ _ Ff); exact Hfr|]. unfold position_at. rewrite Hn. congruence. }
    split; [|intros Hfr; split; [auto|intros c Hc; auto]].
    intros b. destruct (n_mimic_parent n) as [w|] eqn:Hm.
    - left. unfold position_at. rewrite Ho; [reflexivity|]. intros [Hfr _]. apply (frozen_free _ _ _ Ff) in Hfr. destruct Hfr as (n0 & Hn0 & E0). congruence.
    - assert (Hfr : free_node h a) by (exists n; auto).
      destruct (decide (b = a)) as [->|Hb]; [right; auto|]. destruct (decide (b ∈ n_mimic_children n)) as [Hin|Hin].
      + right. apply Hchild; [assumption|]. exists n. auto.
      + left. unfold position_at. rewrite Ho; [reflexivity|]. intros [_ [->|Hd]]; [congruence|]. apply (frozen_drives _ _ _ _ Ff) in Hd. destruct Hd as (n0 & Hn0 & Hc). apply Hin. congruence.
  Qed.
  Lemma restore_each t h nx l : coupled h l -> forall zs h',
    (forall a p, (a, p) ∈ zs -> a ∈ l /\ position_at h a = Some p /\ admissible_at h a p) -> frozen h h' ->
    exists h2, run t (forM_try (fun ap => node_set_joint_position (fst ap) (snd ap)) zs) (quiet h' nx) = Done (Ok tt) (quiet h2 nx) /\ frozen h h2 /\
      (forall b, position_at h2 b = position_at h' b \/ position_at h2 b = position_at h b) /\
      (forall a p, (a, p) ∈ zs -> free_node h a -> position_at h2 a = position_at h a /\ forall c, drives h a c -> position_at h2 c = position_at h c).
  Proof.
    intros Hco. induction zs as [|[a p] zs IH]; intros h' Hz Ff.
    - exists h'. split; [reflexivity|]. split; [assumption|]. split; [auto|]. intros a p Hin. inversion Hin.
    - destruct (Hz a p) as (Ha & Hp & Hadm); [left|].
      destruct (restore_one t h h' nx l a p Hco Ff Ha Hp Hadm) as (h1 & Hr & Ff1 & Hall1 & Hs1).
      destruct (IH h1) as (h2 & Hr2 & Ff2 & Hall2 & Hs2); [intros; apply Hz; right; assumption|exact Ff1|].
      exists h2. cbn [forM_try fst snd]. rewrite run_bind, Hr. cbn [obind]. split; [exact Hr2|]. split; [exact Ff2|]. split.
      + intros b. destruct (Hall2 b) as [E|E]; [|auto]. rewrite E. apply Hall1.
      + intros b q Hin Hfr. apply elem_of_cons in Hin as [Hin|Hin]; [|eapply Hs2; eauto]. injection Hin as -> ->. destruct (Hs1 Hfr) as [E1 E2]. split.
        * destruct (Hall2 a) as [E|E]; congruence.
        * intros c Hc. specialize (E2 c Hc). destruct (Hall2 c) as [E|E]; congruence.
  Qed.
  Lemma restore_coupled t h h' nx arm orig : coupled h (c_movable arm) -> chain_of h (c_nodes arm) arm -> inside_limits h (c_movable arm) ->
    map Some orig = map (position_at h) (c_movable arm) -> length orig = c_dof arm -> frozen h h' -> offm (c_movable arm) h h' ->
    exists h2, run t (set_joint_positions arm orig) (quiet h' nx) = Done (Ok tt) (quiet h2 nx) /\ unch h h2.
  Proof.
    intros Hco Hc Hin Hpos Hlen Ff Ho.
    pose proof (start_admissible h arm orig Hc Hin Hpos) as Hadm.
    assert (Hd : c_dof arm = length (c_movable arm)) by (destruct Hc as (_ & -> & ->); reflexivity).
    destruct (restore_each t h nx (c_movable arm) Hco (zip (c_movable arm) orig) h') as (h2 & Hr & Ff2 & Hall & Hs); [|assumption|].
    { intros a p Hz. apply elem_of_list_lookup in Hz as (i & Hz). apply lookup_zip_with_Some in Hz as (x & y & Exy & Hx & Hy). injection Exy as -> ->.
      destruct (Hadm i x y Hx Hy). split; [eapply elem_of_list_lookup_2; eauto|auto]. }
    exists h2. split; [unfold set_joint_positions; rewrite decide_True by assumption; exact Hr|].
    assert (Hfree : forall a, a ∈ c_movable arm -> free_node h a -> position_at h2 a = position_at h a /\ forall c, drives h a c -> position_at h2 c = position_at h c).
    { intros a Ha Hfr. apply elem_of_list_lookup in Ha as (i & Hi). destruct (lookup_lt_is_Some_2 orig i) as [p Hpi]; [rewrite Hlen, Hd; eapply lookup_lt_Some; eauto|].
      apply (Hs a p); [|exact Hfr]. eapply zip_lookup; eauto. }
    assert (Hp : forall b, position_at h2 b = position_at h b).
    { intros b. destruct (decide (b ∈ c_movable arm)) as [Hb|Hb].
      - destruct Hco as (_ & _ & Hco). destruct (Hco b Hb) as [Hfr|(a & Ha & Hfr & Hdr)]; [apply Hfree; assumption|]. apply (Hfree a Ha Hfr). exact Hdr.
      - destruct (Hall b) as [E|E]; [|exact E]. rewrite E. specialize (Ho b Hb). unfold position_at. destruct (h !! b) as [n|], (h' !! b) as [n'|]; try discriminate; [|reflexivity].
        cbn in Ho. apply Some_inj in Ho. apply strip_eq in Ho. red in Ho. destruct_and!. congruence. }
    intros b. specialize (Hp b). specialize (Ff2 b). unfold position_at in Hp. destruct (h !! b), (h2 !! b); try discriminate; [|reflexivity].
    cbn in *. f_equal. apply strip_bare_pos; congruence.
  Qed.
  Lemma ik_loop_err_coupled t ovf la sv nx arm target ops idx orig h n : coupled h (c_movable arm) -> chain_of h (c_nodes arm) arm -> all_live h (c_nodes arm) ->
    inside_limits h (c_movable arm) -> map Some orig = map (position_at h) (c_movable arm) -> length orig = c_dof arm ->
    forall h' last e s, frozen h h' -> offm (c_movable arm) h h' ->
    run t (ik_loop ovf la sv arm target ops idx orig n last) (quiet h' nx) = Done (Err e) s ->
    exists h2, s = quiet h2 nx /\ frozen h h2 /\ offm (c_movable arm) h h2.
  Proof.
    intros Hco Hc Hl Hin Hpos Hlen. induction n as [|n IH]; intros h' last e s Ff Ho E; cbn [ik_loop] in E.
    - destruct (restore_coupled t h h' nx arm orig Hco Hc Hin Hpos Hlen Ff Ho) as (h2 & Hr & Hu). rewrite run_bind, Hr in E. cbn [obind] in E.
      apply run_bind_inv in E as (lr & s1 & El & E). pose proof (inert_expect _ _ _ _ _ _ El) as ->. injection E as _ <-.
      exists h2. split; [reflexivity|]. split; [apply unch_frozen|apply unch_offm]; assumption.
    - destruct (chain_mov_step h h' arm Ff Hc Hl) as [Hc' Hl']. apply run_bind_inv in E as ([diff|e'] & s1 & E1 & E).
      + apply one_loop_ok in E1 as (h1 & w & -> & Hf & Ho1 & Hw & ->); [|assumption|assumption].
        destruct (reached _ _) eqn:Hre.
        * apply run_bind_inv in E as (ps & s1 & _ & E). apply run_bind_inv in E as (u & s2 & _ & E). discriminate.
        * apply IH in E; [exact E|eapply frozen_trans; eauto|eapply offm_trans; eauto].
      + destruct (one_loop_done _ _ _ _ _ _ _ _ _ _ _ _ Hc' Hl' E1) as (h1 & -> & Hu). injection E as _ <-.
        exists h1. split; [reflexivity|]. split; [eapply frozen_trans; [eassumption|apply unch_frozen; assumption]|eapply offm_trans; [eassumption|apply unch_offm; assumption]].
  Qed.
  Lemma solve_err_coupled t ovf la sv h nx arm target c e s :
    chain_of h (c_nodes arm) arm -> all_live h (c_nodes arm) -> coupled h (c_movable arm) -> inside_limits h (c_movable arm) ->
    run t (solve_with_constraints ovf la sv arm target c) (quiet h nx) = Done (Err e) s ->
    exists h', s = quiet h' nx /\ heaps same_but_caches h h'.
  Proof.
    intros Hc Hl Hco Hin E. unfold solve_with_constraints in E.
    destruct (run_positions t h nx arm _ Hc) as (orig & Horig & Hlen & Hpos). rewrite run_bind, Horig in E. cbn [obind] in E.
    apply run_bind_inv in E as (re & s1 & E1 & E). destruct re as [[]|e1]; cbn [is_err is_ok negb] in E; [discriminate|].
    assert (exists h1, s1 = quiet h1 nx /\ frozen h h1 /\ offm (c_movable arm) h h1) as (h1 & -> & Hf & Ho).
    { clear E. unfold solve_with_constraints_internal in E1. rewrite run_bind, Horig in E1. cbn [obind] in E1.
      apply run_bind_inv in E1 as (av & s2 & Eav & E1). pose proof (inert_usize_sub _ _ _ _ _ _ _ Eav) as ->.
      destruct (decide _).
      { injection E1 as _ <-. exists h. split; [reflexivity|]. split; [apply frozen_refl|apply offm_refl]. }
      destruct (run_ignored_indices t h nx arm (ignored_joint_names c)) as (ri & Hri & _); [eapply movable_live; eauto|].
      rewrite run_bind, Hri in E1. cbn [obind] in E1. destruct ri as [idx|e2].
      - eapply ik_loop_err_coupled in E1; eauto using frozen_refl, offm_refl.
      - injection E1 as _ <-. exists h. split; [reflexivity|]. split; [apply frozen_refl|apply offm_refl]. }
    destruct (restore_coupled t h h1 nx arm orig Hco Hc Hin Hpos Hlen Hf Ho) as (h2 & Hr & Hu).
    rewrite run_bind, Hr in E. cbn [obind run] in E. injection E as _ <-. exists h2. split; [reflexivity|]. apply unch_heaps. exact Hu.
  Qed.
End Couple.
