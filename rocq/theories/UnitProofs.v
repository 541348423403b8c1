(** * Measuring lengths in another unit *)
From Coq Require Import String Reals Lra Lia NArith.
From stdpp Require Import gmap.
From Verif Require Import Scalar ScalarR Geometry Joint Link Prog NodeM ChainM FuncsM IkM LuM RunLemmas
  SpecJoint SpecNode RangeProofs JointProofs NodeProofs SpecGraph GraphProofs SpecChain ChainProofs
  SpecFK FKProofs VelocityProofs IkLookup SpecIk IkProofs IkProofs2 JacProofs SpecCom ComProofs SpecGeom RGeom LinIk SpecStep SpecUnit UnitLin CacheProofs.
Local Open Scope R_scope.

(** ** poses *)
Lemma rescaled_mul k a b : iso_mul (rescaled k a) (rescaled k b) = rescaled k (iso_mul a b).
Proof. unfold iso_mul, rescaled. cbn [tr rt]. f_equal. rewrite !qrot_turn. destruct (rt a), (tr a), (tr b). gv; ring. Qed.
Lemma rescaled_1 k : rescaled k iso1 = iso1.
Proof. unfold rescaled, iso1. cbn [tr rt]. f_equal. gv; ring. Qed.
Lemma rescaled_product k ts : forall w, product (rescaled k w) (map (rescaled k) ts) = rescaled k (product w ts).
Proof. induction ts as [|t ts IH]; intros w; [reflexivity|]. cbn. rewrite rescaled_mul. apply IH. Qed.
Lemma rescaled_local k j j' : same_joint k j j' -> local_transform j' = rescaled k (local_transform j).
Proof.
  intros (_ & Et & Ep & _ & Eo). unfold local_transform. rewrite Et, Ep, Eo, <- rescaled_mul. f_equal. unfold unit_of.
  destruct (j_type j) as [|ax|ax]; cbn [joint_transform].
  - symmetry. apply rescaled_1.
  - unfold rescaled. cbn [tr rt]. rewrite Rmult_1_l. f_equal. gv; ring.
  - unfold rescaled. cbn [tr rt]. f_equal. destruct ax. gv; ring.
Qed.
Lemma rescaled_jcol k p w ty col : k <> 0 -> jcol p w ty = Some col ->
  jcol (times k p) (rescaled k w) ty = Some (rescaled_column (row_units k) (unit_of k ty) col).
Proof.
  intros Hk. unfold jcol, rescaled_column, row_units, unit_of. destruct ty as [|ax|ax]; [discriminate| |]; cbn [rescaled tr rt]; intros E; injection E as <-; f_equal; cbn.
  - rewrite Rinv_1. repeat (apply (f_equal2 cons); [cbn; ring|]). reflexivity.
  - repeat (apply (f_equal2 cons); [cbn; field; exact Hk|]). reflexivity.
Qed.

Section Unit.
  Variables (k : R) (arm : chain) (ks : list R).
  Hypothesis k_pos : 0 < k.
  Implicit Types (h : gmap nat (node R)).

  Lemma unit_pos ty : 0 < unit_of k ty.
  Proof. destruct ty; cbn; lra. Qed.
  Definition ok h : Prop := good arm h /\ ks = units k h arm.

  (** ** the robot in the other unit *)
  Lemma rel_at h h' a n : same_robot k h h' -> h !! a = Some n -> exists n', h' !! a = Some n' /\ same_node k n n'.
  Proof. intros H Hn. specialize (H a). rewrite Hn in H. destruct (h' !! a) as [n'|]; [eauto|contradiction]. Qed.
  Lemma rel_back h h' a n' : same_robot k h h' -> h' !! a = Some n' -> exists n, h !! a = Some n /\ same_node k n n'.
  Proof. intros H Hn. specialize (H a). rewrite Hn in H. destruct (h !! a) as [n|]; [eauto|contradiction]. Qed.
  Lemma rel_live h h' a : same_robot k h h' -> is_Some (h' !! a) <-> is_Some (h !! a).
  Proof. intros H. specialize (H a). destruct (h !! a), (h' !! a); try contradiction; split; eauto; intros [? ?]; discriminate. Qed.
  Lemma rel_live_parent h h' a p : same_robot k h h' -> live_parent h' a p <-> live_parent h a p.
  Proof.
    intros H. unfold live_parent, has_parent. rewrite (rel_live h h' p H). split; intros [(n & Hn & Hp) Hl]; (split; [|exact Hl]).
    - destruct (rel_back _ _ _ _ H Hn) as (m & Hm & E & _). exists m. split; [exact Hm|congruence].
    - destruct (rel_at _ _ _ _ H Hn) as (m & Hm & E & _). exists m. split; [exact Hm|congruence].
  Qed.
  Lemma rel_no_parent h h' a : same_robot k h h' -> no_parent h a -> no_parent h' a.
  Proof. intros H [Hl Hn]. split; [apply (rel_live _ _ _ H); exact Hl|]. intros p Hp. apply (Hn p). apply (rel_live_parent _ _ _ _ H). exact Hp. Qed.
  Lemma rel_path h h' a l : same_robot k h h' -> path_up h a l -> path_up h' a l.
  Proof.
    intros H. induction 1; [constructor; eapply rel_no_parent; eauto|econstructor; [apply (rel_live_parent _ _ _ _ H); eassumption|assumption]].
  Qed.
  Lemma rel_movable h h' a : same_robot k h h' -> node_movable h' a = node_movable h a.
  Proof.
    intros H. specialize (H a). unfold node_movable. destruct (h !! a) as [n|], (h' !! a) as [n'|]; try contradiction; [|reflexivity].
    destruct H as (_ & _ & _ & (_ & E & _) & _). rewrite E. reflexivity.
  Qed.
  Lemma rel_unit h h' a : same_robot k h h' -> unit_at k h' a = unit_at k h a.
  Proof.
    intros H. specialize (H a). unfold unit_at. destruct (h !! a) as [n|], (h' !! a) as [n'|]; try contradiction; [|reflexivity].
    destruct H as (_ & _ & _ & (_ & E & _) & _). rewrite E. reflexivity.
  Qed.
  Lemma rel_good h h' : same_robot k h h' -> good arm h -> good arm h'.
  Proof.
    intros H ((H1 & H2 & H3) & H4 & H5 & H6 & H7). split; [|split; [|split]].
    - assert (E : List.filter (node_movable h') (c_nodes arm) = List.filter (node_movable h) (c_nodes arm)) by (apply filter_ext; intros a; apply rel_movable; exact H).
      split; [exact H1|]. rewrite E. split; assumption.
    - intros a Ha. apply (rel_live _ _ _ H), H4, Ha.
    - intros l1 a l2 p E Hp. eapply H5; [exact E|]. apply (rel_live_parent _ _ _ _ H). exact Hp.
    - split; [exact H6|]. intros a Ha. destruct (H7 a Ha) as (n & Hn & Hm1 & Hm2). destruct (rel_at _ _ _ _ H Hn) as (n' & Hn' & _ & E1 & E2 & _).
      exists n'. split; [exact Hn'|]. split; congruence.
  Qed.
  Lemma rel_ok h h' : same_robot k h h' -> ok h -> ok h'.
  Proof. intros H [Hg Hk]. split; [eapply rel_good; eauto|]. rewrite Hk. unfold units. apply map_ext. intros a. symmetry. apply rel_unit. exact H. Qed.
  Lemma frozen_unit h h' a : frozen h h' -> unit_at k h' a = unit_at k h a.
  Proof.
    intros H. unfold unit_at. destruct (h !! a) as [n|] eqn:Hn.
    - destruct (frozen_at _ _ _ _ H Hn) as (n' & -> & E). apply bare_eq in E as (_ & -> & _). reflexivity.
    - destruct (h' !! a) as [n'|] eqn:Hn'; [|reflexivity]. destruct (frozen_at _ _ _ _ (frozen_sym _ _ H) Hn') as (m & Hm & _). congruence.
  Qed.
  Lemma frozen_ok h h' : frozen h h' -> ok h -> ok h'.
  Proof. intros H [Hg Hk]. split; [eapply frozen_good; eauto|]. rewrite Hk. unfold units. apply map_ext. intros a. symmetry. apply frozen_unit. exact H. Qed.
  Lemma rel_unch h h' g g' : same_robot k h h' -> unch h g -> unch h' g' -> same_robot k g g'.
  Proof.
    intros H Hu Hu'. apply unch_heaps in Hu, Hu'. intros a. specialize (H a). specialize (Hu a). specialize (Hu' a).
    destruct (h !! a) as [n|], (h' !! a) as [n'|], (g !! a) as [m|], (g' !! a) as [m'|]; try contradiction; [|exact I].
    destruct Hu as (a1 & a2 & a3 & _ & a5 & a6 & a7 & _ & a9 & a10 & _ & a12). destruct Hu' as (b1 & b2 & b3 & _ & b5 & b6 & b7 & _ & b9 & b10 & _ & b12).
    unfold same_node, same_joint in *. rewrite a1, a2, a3, a5, a6, a7, a9, a10, a12, b1, b2, b3, b5, b6, b7, b9, b10, b12. exact H.
  Qed.

  (** ** related programs *)
  Definition sim {A} (Q : A -> A -> Prop) (p p' : prog R A) : Prop :=
    forall t t' h h' nx nx', ok h -> same_robot k h h' ->
      same_outcome k Q nx nx' (run t p (quiet h nx)) (run t' p' (quiet h' nx')) /\
      forall x s, run t p (quiet h nx) = Done x s -> ok (heap s).
  Lemma sim_done {A} (Q : A -> A -> Prop) nx nx' (x x' : A) h h' : Q x x' -> ok h -> same_robot k h h' ->
    same_outcome k Q nx nx' (Done x (quiet h nx)) (Done x' (quiet h' nx')) /\
    forall y s, Done x (quiet h nx) = Done y s -> ok (heap s).
  Proof. intros HQ Hg Hu. split; [split; [exact HQ|]; exists h, h'; auto|]. intros y s E. injection E as _ <-. exact Hg. Qed.
  Lemma sim_ret {A} (Q : A -> A -> Prop) x x' : Q x x' -> sim Q (Ret x) (Ret x').
  Proof. intros HQ t t' h h' nx nx' Hg Hu. apply sim_done; assumption. Qed.
  Lemma sim_panic {A} (Q : A -> A -> Prop) m : sim Q (Panic m) (Panic m).
  Proof. intros t t' h h' nx nx' Hg Hu. split; [reflexivity|]. discriminate. Qed.
  Lemma sim_bind {A B} (Q : A -> A -> Prop) (Q' : B -> B -> Prop) p p' f f' :
    sim Q p p' -> (forall x x', Q x x' -> sim Q' (f x) (f' x')) -> sim Q' (bind p f) (bind p' f').
  Proof.
    intros Hp Hf t t' h h' nx nx' Hg Hu. rewrite !run_bind. destruct (Hp t t' h h' nx nx' Hg Hu) as [Ho Hok].
    destruct (run t p (quiet h nx)), (run t' p' (quiet h' nx')); cbn in Ho |- *; try contradiction; [|split; [exact Ho|discriminate]].
    destruct Ho as (HQ & h1 & h1' & -> & -> & Hr). apply Hf; [exact HQ|exact (Hok _ _ eq_refl)|exact Hr].
  Qed.
  Lemma sim_usize ovf a b : sim eq (usize_sub ovf a b) (usize_sub ovf a b).
  Proof. unfold usize_sub. repeat case_match; first [apply sim_ret; reflexivity|apply sim_panic]. Qed.
  Lemma sim_positions : sim (fun ps ps' => length ps = c_dof arm /\ ps' = zip_with Rmult ks ps) (joint_positions arm) (joint_positions arm).
  Proof.
    intros t t' h h' nx nx' Hok Hu. pose proof (rel_ok _ _ Hu Hok) as Hok'. pose proof Hok as ((Hc & _) & Hk). pose proof Hok' as ((Hc' & _) & _).
    destruct (run_positions t h nx arm _ Hc) as (ps & -> & Hl & Hp). destruct (run_positions t' h' nx' arm _ Hc') as (ps' & -> & _ & Hp').
    apply sim_done; [|exact Hok|exact Hu]. split; [exact Hl|]. rewrite Hk. unfold units. clear Hl Hc Hc' Hok Hok' Hk.
    revert ps ps' Hp Hp'. induction (c_movable arm) as [|a m IH]; intros [|p ps] [|p' ps'] Hp Hp'; try discriminate; [reflexivity|].
    cbn in Hp, Hp' |- *. injection Hp as Ep Hp. injection Hp' as Ep' Hp'. f_equal; [|apply IH; assumption].
    specialize (Hu a). unfold position_at in Ep, Ep'. unfold unit_at. destruct (h !! a) as [n|], (h' !! a) as [n'|]; try contradiction; try discriminate.
    destruct Hu as (_ & _ & _ & (_ & _ & E & _) & _). congruence.
  Qed.
  Lemma rel_locals h h' l ts : same_robot k h h' -> Forall2 (local_at h) l ts -> Forall2 (local_at h') l (map (rescaled k) ts).
  Proof.
    intros H. induction 1 as [|a t l ts (n & Hn & ->) Hr IH]; cbn; constructor; [|exact IH].
    destruct (rel_at _ _ _ _ H Hn) as (n' & Hn' & _ & _ & _ & Hj & _). exists n'. split; [exact Hn'|]. symmetry. apply rescaled_local. exact Hj.
  Qed.
  Lemma product_1 ts : product iso1 (map (rescaled k) ts) = rescaled k (product iso1 ts).
  Proof. rewrite <- rescaled_product, rescaled_1. reflexivity. Qed.
  Lemma rel_world h h' a w : same_robot k h h' -> world h a w -> world h' a (rescaled k w).
  Proof.
    intros H (l & ts & Hp & Hts & ->). exists l, (map (rescaled k) ts). split; [eapply rel_path; eauto|].
    split; [eapply rel_locals; eauto|symmetry; apply product_1].
  Qed.
  Lemma sim_end : sim (fun w w' => w' = rescaled k w) (end_transform arm) (end_transform arm).
  Proof.
    intros t t' h h' nx nx' Hok Hu. pose proof Hok as ((_ & Hl & _) & _). destruct (locals_exist h _ Hl) as [ts Hts].
    unfold end_transform. rewrite (run_end_fold t h nx _ ts Hts iso1), (run_end_fold t' h' nx' _ _ (rel_locals _ _ _ _ Hu Hts) iso1).
    apply sim_done; [apply product_1|exact Hok|exact Hu].
  Qed.
  Definition jrel (J J' : mat R) : Prop :=
    m_rows J = 6%nat /\ length (m_cols J) = c_dof arm /\ Forall (fun c => length c = 6%nat) (m_cols J) /\
    J' = Mat 6 (zip_with (rescaled_column (row_units k)) ks (m_cols J)).
  Lemma sim_jacobian : sim jrel (jacobian arm) (jacobian arm).
  Proof.
    intros t t' h h' nx nx' Hok Hu. pose proof (rel_ok _ _ Hu Hok) as Hok'. pose proof Hok as ((Hc & Hl & Hp & _) & Hk). pose proof Hok' as ((Hc' & Hl' & Hp' & _) & _).
    destruct (locals_exist h _ Hl) as [ts Hts].
    destruct (run_jacobian t h nx arm ts (parents_first_order _ _ Hl Hp) Hc Hts) as (cols & h1 & Hr & Hlen & Hcols).
    destruct (run_jacobian t' h' nx' arm _ (parents_first_order _ _ Hl' Hp') Hc' (rel_locals _ _ _ _ Hu Hts)) as (cols' & h1' & Hr' & _ & Hcols').
    destruct (jacobian_done _ _ _ _ _ _ Hl Hr) as (g & Eg & Hg & _ & _ & H6). destruct (jacobian_done _ _ _ _ _ _ Hl' Hr') as (g' & Eg' & Hg' & _).
    apply (f_equal heap) in Eg, Eg'. cbn in Eg, Eg'. subst g g'. rewrite Hr, Hr'.
    apply sim_done; [|eapply frozen_ok; [apply unch_frozen; exact Hg|exact Hok]|eapply rel_unch; eauto].
    split; [reflexivity|]. split; [exact Hlen|]. split; [exact H6|]. cbn [m_cols]. f_equal. rewrite Hk. unfold units. rewrite product_1 in Hcols'. cbn [rescaled tr] in Hcols'.
    assert (Hm : forall a, a ∈ c_movable arm -> a ∈ c_nodes arm).
    { intros a Ha. destruct Hc as (_ & E & _). rewrite E in Ha. apply elem_of_list_In, filter_In in Ha as [Ha _]. apply elem_of_list_In. exact Ha. }
    clear Hlen Hr Hr' H6 Hk. revert cols cols' Hcols Hcols' Hm. generalize (c_movable arm) as m. induction m as [|a m IH]; intros cols cols' H1 H2 Hm.
    - inversion H1; inversion H2; reflexivity.
    - inversion H1 as [|? col ? cols0 H1a H1b]; subst. inversion H2 as [|? col' ? cols0' H2a H2b]; subst. cbn [map zip_with].
      f_equal; [|apply IH; [exact H1b|exact H2b|intros; apply Hm; set_solver]].
      destruct H1a as (n & w & Hn & Hb & E). destruct H2a as (n' & w' & Hn' & Hb' & E').
      assert (Ha : a ∈ c_nodes arm) by (apply Hm; set_solver).
      apply based_world in Hb; [|exact Hp|exact Ha]. apply based_world in Hb'; [|exact Hp'|exact Ha].
      assert (w' = rescaled k w) as -> by (eapply world_fun; [exact Hb'|eapply rel_world; eauto]).
      destruct (rel_at _ _ _ _ Hu Hn) as (n2 & Hn2 & _ & _ & _ & (_ & Et & _) & _). assert (n2 = n') as -> by congruence. rewrite Et in E'.
      assert (k <> 0) as Hk0 by lra. rewrite (rescaled_jcol k _ _ _ _ Hk0 E) in E'. unfold unit_at. rewrite Hn. congruence.
  Qed.

  (** ** the setters *)
  Definition pairs h (l l' : list (nat * R)) : Prop := Forall2 (fun ap ap' => fst ap' = fst ap /\ snd ap' = unit_at k h (fst ap) * snd ap) l l'.
  Lemma frozen_pairs h h' l l' : frozen h h' -> pairs h l l' -> pairs h' l l'.
  Proof. intros H Hp. eapply Forall2_impl; [exact Hp|]. intros ap ap' [E1 E2]. split; [exact E1|]. rewrite (frozen_unit h) by exact H. exact E2. Qed.
  Lemma zip_pairs h m ps : pairs h (zip m ps) (zip m (zip_with Rmult (map (unit_at k h) m) ps)).
  Proof. revert ps. induction m as [|a m IH]; intros [|p ps]; cbn; constructor; [split; reflexivity|apply IH]. Qed.
  Lemma limits_rescaled u r x : 0 < u -> is_valid (Range (u * rmin r) (u * rmax r)) (u * x) = is_valid r x.
  Proof.
    intros Hu. unfold is_valid, sge. cbn [rmin rmax sle RScalar]. f_equal; apply eq_true_iff_eq; rewrite !Rleb_spec; split; intros H; try (apply Rmult_le_compat_l; lra); apply (Rmult_le_reg_l u); lra.
  Qed.
  Lemma clamp_rescaled u r x : 0 < u -> clamp (Range (u * rmin r) (u * rmax r)) (u * x) = u * clamp r x.
  Proof.
    intros Hu. unfold clamp, sgt. cbn [rmin rmax slt RScalar].
    assert (E : forall a b, Rltb (u * a) (u * b) = Rltb a b).
    { intros a b. apply eq_true_iff_eq. rewrite !Rltb_spec. split; intros H; [apply (Rmult_lt_reg_l u); lra|apply Rmult_lt_compat_l; lra]. }
    rewrite !E. repeat case_match; reflexivity.
  Qed.
  Lemma clampF_rel n n' p : same_node k n n' -> same_node k (clampF p n) (clampF (unit_of k (j_type (n_joint n)) * p) n').
  Proof.
    intros (E1 & E2 & E3 & (Ja & Jb & Jc & Jd & Je) & El). destruct n as [p1 p2 j p4 p5 p6 p7], n' as [q1 q2 j' q4 q5 q6 q7]. destruct j as [nm ty ps vl lm og c1 c2], j' as [nm' ty' ps' vl' lm' og' c1' c2'].
    unfold clampF, joint_set_clamped, is_movable. cbn in *. subst. pose proof (unit_pos ty) as Hu. destruct ty; cbn [negb].
    - repeat split; assumption.
    - repeat split; cbn; try assumption. destruct lm as [r|]; cbn; [apply clamp_rescaled; exact Hu|reflexivity].
    - repeat split; cbn; try assumption. destruct lm as [r|]; cbn; [apply clamp_rescaled; exact Hu|reflexivity].
  Qed.
  Lemma alter_rel F F' a h h' : same_robot k h h' -> (forall n n', h !! a = Some n -> same_node k n n' -> same_node k (F n) (F' n')) -> same_robot k (alter F a h) (alter F' a h').
  Proof.
    intros H HF b. destruct (decide (b = a)) as [->|Hb]; [|rewrite !lookup_alter_ne by auto; apply H].
    rewrite !lookup_alter. specialize (H a). destruct (h !! a) as [n|], (h' !! a) as [n'|]; cbn; try contradiction; [|exact I]. apply HF; [reflexivity|exact H].
  Qed.
  Lemma upd_clamp_rel l l' : forall h h', same_robot k h h' -> pairs h l l' -> same_robot k (upd_all clampF h l) (upd_all clampF h' l').
  Proof.
    revert l'. induction l as [|[a p] l IH]; intros l' h h' Hu Hp; inversion Hp as [|? [a' p'] ? l0' [Ea Ep] Hl]; subst; [exact Hu|]. cbn in Ea, Ep. subst a' p'.
    rewrite !upd_all_cons. apply IH.
    - apply alter_rel; [exact Hu|]. intros n n' Hn Hnn. unfold unit_at. rewrite Hn. apply clampF_rel. exact Hnn.
    - eapply frozen_pairs; [|exact Hl]. apply (upd_clamp_frozen [(a, p)] h).
  Qed.
  Lemma sim_clamped ps : sim eq (set_joint_positions_clamped arm ps) (set_joint_positions_clamped arm (zip_with Rmult ks ps)).
  Proof.
    intros t t' h h' nx nx' Hok Hu. pose proof (rel_ok _ _ Hu Hok) as Hok'.
    rewrite (run_clamped t h nx arm ps) by (eapply movable_live; apply Hok). rewrite (run_clamped t' h' nx' arm) by (eapply movable_live; apply Hok').
    apply sim_done; [reflexivity|eapply frozen_ok; [apply upd_clamp_frozen|exact Hok]|]. apply upd_clamp_rel; [exact Hu|].
    rewrite (proj2 Hok). apply zip_pairs.
  Qed.
  Lemma move1_rel n n' p : same_node k n n' -> same_node k (move1 p n) (move1 (unit_of k (j_type (n_joint n)) * p) n').
  Proof.
    intros (E1 & E2 & E3 & (Ja & Jb & Jc & Jd & Je) & El). destruct n as [p1 p2 j p4 p5 p6 p7], n' as [q1 q2 j' q4 q5 q6 q7]. destruct j as [nm ty ps vl lm og c1 c2], j' as [nm' ty' ps' vl' lm' og' c1' c2'].
    cbn in *. subst. repeat split; cbn; assumption.
  Qed.
  Lemma set_rel n n' p : same_node k n n' ->
    same_result k eq (snd (joint_set (n_joint n) p)) (snd (joint_set (n_joint n') (unit_of k (j_type (n_joint n)) * p))).
  Proof.
    intros (_ & _ & _ & (Ja & Jb & Jc & Jd & Je) & _). destruct (n_joint n) as [nm ty ps vl lm og c1 c2], (n_joint n') as [nm' ty' ps' vl' lm' og' c1' c2'].
    cbn in *. subst. unfold joint_set, is_movable. cbn [j_type j_limits j_name]. pose proof (unit_pos ty) as Hu.
    destruct ty as [|ax|ax]; cbn [negb]; [reflexivity| |]; (destruct lm as [r|]; cbn [fmap option_fmap option_map]; [|reflexivity]);
      rewrite (limits_rescaled _ r p Hu); destruct (is_valid r p); cbn; try reflexivity; [exists 1|exists k]; split; auto.
  Qed.
  Lemma admissible_set (j : joint R) p : admissible j p <-> snd (joint_set j p) = Ok tt.
  Proof.
    unfold admissible, movable, within_limits, joint_set, is_movable. destruct (j_type j) as [|ax|ax] eqn:Et; cbn [negb].
    - split; [intros [H _]; congruence|discriminate].
    - destruct (j_limits j) as [r|]; [|split; [reflexivity|intros _; split; [congruence|discriminate]]]. unfold is_valid, sge. split.
      + intros [_ H]. destruct (H r eq_refl) as [-> ->]. reflexivity.
      + intros E. split; [congruence|]. intros r' Er. injection Er as <-. destruct (sle p (rmax r)), (sle (rmin r) p); cbn in E; try discriminate. auto.
    - destruct (j_limits j) as [r|]; [|split; [reflexivity|intros _; split; [congruence|discriminate]]]. unfold is_valid, sge. split.
      + intros [_ H]. destruct (H r eq_refl) as [-> ->]. reflexivity.
      + intros E. split; [congruence|]. intros r' Er. injection Er as <-. destruct (sle p (rmax r)), (sle (rmin r) p); cbn in E; try discriminate. auto.
  Qed.
  Lemma set_list_rel t t' nx nx' l l' : (forall ap, ap ∈ l -> fst ap ∈ c_movable arm) -> forall h h', ok h -> same_robot k h h' -> pairs h l l' ->
    same_outcome k (same_result k eq) nx nx' (run t (forM_try (fun ap => node_set_joint_position (fst ap) (snd ap)) l) (quiet h nx))
      (run t' (forM_try (fun ap => node_set_joint_position (fst ap) (snd ap)) l') (quiet h' nx')) /\
    forall x s, run t (forM_try (fun ap => node_set_joint_position (fst ap) (snd ap)) l) (quiet h nx) = Done x s -> ok (heap s).
  Proof.
    revert l'. induction l as [|[a p] l IH]; intros l' Hin h h' Hok Hu Hp; inversion Hp as [|? [a' p'] ? l0' [Ea Ep] Hl]; subst; [apply sim_done; [reflexivity|assumption|assumption]|].
    cbn in Ea, Ep. subst a' p'. cbn [forM_try]. rewrite !run_bind. cbn [fst snd].
    assert (Ha : a ∈ c_movable arm) by (apply (Hin (a, p)), elem_of_list_here).
    pose proof (rel_ok _ _ Hu Hok) as Hok'.
    destruct (proj2 (proj2 (proj2 (proj2 (proj1 Hok)))) a Ha) as (n & Hn & Hm). destruct (proj2 (proj2 (proj2 (proj2 (proj1 Hok')))) a Ha) as (n' & Hn' & Hm').
    destruct (rel_at _ _ _ _ Hu Hn) as (n2 & Hn2 & Hnn). assert (n2 = n') as -> by congruence.
    unfold unit_at. rewrite Hn. set (u := unit_of k (j_type (n_joint n))). pose proof (set_rel n n' p Hnn) as Hs. fold u in Hs.
    pose proof (admissible_set (n_joint n) p) as A1. pose proof (admissible_set (n_joint n') (u * p)) as A2.
    destruct (run_set_plain t h nx a n p Hn Hm) as [[Ha1 Hr]|(e & Ha1 & He & Hr)];
      destruct (run_set_plain t' h' nx' a n' (u * p) Hn' Hm') as [[Ha2 Hr']|(e' & Ha2 & He' & Hr')]; rewrite Hr, Hr'; cbn [obind].
    - apply IH; [intros ap H; apply Hin, elem_of_list_further, H| | |].
      + eapply frozen_ok; [eapply move1_frozen; exact Hn|exact Hok].
      + intros b. destruct (decide (b = a)) as [->|Hb]; [rewrite !lookup_insert; apply move1_rel; exact Hnn|rewrite !lookup_insert_ne by auto; apply Hu].
      + eapply frozen_pairs; [eapply move1_frozen; exact Hn|exact Hl].
    - exfalso. apply A1 in Ha1. rewrite Ha1, He' in Hs. exact Hs.
    - exfalso. apply A2 in Ha2. rewrite Ha2, He in Hs. exact Hs.
    - apply sim_done; [|exact Hok|exact Hu]. rewrite He, He' in Hs. exact Hs.
  Qed.
  Lemma sim_set ps : length ps = c_dof arm -> length ks = c_dof arm ->
    sim (same_result k eq) (set_joint_positions arm ps) (set_joint_positions arm (zip_with Rmult ks ps)).
  Proof.
    intros Hps Hks t t' h h' nx nx' Hok Hu. unfold set_joint_positions. rewrite zip_with_length, !decide_True by lia.
    apply set_list_rel; [|exact Hok|exact Hu|rewrite (proj2 Hok); apply zip_pairs].
    intros ap Hap. eapply zip_fst_sub. apply elem_of_list_In, in_map, elem_of_list_In. exact Hap.
  Qed.
End Unit.
