(** * The zero and the sense of the joints *)
From Coq Require Import String Reals Lra Lia NArith.
From stdpp Require Import gmap.
From Verif Require Import Scalar ScalarR Geometry Joint Link Prog NodeM ChainM FuncsM IkM LuM RunLemmas
  SpecJoint SpecNode RangeProofs JointProofs NodeProofs SpecGraph GraphProofs SpecChain ChainProofs
  SpecFK FKProofs VelocityProofs IkLookup SpecIk IkProofs IkProofs2 JacProofs SpecCom ComProofs SpecGeom RGeom GeomProofs LinIk SpecStep CacheProofs UnitProofs SpecSense SenseLin.
Local Open Scope R_scope.

(** ** motions *)
Lemma joint_screw ty x : joint_transform ty x = screw ty x.
Proof.
  destruct ty as [|a|a]; cbn [joint_transform screw]; [reflexivity| |].
  - unfold qaxis_angle. rewrite stwo_R. reflexivity.
  - f_equal. destruct a. unfold vscale, times. cbn. f_equal; ring.
Qed.
Lemma screw_add ty x y : unit_type ty -> iso_mul (screw ty x) (screw ty y) = screw ty (x + y).
Proof.
  intros Hu. destruct ty as [|a|a]; cbn [screw unit_type] in *.
  - apply Iso_eq; [rewrite iso_mul_tr_eq; cbn [tr rt]; unfold turn, plus, times; cbn; f_equal; ring|]. unfold iso_mul, qmul. cbn. f_equal; ring.
  - apply Iso_eq; [rewrite iso_mul_tr_eq; cbn [tr rt]; unfold turn, plus; cbn; f_equal; ring|].
    unfold iso_mul. cbn [rt]. replace ((x + y) / 2) with (x / 2 + y / 2) by field. rewrite sin_plus, cos_plus. unfold unit_axis in Hu. destruct a as [u v w]. cbn in Hu |- *.
    set (s1 := sin (x / 2)). set (s2 := sin (y / 2)). set (c1 := cos (x / 2)). set (c2 := cos (y / 2)). unfold qmul. cbn. f_equal; try ring.
    replace (c1 * c2 - s1 * s2) with (c1 * c2 - s1 * s2 * (u * u + v * v + w * w)) by (rewrite Hu; ring). ring.
  - apply Iso_eq; [rewrite iso_mul_tr_eq; cbn [tr rt]; unfold turn, plus, times; cbn; f_equal; ring|]. unfold iso_mul, qmul. cbn. f_equal; ring.
Qed.
Lemma screw_facing f ty x : screw (facing f ty) (sg f * x) = screw ty x.
Proof.
  destruct ty as [|a|a]; cbn [screw facing]; [reflexivity| |]; unfold sg; destruct (flipped f); unfold times; cbn.
  - replace (-1 * x / 2) with (- (x / 2)) by field. rewrite sin_neg, cos_neg. f_equal. f_equal; ring.
  - rewrite !Rmult_1_l. reflexivity.
  - f_equal. f_equal; ring.
  - rewrite !Rmult_1_l. reflexivity.
Qed.
Lemma screw_proper ty x : unit_type ty -> proper (screw ty x).
Proof. rewrite <- joint_screw. apply proper_joint_transform. Qed.
Lemma recalibrated_local f j j' : recalibrated_joint f j j' -> local_transform j' = local_transform j.
Proof.
  intros ((Hu & Ho) & _ & _ & Et & Ep & _ & Eo). unfold local_transform. rewrite Et, Ep, Eo, !joint_screw. unfold measured. rewrite screw_facing.
  rewrite <- iso_mul_assoc by (try exact Ho; apply screw_proper; exact Hu). rewrite screw_add by exact Hu. do 2 f_equal. ring.
Qed.
Lemma facing_jcol p w f ty col : jcol p w ty = Some col -> jcol p w (facing f ty) = Some (turned_column (sg f) col).
Proof.
  unfold jcol, facing. destruct ty as [|ax|ax]; [discriminate| |]; intros E; injection E as <-; f_equal; generalize (sg f) as s; intros s; rewrite !qrot_turn; unfold turned_column; cbn [map];
    repeat (apply (f_equal2 cons); [destruct ax, (rt w), (tr w), p; unfold turn, times, vcross, vsub; cbn; ring|]); reflexivity.
Qed.
Lemma facing_movable f ty : facing f ty = Fixed <-> ty = Fixed.
Proof. destruct ty; cbn; split; congruence. Qed.

Section Sense.
  Variables (f : nat -> sense) (arm : chain).
  Implicit Types (h : gmap nat (node R)).
  Notation rel := (recalibrated f).
  Notation fs := (senses f arm).
  Notation ok := (good arm).

  Lemma cal_at h h' a n : rel h h' -> h !! a = Some n -> exists n', h' !! a = Some n' /\ recalibrated_node (f a) n n'.
  Proof. intros H Hn. specialize (H a). rewrite Hn in H. destruct (h' !! a) as [n'|]; [eauto|contradiction]. Qed.
  Lemma cal_back h h' a n' : rel h h' -> h' !! a = Some n' -> exists n, h !! a = Some n /\ recalibrated_node (f a) n n'.
  Proof. intros H Hn. specialize (H a). rewrite Hn in H. destruct (h !! a) as [n|]; [eauto|contradiction]. Qed.
  Lemma cal_live h h' a : rel h h' -> is_Some (h' !! a) <-> is_Some (h !! a).
  Proof. intros H. specialize (H a). destruct (h !! a), (h' !! a); try contradiction; split; eauto; intros [? ?]; discriminate. Qed.
  Lemma cal_live_parent h h' a p : rel h h' -> live_parent h' a p <-> live_parent h a p.
  Proof.
    intros H. unfold live_parent, has_parent. rewrite (cal_live h h' p H). split; intros [(n & Hn & Hp) Hl]; (split; [|exact Hl]).
    - destruct (cal_back _ _ _ _ H Hn) as (m & Hm & E & _). exists m. split; [exact Hm|congruence].
    - destruct (cal_at _ _ _ _ H Hn) as (m & Hm & E & _). exists m. split; [exact Hm|congruence].
  Qed.
  Lemma cal_no_parent h h' a : rel h h' -> no_parent h a -> no_parent h' a.
  Proof. intros H [Hl Hn]. split; [apply (cal_live _ _ _ H); exact Hl|]. intros p Hp. apply (Hn p). apply (cal_live_parent _ _ _ _ H). exact Hp. Qed.
  Lemma cal_path h h' a l : rel h h' -> path_up h a l -> path_up h' a l.
  Proof.
    intros H. induction 1; [constructor; eapply cal_no_parent; eauto|econstructor; [apply (cal_live_parent _ _ _ _ H); eassumption|assumption]].
  Qed.
  Lemma cal_movable h h' a : rel h h' -> node_movable h' a = node_movable h a.
  Proof.
    intros H. specialize (H a). unfold node_movable. destruct (h !! a) as [n|], (h' !! a) as [n'|]; try contradiction; [|reflexivity].
    destruct H as (_ & _ & _ & (_ & _ & _ & E & _) & _). rewrite E. destruct (j_type (n_joint n)); reflexivity.
  Qed.
  Lemma cal_good h h' : rel h h' -> good arm h -> good arm h'.
  Proof.
    intros H ((H1 & H2 & H3) & H4 & H5 & H6 & H7). split; [|split; [|split]].
    - assert (E : List.filter (node_movable h') (c_nodes arm) = List.filter (node_movable h) (c_nodes arm)) by (apply filter_ext; intros a; apply cal_movable; exact H).
      split; [exact H1|]. rewrite E. split; assumption.
    - intros a Ha. apply (cal_live _ _ _ H), H4, Ha.
    - intros l1 a l2 p E Hp. eapply H5; [exact E|]. apply (cal_live_parent _ _ _ _ H). exact Hp.
    - split; [exact H6|]. intros a Ha. destruct (H7 a Ha) as (n & Hn & Hm1 & Hm2). destruct (cal_at _ _ _ _ H Hn) as (n' & Hn' & _ & E1 & E2 & _).
      exists n'. split; [exact Hn'|]. split; congruence.
  Qed.
  Lemma cal_unch h h' g g' : rel h h' -> unch h g -> unch h' g' -> rel g g'.
  Proof.
    intros H Hu Hu'. apply unch_heaps in Hu, Hu'. intros a. specialize (H a). specialize (Hu a). specialize (Hu' a).
    destruct (h !! a) as [n|], (h' !! a) as [n'|], (g !! a) as [m|], (g' !! a) as [m'|]; try contradiction; [|exact I].
    destruct Hu as (a1 & a2 & a3 & _ & a5 & a6 & a7 & _ & a9 & a10 & _ & a12). destruct Hu' as (b1 & b2 & b3 & _ & b5 & b6 & b7 & _ & b9 & b10 & _ & b12).
    unfold recalibrated_node, recalibrated_joint, unit_joint in *. rewrite a1, a2, a3, a5, a6, a7, a9, a10, a12, b1, b2, b3, b5, b6, b7, b9, b10, b12. exact H.
  Qed.

  (** ** related programs *)
  Definition csim {A} (Q : A -> A -> Prop) (p p' : prog R A) : Prop :=
    forall t t' h h' nx nx', ok h -> rel h h' ->
      recalibrated_outcome f Q nx nx' (run t p (quiet h nx)) (run t' p' (quiet h' nx')) /\
      forall x s, run t p (quiet h nx) = Done x s -> ok (heap s).
  Lemma csim_done {A} (Q : A -> A -> Prop) nx nx' (x x' : A) h h' : Q x x' -> ok h -> rel h h' ->
    recalibrated_outcome f Q nx nx' (Done x (quiet h nx)) (Done x' (quiet h' nx')) /\
    forall y s, Done x (quiet h nx) = Done y s -> ok (heap s).
  Proof. intros HQ Hg Hu. split; [split; [exact HQ|]; exists h, h'; auto|]. intros y s E. injection E as _ <-. exact Hg. Qed.
  Lemma csim_ret {A} (Q : A -> A -> Prop) x x' : Q x x' -> csim Q (Ret x) (Ret x').
  Proof. intros HQ t t' h h' nx nx' Hg Hu. apply csim_done; assumption. Qed.
  Lemma csim_panic {A} (Q : A -> A -> Prop) m : csim Q (Panic m) (Panic m).
  Proof. intros t t' h h' nx nx' Hg Hu. split; [reflexivity|]. discriminate. Qed.
  Lemma csim_bind {A B} (Q : A -> A -> Prop) (Q' : B -> B -> Prop) p p' g g' :
    csim Q p p' -> (forall x x', Q x x' -> csim Q' (g x) (g' x')) -> csim Q' (bind p g) (bind p' g').
  Proof.
    intros Hp Hf t t' h h' nx nx' Hg Hu. rewrite !run_bind. destruct (Hp t t' h h' nx nx' Hg Hu) as [Ho Hok].
    destruct (run t p (quiet h nx)), (run t' p' (quiet h' nx')); cbn in Ho |- *; try contradiction; [|split; [exact Ho|discriminate]].
    destruct Ho as (HQ & h1 & h1' & -> & -> & Hr). apply Hf; [exact HQ|exact (Hok _ _ eq_refl)|exact Hr].
  Qed.
  Lemma csim_positions : csim (fun ps ps' => length ps = c_dof arm /\ ps' = zip_with measured fs ps) (joint_positions arm) (joint_positions arm).
  Proof.
    intros t t' h h' nx nx' Hok Hu. pose proof (cal_good _ _ Hu Hok) as Hok'. pose proof Hok as (Hc & _). pose proof Hok' as (Hc' & _).
    destruct (run_positions t h nx arm _ Hc) as (ps & -> & Hl & Hp). destruct (run_positions t' h' nx' arm _ Hc') as (ps' & -> & _ & Hp').
    apply csim_done; [|exact Hok|exact Hu]. split; [exact Hl|]. unfold senses. clear Hl Hc Hc' Hok Hok'.
    revert ps ps' Hp Hp'. induction (c_movable arm) as [|a m IH]; intros [|p ps] [|p' ps'] Hp Hp'; try discriminate; [reflexivity|].
    cbn in Hp, Hp' |- *. injection Hp as Ep Hp. injection Hp' as Ep' Hp'. f_equal; [|apply IH; assumption].
    specialize (Hu a). unfold position_at in Ep, Ep'. destruct (h !! a) as [n|], (h' !! a) as [n'|]; try contradiction; try discriminate.
    destruct Hu as (_ & _ & _ & (_ & _ & _ & _ & E & _) & _). congruence.
  Qed.
  Lemma cal_locals h h' l ts : rel h h' -> Forall2 (local_at h) l ts -> Forall2 (local_at h') l ts.
  Proof.
    intros H. induction 1 as [|a t l ts (n & Hn & ->) Hr IH]; cbn; constructor; [|exact IH].
    destruct (cal_at _ _ _ _ H Hn) as (n' & Hn' & _ & _ & _ & Hj & _). exists n'. split; [exact Hn'|]. symmetry. eapply recalibrated_local. exact Hj.
  Qed.
  Lemma cal_world h h' a w : rel h h' -> world h a w -> world h' a w.
  Proof. intros H (l & ts & Hp & Hts & ->). exists l, ts. split; [eapply cal_path; eauto|]. split; [eapply cal_locals; eauto|reflexivity]. Qed.
  Lemma csim_end : csim eq (end_transform arm) (end_transform arm).
  Proof.
    intros t t' h h' nx nx' Hok Hu. pose proof Hok as (_ & Hl & _). destruct (locals_exist h _ Hl) as [ts Hts].
    unfold end_transform. rewrite (run_end_fold t h nx _ ts Hts iso1), (run_end_fold t' h' nx' _ _ (cal_locals _ _ _ _ Hu Hts) iso1).
    apply csim_done; [reflexivity|exact Hok|exact Hu].
  Qed.
  Definition cjrel (J J' : mat R) : Prop :=
    m_rows J = 6%nat /\ length (m_cols J) = c_dof arm /\ Forall (fun c => length c = 6%nat) (m_cols J) /\ J' = signed (signs fs) J.
  Lemma csim_jacobian : csim cjrel (jacobian arm) (jacobian arm).
  Proof.
    intros t t' h h' nx nx' Hok Hu. pose proof (cal_good _ _ Hu Hok) as Hok'. pose proof Hok as (Hc & Hl & Hp & _). pose proof Hok' as (Hc' & Hl' & Hp' & _).
    destruct (locals_exist h _ Hl) as [ts Hts].
    destruct (run_jacobian t h nx arm ts (parents_first_order _ _ Hl Hp) Hc Hts) as (cols & h1 & Hr & Hlen & Hcols).
    destruct (run_jacobian t' h' nx' arm _ (parents_first_order _ _ Hl' Hp') Hc' (cal_locals _ _ _ _ Hu Hts)) as (cols' & h1' & Hr' & _ & Hcols').
    destruct (jacobian_done _ _ _ _ _ _ Hl Hr) as (g & Eg & Hg & _ & _ & H6). destruct (jacobian_done _ _ _ _ _ _ Hl' Hr') as (g' & Eg' & Hg' & _).
    apply (f_equal heap) in Eg, Eg'. cbn in Eg, Eg'. subst g g'. rewrite Hr, Hr'.
    apply csim_done; [|eapply frozen_good; [apply unch_frozen; exact Hg|exact Hok]|eapply cal_unch; eauto].
    split; [reflexivity|]. split; [exact Hlen|]. split; [exact H6|]. unfold signed. cbn [m_cols m_rows]. f_equal. unfold signs, senses. 
    assert (Hm : forall a, a ∈ c_movable arm -> a ∈ c_nodes arm).
    { intros a Ha. destruct Hc as (_ & E & _). rewrite E in Ha. apply elem_of_list_In, filter_In in Ha as [Ha _]. apply elem_of_list_In. exact Ha. }
    clear Hlen Hr Hr' H6. revert cols cols' Hcols Hcols' Hm. generalize (c_movable arm) as m. induction m as [|a m IH]; intros cols cols' H1 H2 Hm.
    - inversion H1; inversion H2; reflexivity.
    - inversion H1 as [|? col ? cols0 H1a H1b]; subst. inversion H2 as [|? col' ? cols0' H2a H2b]; subst. cbn [map zip_with].
      f_equal; [|apply IH; [exact H1b|exact H2b|intros; apply Hm, elem_of_list_further; assumption]].
      destruct H1a as (n & w & Hn & Hb & E). destruct H2a as (n' & w' & Hn' & Hb' & E').
      assert (Ha : a ∈ c_nodes arm) by (apply Hm, elem_of_list_here).
      apply based_world in Hb; [|exact Hp|exact Ha]. apply based_world in Hb'; [|exact Hp'|exact Ha].
      assert (w' = w) as -> by (eapply world_fun; [exact Hb'|eapply cal_world; eauto]).
      destruct (cal_at _ _ _ _ Hu Hn) as (n2 & Hn2 & _ & _ & _ & (_ & _ & _ & Et & _) & _). assert (n2 = n') as -> by congruence. rewrite Et in E'.
      rewrite (facing_jcol _ _ _ _ _ E) in E'. congruence.
  Qed.

  (** ** the setters *)
  Definition cpairs (l l' : list (nat * R)) : Prop := Forall2 (fun ap ap' => fst ap' = fst ap /\ snd ap' = measured (f (fst ap)) (snd ap)) l l'.
  Lemma zip_cpairs m ps : cpairs (zip m ps) (zip m (zip_with measured (map f m) ps)).
  Proof. revert ps. induction m as [|a m IH]; intros [|p ps]; cbn; constructor; [split; reflexivity|apply IH]. Qed.
  Lemma limits_measured g r x : is_valid (measured_range g r) (measured g x) = is_valid r x.
  Proof.
    unfold is_valid, sge, measured_range, measured, sg. cbn [sle RScalar]. destruct r as [lo hi], (flipped g); cbn [rmin rmax].
    - rewrite andb_comm. f_equal; apply eq_true_iff_eq; rewrite !Rleb_spec; lra.
    - f_equal; apply eq_true_iff_eq; rewrite !Rleb_spec; lra.
  Qed.
  Lemma clamp_measured g r x : rmin r <= rmax r -> clamp (measured_range g r) (measured g x) = measured g (clamp r x).
  Proof.
    unfold clamp, sgt, measured_range, measured, sg. cbn [slt RScalar]. destruct r as [lo hi], (flipped g); cbn [rmin rmax]; intros Ho; unfold Rltb; repeat destruct (Rlt_dec _ _); lra.
  Qed.
  Lemma clampF_cal g n n' p : recalibrated_node g n n' -> recalibrated_node g (clampF p n) (clampF (measured g p) n').
  Proof.
    intros (E1 & E2 & E3 & (Ju & Jo & Ja & Jb & Jc & Jd & Je) & El). destruct n as [p1 p2 j p4 p5 p6 p7], n' as [q1 q2 j' q4 q5 q6 q7]. destruct j as [nm ty ps vl lm og c1 c2], j' as [nm' ty' ps' vl' lm' og' c1' c2'].
    unfold clampF, joint_set_clamped, is_movable. cbn in *. subst. destruct ty; cbn [negb facing].
    - repeat split; try assumption; apply Ju.
    - repeat split; cbn; try assumption; try apply Ju. destruct lm as [r|]; cbn; [apply clamp_measured, Jo; reflexivity|reflexivity].
    - repeat split; cbn; try assumption; try apply Ju. destruct lm as [r|]; cbn; [apply clamp_measured, Jo; reflexivity|reflexivity].
  Qed.
  Lemma alter_cal F F' a h h' : rel h h' -> (forall n n', h !! a = Some n -> recalibrated_node (f a) n n' -> recalibrated_node (f a) (F n) (F' n')) -> rel (alter F a h) (alter F' a h').
  Proof.
    intros H HF b. destruct (decide (b = a)) as [->|Hb]; [|rewrite !lookup_alter_ne by auto; apply H].
    rewrite !lookup_alter. specialize (H a). destruct (h !! a) as [n|], (h' !! a) as [n'|]; cbn; try contradiction; [|exact I]. apply HF; [reflexivity|exact H].
  Qed.
  Lemma upd_clamp_cal l l' : cpairs l l' -> forall h h', rel h h' -> rel (upd_all clampF h l) (upd_all clampF h' l').
  Proof.
    induction 1 as [|[a p] [a' p'] l l' [Ea Ep] Hl IH]; intros h h' Hu; [exact Hu|]. cbn in Ea, Ep. subst a' p'.
    rewrite !upd_all_cons. apply IH. apply alter_cal; [exact Hu|]. intros n n' Hn Hnn. apply clampF_cal. exact Hnn.
  Qed.
  Lemma csim_clamped ps : csim eq (set_joint_positions_clamped arm ps) (set_joint_positions_clamped arm (zip_with measured fs ps)).
  Proof.
    intros t t' h h' nx nx' Hok Hu. pose proof (cal_good _ _ Hu Hok) as Hok'.
    rewrite (run_clamped t h nx arm ps) by (eapply movable_live; apply Hok). rewrite (run_clamped t' h' nx' arm) by (eapply movable_live; apply Hok').
    apply csim_done; [reflexivity|eapply frozen_good; [apply upd_clamp_frozen|exact Hok]|]. apply upd_clamp_cal; [|exact Hu]. apply zip_cpairs.
  Qed.
  Lemma move1_cal g n n' p : recalibrated_node g n n' -> recalibrated_node g (move1 p n) (move1 (measured g p) n').
  Proof.
    intros (E1 & E2 & E3 & (Ju & Jo & Ja & Jb & Jc & Jd & Je) & El). destruct n as [p1 p2 j p4 p5 p6 p7], n' as [q1 q2 j' q4 q5 q6 q7]. destruct j as [nm ty ps vl lm og c1 c2], j' as [nm' ty' ps' vl' lm' og' c1' c2'].
    cbn in *. subst. repeat split; cbn; try assumption; apply Ju.
  Qed.
  Lemma set_cal g n n' p : recalibrated_node g n n' ->
    recalibrated_result eq (snd (joint_set (n_joint n) p)) (snd (joint_set (n_joint n') (measured g p))).
  Proof.
    intros (_ & _ & _ & (Ju & Jo & Ja & Jb & Jc & Jd & Je) & _). destruct (n_joint n) as [nm ty ps vl lm og c1 c2], (n_joint n') as [nm' ty' ps' vl' lm' og' c1' c2'].
    cbn in *. subst. unfold joint_set, is_movable. cbn [j_type j_limits j_name].
    destruct ty as [|ax|ax]; cbn [negb facing]; [reflexivity| |]; (destruct lm as [r|]; cbn [fmap option_fmap option_map]; [|reflexivity]);
      rewrite (limits_measured g r p); destruct (is_valid r p); cbn; try reflexivity; exists g; destruct r; reflexivity.
  Qed.
  Lemma set_list_cal t t' nx nx' l l' : cpairs l l' -> (forall ap, ap ∈ l -> fst ap ∈ c_movable arm) -> forall h h', ok h -> rel h h' ->
    recalibrated_outcome f (recalibrated_result eq) nx nx' (run t (forM_try (fun ap => node_set_joint_position (fst ap) (snd ap)) l) (quiet h nx))
      (run t' (forM_try (fun ap => node_set_joint_position (fst ap) (snd ap)) l') (quiet h' nx')) /\
    forall x s, run t (forM_try (fun ap => node_set_joint_position (fst ap) (snd ap)) l) (quiet h nx) = Done x s -> ok (heap s).
  Proof.
    induction 1 as [|[a p] [a' p'] l l' [Ea Ep] Hl IH]; intros Hin h h' Hok Hu; [apply csim_done; [reflexivity|assumption|assumption]|].
    cbn in Ea, Ep. subst a' p'. cbn [forM_try]. rewrite !run_bind. cbn [fst snd].
    assert (Ha : a ∈ c_movable arm) by (apply (Hin (a, p)), elem_of_list_here).
    pose proof (cal_good _ _ Hu Hok) as Hok'.
    destruct (proj2 (proj2 (proj2 (proj2 Hok))) a Ha) as (n & Hn & Hm). destruct (proj2 (proj2 (proj2 (proj2 Hok'))) a Ha) as (n' & Hn' & Hm').
    destruct (cal_at _ _ _ _ Hu Hn) as (n2 & Hn2 & Hnn). assert (n2 = n') as -> by congruence.
    pose proof (set_cal (f a) n n' p Hnn) as Hs.
    pose proof (admissible_set (n_joint n) p) as A1. pose proof (admissible_set (n_joint n') (measured (f a) p)) as A2.
    destruct (run_set_plain t h nx a n p Hn Hm) as [[Ha1 Hr]|(e & Ha1 & He & Hr)];
      destruct (run_set_plain t' h' nx' a n' (measured (f a) p) Hn' Hm') as [[Ha2 Hr']|(e' & Ha2 & He' & Hr')]; rewrite Hr, Hr'; cbn [obind].
    - apply IH; [intros ap H; apply Hin, elem_of_list_further, H| |].
      + eapply frozen_good; [eapply move1_frozen; exact Hn|exact Hok].
      + intros b. destruct (decide (b = a)) as [->|Hb]; [rewrite !lookup_insert; apply move1_cal; exact Hnn|rewrite !lookup_insert_ne by auto; apply Hu].
    - exfalso. apply A1 in Ha1. rewrite Ha1, He' in Hs. exact Hs.
    - exfalso. apply A2 in Ha2. rewrite Ha2, He in Hs. exact Hs.
    - apply csim_done; [|exact Hok|exact Hu]. rewrite He, He' in Hs. exact Hs.
  Qed.
  Lemma senses_length h : good arm h -> length fs = c_dof arm.
  Proof. intros ((_ & Hm & Hd) & _). unfold senses. rewrite map_length, Hm, Hd. reflexivity. Qed.
  Lemma csim_set ps : length ps = c_dof arm ->
    csim (recalibrated_result eq) (set_joint_positions arm ps) (set_joint_positions arm (zip_with measured fs ps)).
  Proof.
    intros Hps t t' h h' nx nx' Hok Hu. unfold set_joint_positions. rewrite zip_with_length, (senses_length h Hok), !decide_True by lia.
    apply set_list_cal; [apply zip_cpairs| |exact Hok|exact Hu].
    intros ap Hap. eapply zip_fst_sub. apply elem_of_list_In, in_map, elem_of_list_In. exact Hap.
  Qed.
End Sense.
