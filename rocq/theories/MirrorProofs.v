(** * Mirror images *)
From Coq Require Import String Reals Lra Lia NArith.
From stdpp Require Import gmap.
From Verif Require Import Scalar ScalarR Geometry Joint Link Prog NodeM ChainM FuncsM IkM LuM RunLemmas
  SpecJoint SpecNode RangeProofs JointProofs NodeProofs SpecGraph GraphProofs SpecChain ChainProofs
  SpecFK FKProofs VelocityProofs IkLookup SpecIk IkProofs IkProofs2 JacProofs SpecCom ComProofs SpecGeom RGeom GeomProofs LinIk SpecStep BaseProofs CacheProofs UnitProofs SpecSense SenseLin SpecMirror MirrorLin.
Local Open Scope R_scope.

(** ** poses *)
Ltac flips m := destruct m as [[] [] []]; unfold image_pose, image, image_rot, image_axis, sgn; cbn [flip_x flip_y flip_z tr rt vx vy vz qi qj qk qw].
Lemma image_qmul m p q : qmul (image_rot m p) (image_rot m q) = image_rot m (qmul p q).
Proof. destruct p, q. flips m; un; f_equal; ring. Qed.
Lemma image_conj m q : qconj (image_rot m q) = image_rot m (qconj q).
Proof. destruct q. flips m; un; f_equal; ring. Qed.
Lemma image_turn m q v : qrot (image_rot m q) (image m v) = image m (qrot q v).
Proof. rewrite !qrot_turn. destruct q, v. flips m; gv; ring. Qed.
Lemma image_turn_axis m q v : qrot (image_rot m q) (image_axis m v) = image_axis m (qrot q v).
Proof. rewrite !qrot_turn. destruct q, v. flips m; gv; ring. Qed.
Lemma image_add m a b : vadd (image m a) (image m b) = image m (vadd a b).
Proof. destruct a, b. flips m; gv; ring. Qed.
Lemma image_sub m a b : vsub (image m a) (image m b) = image m (vsub a b).
Proof. destruct a, b. flips m; gv; ring. Qed.
Lemma image_cross m a b : vcross (image_axis m a) (image m b) = image m (vcross a b).
Proof. destruct a, b. flips m; gv; ring. Qed.
Lemma image_mul m a b : iso_mul (image_pose m a) (image_pose m b) = image_pose m (iso_mul a b).
Proof. unfold iso_mul, image_pose. cbn [tr rt]. rewrite image_qmul, image_turn, image_add. reflexivity. Qed.
Lemma image_1 m : image_pose m iso1 = iso1.
Proof. flips m; un; f_equal; f_equal; ring. Qed.
Lemma image_product m ts : forall w, product (image_pose m w) (map (image_pose m) ts) = image_pose m (product w ts).
Proof. induction ts as [|t ts IH]; intros w; [reflexivity|]. cbn. rewrite image_mul. apply IH. Qed.
Lemma image_product_1 m ts : product iso1 (map (image_pose m) ts) = image_pose m (product iso1 ts).
Proof. rewrite <- image_product, image_1. reflexivity. Qed.
Lemma image_motion m ty x : joint_transform (image_type m ty) x = image_pose m (joint_transform ty x).
Proof.
  destruct ty as [|a|a]; cbn [joint_transform image_type]; [symmetry; apply image_1| |].
  - unfold qaxis_angle. destruct a. flips m; un; f_equal; f_equal; ring.
  - destruct a. flips m; un; f_equal; f_equal; ring.
Qed.
Lemma image_local m j j' : image_joint m j j' -> local_transform j' = image_pose m (local_transform j).
Proof. intros (_ & Et & Ep & _ & Eo). unfold local_transform. rewrite Et, Ep, Eo, <- image_mul, image_motion. reflexivity. Qed.
Lemma image_jcol m p w ty col : jcol p w ty = Some col -> jcol (image m p) (image_pose m w) (image_type m ty) = Some (zip_with Rmult (image_rows m) col).
Proof.
  unfold jcol. destruct ty as [|ax|ax]; [discriminate| |]; cbn [image_type image_pose tr rt]; intros E; injection E as <-; f_equal.
  - rewrite image_turn_axis, image_sub, image_cross. reflexivity.
  - rewrite image_turn. unfold image, image_rows. cbn. repeat (apply (f_equal2 cons); [ring|]). reflexivity.
Qed.
Lemma sgn_sq b : sgn b * sgn b = 1.
Proof. destruct b; cbn; ring. Qed.
Lemma image_rows_signs m : all_signs (image_rows m).
Proof. unfold all_signs, image_rows. destruct m as [[] [] []]; repeat constructor; cbn; ring. Qed.
Lemma image_norm m v : vnorm (image m v) = vnorm v.
Proof. unfold vnorm. f_equal. destruct v. flips m; un; ring. Qed.
Lemma image_axis_norm m v : vnorm (image_axis m v) = vnorm v.
Proof. unfold vnorm. f_equal. destruct v. flips m; un; ring. Qed.

Section Mirror.
  Variables (m : mirror) (arm : chain).
  Implicit Types (h : gmap nat (node R)).
  Notation ok := (good arm).
  Notation rel := (image_robot m).

  (** ** the robot in the mirror *)
  Lemma img_at h h' a n : rel h h' -> h !! a = Some n -> exists n', h' !! a = Some n' /\ image_node m n n'.
  Proof. intros H Hn. specialize (H a). rewrite Hn in H. destruct (h' !! a) as [n'|]; [eauto|contradiction]. Qed.
  Lemma img_back h h' a n' : rel h h' -> h' !! a = Some n' -> exists n, h !! a = Some n /\ image_node m n n'.
  Proof. intros H Hn. specialize (H a). rewrite Hn in H. destruct (h !! a) as [n|]; [eauto|contradiction]. Qed.
  Lemma img_live h h' a : rel h h' -> is_Some (h' !! a) <-> is_Some (h !! a).
  Proof. intros H. specialize (H a). destruct (h !! a), (h' !! a); try contradiction; split; eauto; intros [? ?]; discriminate. Qed.
  Lemma img_live_parent h h' a p : rel h h' -> live_parent h' a p <-> live_parent h a p.
  Proof.
    intros H. unfold live_parent, has_parent. rewrite (img_live h h' p H). split; intros [(n & Hn & Hp) Hl]; (split; [|exact Hl]).
    - destruct (img_back _ _ _ _ H Hn) as (k & Hk & E & _). exists k. split; [exact Hk|congruence].
    - destruct (img_at _ _ _ _ H Hn) as (k & Hk & E & _). exists k. split; [exact Hk|congruence].
  Qed.
  Lemma img_no_parent h h' a : rel h h' -> no_parent h a -> no_parent h' a.
  Proof. intros H [Hl Hn]. split; [apply (img_live _ _ _ H); exact Hl|]. intros p Hp. apply (Hn p). apply (img_live_parent _ _ _ _ H). exact Hp. Qed.
  Lemma img_path h h' a l : rel h h' -> path_up h a l -> path_up h' a l.
  Proof.
    intros H. induction 1; [constructor; eapply img_no_parent; eauto|econstructor; [apply (img_live_parent _ _ _ _ H); eassumption|assumption]].
  Qed.
  Lemma img_movable h h' a : rel h h' -> node_movable h' a = node_movable h a.
  Proof.
    intros H. specialize (H a). unfold node_movable. destruct (h !! a) as [n|], (h' !! a) as [n'|]; try contradiction; [|reflexivity].
    destruct H as (_ & _ & _ & (_ & E & _) & _). unfold is_movable. rewrite E. destruct (j_type (n_joint n)); reflexivity.
  Qed.
  Lemma img_good h h' : rel h h' -> ok h -> ok h'.
  Proof.
    intros H ((H1 & H2 & H3) & H4 & H5 & H6 & H7). split; [|split; [|split]].
    - assert (E : List.filter (node_movable h') (c_nodes arm) = List.filter (node_movable h) (c_nodes arm)) by (apply filter_ext; intros a; apply img_movable; exact H).
      split; [exact H1|]. rewrite E. split; assumption.
    - intros a Ha. apply (img_live _ _ _ H), H4, Ha.
    - intros l1 a l2 p E Hp. eapply H5; [exact E|]. apply (img_live_parent _ _ _ _ H). exact Hp.
    - split; [exact H6|]. intros a Ha. destruct (H7 a Ha) as (n & Hn & Hm1 & Hm2). destruct (img_at _ _ _ _ H Hn) as (n' & Hn' & _ & E1 & E2 & _).
      exists n'. split; [exact Hn'|]. split; congruence.
  Qed.
  Lemma img_unch h h' g g' : rel h h' -> unch h g -> unch h' g' -> rel g g'.
  Proof.
    intros H Hu Hu'. apply unch_heaps in Hu, Hu'. intros a. specialize (H a). specialize (Hu a). specialize (Hu' a).
    destruct (h !! a) as [n|], (h' !! a) as [n'|], (g !! a) as [k|], (g' !! a) as [k'|]; try contradiction; [|exact I].
    destruct Hu as (a1 & a2 & a3 & _ & a5 & a6 & a7 & _ & a9 & a10 & _ & a12). destruct Hu' as (b1 & b2 & b3 & _ & b5 & b6 & b7 & _ & b9 & b10 & _ & b12).
    unfold image_node, image_joint in *. rewrite a1, a2, a3, a5, a6, a7, a9, a10, a12, b1, b2, b3, b5, b6, b7, b9, b10, b12. exact H.
  Qed.

  (** ** related programs *)
  Definition msim {A} (Q : A -> A -> Prop) (p p' : prog R A) : Prop :=
    forall t t' h h' nx nx', ok h -> rel h h' ->
      image_outcome m Q nx nx' (run t p (quiet h nx)) (run t' p' (quiet h' nx')) /\
      forall x s, run t p (quiet h nx) = Done x s -> ok (heap s).
  Lemma msim_done {A} (Q : A -> A -> Prop) nx nx' (x x' : A) h h' : Q x x' -> ok h -> rel h h' ->
    image_outcome m Q nx nx' (Done x (quiet h nx)) (Done x' (quiet h' nx')) /\
    forall y s, Done x (quiet h nx) = Done y s -> ok (heap s).
  Proof. intros HQ Hg Hu. split; [split; [exact HQ|]; exists h, h'; auto|]. intros y s E. injection E as _ <-. exact Hg. Qed.
  Lemma msim_ret {A} (Q : A -> A -> Prop) x x' : Q x x' -> msim Q (Ret x) (Ret x').
  Proof. intros HQ t t' h h' nx nx' Hg Hu. apply msim_done; assumption. Qed.
  Lemma msim_panic {A} (Q : A -> A -> Prop) e : msim Q (Panic e) (Panic e).
  Proof. intros t t' h h' nx nx' Hg Hu. split; [reflexivity|]. discriminate. Qed.
  Lemma msim_bind {A B} (Q : A -> A -> Prop) (Q' : B -> B -> Prop) p p' g g' :
    msim Q p p' -> (forall x x', Q x x' -> msim Q' (g x) (g' x')) -> msim Q' (bind p g) (bind p' g').
  Proof.
    intros Hp Hf t t' h h' nx nx' Hg Hu. rewrite !run_bind. destruct (Hp t t' h h' nx nx' Hg Hu) as [Ho Hok].
    destruct (run t p (quiet h nx)), (run t' p' (quiet h' nx')); cbn in Ho |- *; try contradiction; [|split; [exact Ho|discriminate]].
    destruct Ho as (HQ & h1 & h1' & -> & -> & Hr). apply Hf; [exact HQ|exact (Hok _ _ eq_refl)|exact Hr].
  Qed.
  Lemma msim_positions : msim (fun ps ps' => length ps = c_dof arm /\ ps' = ps) (joint_positions arm) (joint_positions arm).
  Proof.
    intros t t' h h' nx nx' Hok Hu. pose proof (img_good _ _ Hu Hok) as Hok'. pose proof Hok as (Hc & _). pose proof Hok' as (Hc' & _).
    destruct (run_positions t h nx arm _ Hc) as (ps & -> & Hl & Hp). destruct (run_positions t' h' nx' arm _ Hc') as (ps' & -> & _ & Hp').
    apply msim_done; [|exact Hok|exact Hu]. split; [exact Hl|]. clear Hl Hc Hc' Hok Hok'.
    revert ps ps' Hp Hp'. induction (c_movable arm) as [|a l IH]; intros [|p ps] [|p' ps'] Hp Hp'; try discriminate; [reflexivity|].
    cbn in Hp, Hp' |- *. injection Hp as Ep Hp. injection Hp' as Ep' Hp'. f_equal; [|apply IH; assumption].
    specialize (Hu a). unfold position_at in Ep, Ep'. destruct (h !! a) as [n|], (h' !! a) as [n'|]; try contradiction; try discriminate.
    destruct Hu as (_ & _ & _ & (_ & _ & E & _) & _). congruence.
  Qed.
  Lemma img_locals h h' l ts : rel h h' -> Forall2 (local_at h) l ts -> Forall2 (local_at h') l (map (image_pose m) ts).
  Proof.
    intros H. induction 1 as [|a t l ts (n & Hn & ->) Hr IH]; cbn; constructor; [|exact IH].
    destruct (img_at _ _ _ _ H Hn) as (n' & Hn' & _ & _ & _ & Hj & _). exists n'. split; [exact Hn'|]. symmetry. apply image_local. exact Hj.
  Qed.
  Lemma img_world h h' a w : rel h h' -> world h a w -> world h' a (image_pose m w).
  Proof.
    intros H (l & ts & Hp & Hts & ->). exists l, (map (image_pose m) ts). split; [eapply img_path; eauto|]. split; [eapply img_locals; eauto|symmetry; apply image_product_1].
  Qed.
  Lemma msim_end : msim (fun w w' => w' = image_pose m w) (end_transform arm) (end_transform arm).
  Proof.
    intros t t' h h' nx nx' Hok Hu. pose proof Hok as (_ & Hl & _). destruct (locals_exist h _ Hl) as [ts Hts].
    unfold end_transform. rewrite (run_end_fold t h nx _ ts Hts iso1), (run_end_fold t' h' nx' _ _ (img_locals _ _ _ _ Hu Hts) iso1).
    apply msim_done; [apply image_product_1|exact Hok|exact Hu].
  Qed.
  Definition mjrel (J J' : mat R) : Prop :=
    m_rows J = 6%nat /\ length (m_cols J) = c_dof arm /\ Forall (fun c => length c = 6%nat) (m_cols J) /\ J' = rowed (image_rows m) J.
  Lemma msim_jacobian : msim mjrel (jacobian arm) (jacobian arm).
  Proof.
    intros t t' h h' nx nx' Hok Hu. pose proof (img_good _ _ Hu Hok) as Hok'. pose proof Hok as (Hc & Hl & Hp & _). pose proof Hok' as (Hc' & Hl' & Hp' & _).
    destruct (locals_exist h _ Hl) as [ts Hts].
    destruct (run_jacobian t h nx arm ts (parents_first_order _ _ Hl Hp) Hc Hts) as (cols & h1 & Hr & Hlen & Hcols).
    destruct (run_jacobian t' h' nx' arm _ (parents_first_order _ _ Hl' Hp') Hc' (img_locals _ _ _ _ Hu Hts)) as (cols' & h1' & Hr' & _ & Hcols').
    destruct (jacobian_done _ _ _ _ _ _ Hl Hr) as (g & Eg & Hg & _ & _ & H6). destruct (jacobian_done _ _ _ _ _ _ Hl' Hr') as (g' & Eg' & Hg' & _).
    apply (f_equal heap) in Eg, Eg'. cbn in Eg, Eg'. subst g g'. rewrite Hr, Hr'.
    apply msim_done; [|eapply frozen_good; [apply unch_frozen; exact Hg|exact Hok]|eapply img_unch; eauto].
    split; [reflexivity|]. split; [exact Hlen|]. split; [exact H6|]. unfold rowed. cbn [m_cols m_rows]. f_equal. rewrite image_product_1 in Hcols'. cbn [image_pose tr] in Hcols'.
    assert (Hm : forall a, a ∈ c_movable arm -> a ∈ c_nodes arm).
    { intros a Ha. destruct Hc as (_ & E & _). rewrite E in Ha. apply elem_of_list_In, filter_In in Ha as [Ha _]. apply elem_of_list_In. exact Ha. }
    clear Hlen Hr Hr' H6. revert cols cols' Hcols Hcols' Hm. generalize (c_movable arm) as l. induction l as [|a l IH]; intros cols cols' H1 H2 Hm.
    - inversion H1; inversion H2; reflexivity.
    - inversion H1 as [|? col ? cols0 H1a H1b]; subst. inversion H2 as [|? col' ? cols0' H2a H2b]; subst. cbn [map].
      f_equal; [|apply IH; [exact H1b|exact H2b|intros; apply Hm, elem_of_list_further; assumption]].
      destruct H1a as (n & w & Hn & Hb & E). destruct H2a as (n' & w' & Hn' & Hb' & E').
      assert (Ha : a ∈ c_nodes arm) by (apply Hm, elem_of_list_here).
      apply based_world in Hb; [|exact Hp|exact Ha]. apply based_world in Hb'; [|exact Hp'|exact Ha].
      assert (w' = image_pose m w) as -> by (eapply world_fun; [exact Hb'|eapply img_world; eauto]).
      destruct (img_at _ _ _ _ Hu Hn) as (n2 & Hn2 & _ & _ & _ & (_ & Et & _) & _). assert (n2 = n') as -> by congruence. rewrite Et in E'.
      rewrite (image_jcol m _ _ _ _ E) in E'. congruence.
  Qed.

  (** ** the setters *)
  Lemma clampF_img n n' p : image_node m n n' -> image_node m (clampF p n) (clampF p n').
  Proof.
    intros (E1 & E2 & E3 & (Ja & Jb & Jc & Jd & Je) & El). destruct n as [p1 p2 j p4 p5 p6 p7], n' as [q1 q2 j' q4 q5 q6 q7]. destruct j as [nm ty ps vl lm og c1 c2], j' as [nm' ty' ps' vl' lm' og' c1' c2'].
    unfold clampF, joint_set_clamped, is_movable. cbn in *. subst. destruct ty; cbn [negb image_type]; repeat split; assumption.
  Qed.
  Lemma alter_img F F' a h h' : rel h h' -> (forall n n', h !! a = Some n -> image_node m n n' -> image_node m (F n) (F' n')) -> rel (alter F a h) (alter F' a h').
  Proof.
    intros H HF b. destruct (decide (b = a)) as [->|Hb]; [|rewrite !lookup_alter_ne by auto; apply H].
    rewrite !lookup_alter. specialize (H a). destruct (h !! a) as [n|], (h' !! a) as [n'|]; cbn; try contradiction; [|exact I]. apply HF; [reflexivity|exact H].
  Qed.
  Lemma upd_clamp_img l : forall h h', rel h h' -> rel (upd_all clampF h l) (upd_all clampF h' l).
  Proof.
    induction l as [|[a p] l IH]; intros h h' Hu; [exact Hu|].
    rewrite !upd_all_cons. apply IH. apply alter_img; [exact Hu|]. intros n n' Hn Hnn. apply clampF_img. exact Hnn.
  Qed.
  Lemma msim_clamped ps : msim eq (set_joint_positions_clamped arm ps) (set_joint_positions_clamped arm ps).
  Proof.
    intros t t' h h' nx nx' Hok Hu. pose proof (img_good _ _ Hu Hok) as Hok'.
    rewrite (run_clamped t h nx arm ps) by (eapply movable_live; apply Hok). rewrite (run_clamped t' h' nx' arm) by (eapply movable_live; apply Hok').
    apply msim_done; [reflexivity|eapply frozen_good; [apply upd_clamp_frozen|exact Hok]|]. apply upd_clamp_img. exact Hu.
  Qed.
  Lemma move1_img n n' p : image_node m n n' -> image_node m (move1 p n) (move1 p n').
  Proof.
    intros (E1 & E2 & E3 & (Ja & Jb & Jc & Jd & Je) & El). destruct n as [p1 p2 j p4 p5 p6 p7], n' as [q1 q2 j' q4 q5 q6 q7]. destruct j as [nm ty ps vl lm og c1 c2], j' as [nm' ty' ps' vl' lm' og' c1' c2'].
    cbn in *. subst. repeat split; cbn; assumption.
  Qed.
  Lemma set_img n n' p : image_node m n n' -> snd (joint_set (n_joint n') p) = snd (joint_set (n_joint n) p).
  Proof.
    intros (_ & _ & _ & (Ja & Jb & Jc & Jd & Je) & _). destruct (n_joint n) as [nm ty ps vl lm og c1 c2], (n_joint n') as [nm' ty' ps' vl' lm' og' c1' c2'].
    cbn in *. subst. unfold joint_set, is_movable. cbn [j_type j_limits j_name]. destruct ty as [|ax|ax]; cbn [negb image_type]; [reflexivity| |];
      (destruct lm as [r|]; [destruct (is_valid r p)|]; reflexivity).
  Qed.
  Lemma joint_set_errors (j : joint R) p e : snd (joint_set j p) = Err e -> image_error m e = e.
  Proof. unfold joint_set. repeat case_match; cbn; intros E; try discriminate; injection E as <-; reflexivity. Qed.
  Lemma set_list_img t t' nx nx' l : (forall ap, ap ∈ l -> fst ap ∈ c_movable arm) -> forall h h', ok h -> rel h h' ->
    image_outcome m (image_result m eq) nx nx' (run t (forM_try (fun ap => node_set_joint_position (fst ap) (snd ap)) l) (quiet h nx))
      (run t' (forM_try (fun ap => node_set_joint_position (fst ap) (snd ap)) l) (quiet h' nx')) /\
    forall x s, run t (forM_try (fun ap => node_set_joint_position (fst ap) (snd ap)) l) (quiet h nx) = Done x s -> ok (heap s).
  Proof.
    induction l as [|[a p] l IH]; intros Hin h h' Hok Hu; [apply msim_done; [reflexivity|assumption|assumption]|].
    cbn [forM_try]. rewrite !run_bind. cbn [fst snd].
    assert (Ha : a ∈ c_movable arm) by (apply (Hin (a, p)), elem_of_list_here).
    pose proof (img_good _ _ Hu Hok) as Hok'.
    destruct (proj2 (proj2 (proj2 (proj2 Hok))) a Ha) as (n & Hn & Hm). destruct (proj2 (proj2 (proj2 (proj2 Hok'))) a Ha) as (n' & Hn' & Hm').
    destruct (img_at _ _ _ _ Hu Hn) as (n2 & Hn2 & Hnn). assert (n2 = n') as -> by congruence.
    pose proof (set_img n n' p Hnn) as Hs.
    pose proof (admissible_set (n_joint n) p) as A1. pose proof (admissible_set (n_joint n') p) as A2.
    destruct (run_set_plain t h nx a n p Hn Hm) as [[Ha1 Hr]|(e & Ha1 & He & Hr)];
      destruct (run_set_plain t' h' nx' a n' p Hn' Hm') as [[Ha2 Hr']|(e' & Ha2 & He' & Hr')]; rewrite Hr, Hr'; cbn [obind].
    - apply IH; [intros ap H; apply Hin, elem_of_list_further, H| |].
      + eapply frozen_good; [eapply move1_frozen; exact Hn|exact Hok].
      + intros b. destruct (decide (b = a)) as [->|Hb]; [rewrite !lookup_insert; apply move1_img; exact Hnn|rewrite !lookup_insert_ne by auto; apply Hu].
    - exfalso. apply A1 in Ha1. rewrite Ha1, He' in Hs. discriminate.
    - exfalso. apply A2 in Ha2. rewrite Ha2, He in Hs. discriminate.
    - apply msim_done; [|exact Hok|exact Hu]. cbn. rewrite (joint_set_errors _ _ _ He). rewrite He, He' in Hs. congruence.
  Qed.
  Lemma msim_set ps : msim (image_result m eq) (set_joint_positions arm ps) (set_joint_positions arm ps).
  Proof.
    intros t t' h h' nx nx' Hok Hu. unfold set_joint_positions. case_decide; [|apply msim_done; [reflexivity|exact Hok|exact Hu]].
    apply set_list_img; [|exact Hok|exact Hu]. intros ap Hap. eapply zip_fst_sub. apply elem_of_list_In, in_map, elem_of_list_In. exact Hap.
  Qed.
End Mirror.
