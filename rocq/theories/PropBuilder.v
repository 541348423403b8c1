(** * C57: the builders *)
From Coq Require Import String ZArith Floats.SpecFloat.
From stdpp Require Import gmap.
From Verif Require Import Scalar ScalarF Geometry Joint Link Prog NodeM BuilderM UrdfM ChainM SpecJoint SpecNode Ex.

(** [last_set p cs d v]: [v] is what the last call of [cs] that sets the field
    (the calls on which [p] is defined) sets it to, [d] when none does *)
Inductive last_set {C V} (p : C -> option V) (d : V) : list C -> V -> Prop :=
| Never cs : (forall c, c ∈ cs -> p c = None) -> last_set p d cs d
| Last before c after v : p c = Some v -> (forall c', c' ∈ after -> p c' = None) ->
    last_set p d (before ++ c :: after) v.

Lemma fold_last_set {C V B} (p : C -> option V) (field : B -> V) (step : B -> C -> B) (b0 : B) :
  (forall b c, field (step b c) = default (field b) (p c)) ->
  forall cs, last_set p (field b0) cs (field (fold_left step cs b0)).
Proof.
  intros Hs cs. induction cs as [|c cs IH] using rev_ind.
  - apply Never. intros c Hc. inversion Hc.
  - rewrite fold_left_app. cbn. rewrite Hs. destruct (p c) as [v|] eqn:E; cbn.
    + apply (Last _ _ cs c [] v E). intros c' Hc'. inversion Hc'.
    + inversion IH as [cs' Hn Heq1 Heq2|before c1 after v Hv Hn Heq1 Heq2]; subst.
      * apply Never. intros c' [Hc'|Hc']%elem_of_app; [auto|]. apply elem_of_list_singleton in Hc'. congruence.
      * rewrite <- app_assoc. cbn. apply Last; [assumption|].
        intros c' [Hc'|Hc']%elem_of_app; [auto|]. apply elem_of_list_singleton in Hc'. congruence.
Qed.

(** The value is unique: [last_set] is a function of the calls. *)
Lemma last_set_functional {C V} (p : C -> option V) d cs v w :
  last_set p d cs v -> last_set p d cs w -> v = w.
Proof.
  assert (Hmid : forall before c after x, p c = Some x -> ~ (forall c', c' ∈ before ++ c :: after -> p c' = None)).
  { intros before c after x Hc Hn. specialize (Hn c). rewrite Hn in Hc; [discriminate|]. set_solver. }
  intros H1 H2. destruct H1 as [cs H1|b1 c1 a1 v Hv Hn].
  - inversion H2 as [cs' Hn Heq1 Heq2|before c1 after v Hv Hn Heq1 Heq2]; [reflexivity|]. subst. exfalso. eapply Hmid; eauto.
  - remember (b1 ++ c1 :: a1) as cs eqn:E. destruct H2 as [cs H2|b2 c2 a2 w Hw Hn2]; [subst; exfalso; eapply Hmid; eauto|].
    revert b1 E. induction b2 as [|y b2 IH]; intros [|z b1] E; cbn in E; injection E as E1 E2; subst.
    + congruence.
    + exfalso. rewrite Hn2 in Hv; [discriminate|]. set_solver.
    + exfalso. rewrite Hn in Hw; [discriminate|]. set_solver.
    + apply (IH b1). assumption.
Qed.

Section C57.
  Context {T : Type} `{Sc : Scalar T}.
  (** what a call sets *)
  Definition sets_name (c : nb_call T) := match c with CName n => Some n | _ => None end.
  Definition sets_type (c : nb_call T) := match c with CJointType t => Some t | _ => None end.
  Definition sets_limits (c : nb_call T) := match c with CLimits l => Some l | _ => None end.
  Definition sets_translation (c : nb_call T) :=
    match c with COrigin o => Some (tr o) | CTranslation v => Some v | _ => None end.
  Definition sets_rotation (c : nb_call T) :=
    match c with COrigin o => Some (rt o) | CRotation q => Some q | _ => None end.
  Definition sets_link_name (c : lb_call T) := match c with CLinkName n => Some n | _ => None end.
  Definition sets_inertial (c : lb_call T) := match c with CInertial i => Some i | _ => None end.
  Definition adds_visual (c : lb_call T) := match c with CVisual v => Some v | _ => None end.
  Definition adds_collision (c : lb_call T) := match c with CCollision x => Some x | _ => None end.

  (** C57.  Whatever setters are called in whatever order, the joint has the last
      value given for each field; the position and velocity are zero whatever the
      limits are, and nothing is cached. *)
  Theorem C57_finalize (cs : list (nb_call T)) :
    let j := nb_finalize (nb_calls cs) in
    last_set sets_name ""%string cs (j_name j) /\
    last_set sets_type Fixed cs (j_type j) /\
    last_set sets_limits None cs (j_limits j) /\
    last_set sets_translation (V3 szero szero szero) cs (tr (j_origin j)) /\
    last_set sets_rotation (Qt szero szero szero sone) cs (rt (j_origin j)) /\
    j_position j = szero /\ j_velocity j = szero /\ j_wt_cache j = None /\ j_wv_cache j = None.
  Proof.
    cbv zeta. unfold nb_calls.
    repeat split; cbn.
    - apply (fold_last_set sets_name nb_name nb_step nb_new). intros b []; reflexivity.
    - apply (fold_last_set sets_type nb_joint_type nb_step nb_new). intros b []; reflexivity.
    - apply (fold_last_set sets_limits nb_limits nb_step nb_new). intros b []; reflexivity.
    - apply (fold_last_set sets_translation (fun b => tr (nb_origin b)) nb_step nb_new). intros b []; reflexivity.
    - apply (fold_last_set sets_rotation (fun b => rt (nb_origin b)) nb_step nb_new). intros b []; reflexivity.
  Qed.

  (** C57.  [into_node] allocates one node that nothing refers to and that has no
      parent, children, mimic relations or link; no other node is touched. *)
  Theorem C57_into_node (cs : list (nb_call T)) t h nx :
    exists a n,
      run t (nb_into_node (nb_calls cs)) (quiet h nx) = Done a (quiet (<[a := n]> h) (S nx)) /\ a = nx /\
      n_joint n = nb_finalize (nb_calls cs) /\ n_parent n = None /\ n_children n = [] /\
      n_mimic_parent n = None /\ n_mimic_children n = [] /\ n_mimic n = None /\ n_link n = None.
  Proof. eexists nx, _. cbn. repeat split. Qed.

  (** C57.  The link has the last name and inertial given, and all visuals and
      collisions in the order in which they were added. *)
  Theorem C57_link (cs : list (lb_call T)) :
    let l := lb_finalize (lb_calls cs) in
    last_set sets_link_name ""%string cs (l_name l) /\
    last_set sets_inertial (Inertial iso1 szero (M3 sone szero szero szero sone szero szero szero sone) None) cs (l_inertial l) /\
    l_visuals l = omap adds_visual cs /\ l_collisions l = omap adds_collision cs.
  Proof.
    cbv zeta. unfold lb_calls. split_and!.
    - apply (fold_last_set sets_link_name lb_name lb_step lb_new). intros b []; reflexivity.
    - apply (fold_last_set sets_inertial lb_inertial lb_step lb_new). intros b []; reflexivity.
    - induction cs as [|c cs IH] using rev_ind; [reflexivity|].
      rewrite fold_left_app, omap_app. cbn in *. rewrite <- IH. destruct c; cbn; rewrite ?app_nil_r; reflexivity.
    - induction cs as [|c cs IH] using rev_ind; [reflexivity|].
      rewrite fold_left_app, omap_app. cbn in *. rewrite <- IH. destruct c; cbn; rewrite ?app_nil_r; reflexivity.
  Qed.
End C57.
Print Assumptions C57_finalize.
Print Assumptions C57_into_node.
Print Assumptions C57_link.

(** C57.  The builder does not check the limits against the initial position: a
    node can be built outside its own limits. *)
Theorem C57_inside_limits_refuted :
  exists (cs : list (nb_call spec_float)) r,
    j_limits (nb_finalize (nb_calls cs)) = Some r /\
    is_valid r (j_position (nb_finalize (nb_calls cs))) = false /\
    range_new (rmin r) (rmax r) = Some r.
Proof. exists [CLimits (Some (Range (f 1) (f 2)))], (Range (f 1) (f 2)). vm_compute. auto. Qed.
Print Assumptions C57_inside_limits_refuted.

(** The joints of URDF files are built with these setters (urdf.rs:241-258, 270). *)
Theorem C57_urdf_joint {S T} `{Scalar S} `{Scalar T} (conv : S -> T) (j : ujoint S) limits :
  joint_limits_from conv j = Some limits ->
  joint_from conv j = Some (nb_finalize (nb_calls
    [CName (uj_name j); CJointType (joint_type_from conv j); CLimits limits;
     CRotation (quaternion_from conv (u_rpy (uj_origin j))); CTranslation (translation_from conv (u_xyz (uj_origin j)))])) /\
  root_joint = nb_finalize (nb_calls [CName ROOT_JOINT_NAME] : node_builder T).
Proof. unfold joint_from. intros ->. split; reflexivity. Qed.
Print Assumptions C57_urdf_joint.

(** setters in an unusual order: [translation] after [rotation] keeps the
    rotation, a later [origin] overrides both, and a [rotation] after it is kept *)
Example C57_case :
  let q := Qt (f 1) (f 0) (f 0) (f 0) in
  let j := nb_finalize (nb_calls [CRotation q; CTranslation (V3 (f 1) (f 2) (f 3)); CName "a"; COrigin (trans 4 5 6);
             CRotation q; CName "b"; CJointType (Linear z_axis)]) in
  tr (j_origin j) = V3 (f 4) (f 5) (f 6) /\ rt (j_origin j) = q /\ j_name j = "b"%string.
Proof. vm_compute. auto. Qed.
