(** * C93: mirror images *)
From Coq Require Import String Reals Lra Lia NArith.
From stdpp Require Import gmap.
From Verif Require Import Scalar ScalarR Geometry Joint Link Prog NodeM ChainM FuncsM IkM LuM SvdM RunLemmas
  SpecJoint SpecNode SpecGraph SpecChain ChainProofs SpecFK FKProofs SpecIk IkProofs JacProofs SpecCom ComProofs SpecGeom RGeom SpecStep SpecLin LinAlgR TrajProofs
  CacheProofs SpecMirror MirrorLin MirrorProofs MirrorSolve PropGeom PropStep PropTraj PropLu PropSvd PropSvd2 PropUnit.
Local Open Scope R_scope.

(** C93: a robot and its mirror image, with the same joint positions and limits, asked for a pose
    and for its mirror image.  The solver moves the joints of the two robots in the same way and
    returns the same answer, or panics with the same message.  This holds for every choice of
    constraints, with and without redundancy, null-space functions and ignored joints. *)
Theorem C93_solver t t' ovf dec (sv : solver R) h h' nx nx' arm target c m :
  decomposes dec -> usable h arm -> image_robot m h h' ->
  image_outcome m (image_result m eq) nx nx'
    (run t (solve_with_constraints ovf (svd_linalg na_lu_solve dec) sv arm target c) (quiet h nx))
    (run t' (solve_with_constraints ovf (svd_linalg na_lu_solve dec) sv arm (image_pose m target) c) (quiet h' nx')).
Proof. intros Hdec Hu Hh. eapply (msim_solve m arm ovf _ sv target (nalgebra_row_free dec Hdec)); eassumption. Qed.
Print Assumptions C93_solver.
(** C93: the end of the arm, its Jacobian and all frames are seen in the mirror *)
Theorem C93_forward t t' h h' nx nx' arm m : usable h arm -> image_robot m h h' ->
  image_outcome m (fun w w' => w' = image_pose m w) nx nx' (run t (end_transform arm) (quiet h nx)) (run t' (end_transform arm) (quiet h' nx')) /\
  image_outcome m (fun J J' => m_rows J' = m_rows J /\ m_cols J' = map (zip_with Rmult (image_rows m)) (m_cols J)) nx nx'
    (run t (jacobian arm) (quiet h nx)) (run t' (jacobian arm) (quiet h' nx')) /\
  (forall a w, world h a w -> world h' a (image_pose m w)).
Proof.
  intros Hu Hh. split; [|split].
  - exact (proj1 (msim_end m arm t t' h h' nx nx' Hu Hh)).
  - pose proof (proj1 (msim_jacobian m arm t t' h h' nx nx' Hu Hh)) as H. unfold image_outcome in *. repeat case_match; try contradiction; [|exact H].
    destruct H as [(_ & _ & _ & ->) H]. split; [|exact H]. split; reflexivity.
  - intros a w. eapply img_world. exact Hh.
Qed.
Print Assumptions C93_forward.
(** C93: the setters do the same *)
Theorem C93_setters t t' h h' nx nx' arm m ps : usable h arm -> image_robot m h h' ->
  image_outcome m (image_result m eq) nx nx' (run t (set_joint_positions arm ps) (quiet h nx)) (run t' (set_joint_positions arm ps) (quiet h' nx')) /\
  image_outcome m eq nx nx' (run t (set_joint_positions_clamped arm ps) (quiet h nx)) (run t' (set_joint_positions_clamped arm ps) (quiet h' nx')) /\
  image_outcome m (fun qs qs' => qs' = qs) nx nx' (run t (joint_positions arm) (quiet h nx)) (run t' (joint_positions arm) (quiet h' nx')).
Proof.
  intros Hu Hh. split; [exact (proj1 (msim_set m arm ps t t' h h' nx nx' Hu Hh))|]. split; [exact (proj1 (msim_clamped m arm ps t t' h h' nx nx' Hu Hh))|].
  pose proof (proj1 (msim_positions m arm t t' h h' nx nx' Hu Hh)) as H. unfold image_outcome in *. repeat case_match; try contradiction; [|exact H]. destruct H as [[_ E] H]. split; assumption.
Qed.
Print Assumptions C93_setters.
(** C93: the center of mass *)
Theorem C93_center_of_mass t t' h h' nx nx' c m : all_live h (c_nodes c) -> parents_first h (c_nodes c) -> image_robot m h h' ->
  exists x s s', run t (center_of_mass c) (quiet h nx) = Done x s /\ run t' (center_of_mass c) (quiet h' nx') = Done (image m x) s'.
Proof.
  intros Hl Hp Hh. assert (Hl' : all_live h' (c_nodes c)) by (intros a Ha; apply (img_live m _ _ _ Hh), Hl, Ha).
  assert (Hp' : parents_first h' (c_nodes c)) by (intros l1 a l2 p E H; eapply Hp; [exact E|]; apply (img_live_parent m _ _ _ _ Hh); exact H).
  destruct (center_of_mass_lemma t h nx c Hl Hp) as (cs & g & Hcs & Hr). destruct (center_of_mass_lemma t' h' nx' c Hl' Hp') as (cs' & g' & Hcs' & Hr').
  assert (cs' = map (fun mc => (fst mc, image m (snd mc))) cs) as -> by (eapply centers_fun; [exact Hcs'|eapply centers_image; eauto]).
  destruct (weighted_image m cs) as [E1 E2]. rewrite E1, E2, image_divs in Hr'. eexists _, _, _. split; [exact Hr|exact Hr'].
Qed.
Print Assumptions C93_center_of_mass.

(** the mirror image of a robot *)
Definition seen_link (m : mirror) (l : link R) : link R :=
  let i := l_inertial l in Link (l_name l) (Inertial (image_pose m (in_origin i)) (in_mass i) (in_inertia i) None) (l_visuals l) (l_collisions l).
Definition seen (m : mirror) (n : node R) : node R :=
  let j := n_joint n in
  Node (n_parent n) (n_children n) (Joint (j_name j) (image_type m (j_type j)) (j_position j) (j_velocity j) (j_limits j) (image_pose m (j_origin j)) None None)
    (n_mimic_parent n) (n_mimic_children n) (n_mimic n) (seen_link m <$> n_link n).
(** C93: every robot has a mirror image, and is the mirror image of its mirror image *)
Theorem C93_image m (h h' : gmap nat (node R)) : image_robot m h (seen m <$> h) /\ (image_robot m h h' -> image_robot m h' h).
Proof.
  split.
  - intros a. rewrite lookup_fmap. destruct (h !! a) as [n|]; cbn; [|exact I]. repeat split. cbn. destruct (n_link n); [split; reflexivity|exact I].
  - assert (Ei : forall v, image m (image m v) = v) by (intros []; flips m; f_equal; ring). assert (Ea : forall v, image_axis m (image_axis m v) = v) by (intros []; flips m; f_equal; ring).
    assert (Ep : forall w, image_pose m (image_pose m w) = w).
    { intros [v q]. unfold image_pose at 1. cbn [image_pose tr rt]. rewrite Ei. f_equal. destruct q. flips m; f_equal; ring. }
    intros H a. specialize (H a). destruct (h !! a) as [n|], (h' !! a) as [n'|]; try contradiction; [|exact I].
    destruct H as (E1 & E2 & E3 & (J1 & J2 & J3 & J4 & J5) & L). split; [congruence|]. split; [congruence|]. split; [congruence|]. split.
    + split; [congruence|]. split; [|split; [congruence|split; [congruence|rewrite J5; symmetry; apply Ep]]]. rewrite J2. destruct (j_type (n_joint n)); cbn; rewrite ?Ei, ?Ea; reflexivity.
    + unfold image_link in *. destruct (n_link n), (n_link n'); try contradiction; [|exact I]. destruct L as [L1 L2]. split; [congruence|]. rewrite L2, Ei. reflexivity.
Qed.
Print Assumptions C93_image.
(** C93: an arm that is its own mirror image, such as an arm moving in a plane, has its end in
    the mirror plane *)
Corollary C93_planar t h nx arm m w s : usable h arm -> image_robot m h h -> run t (end_transform arm) (quiet h nx) = Done w s -> w = image_pose m w.
Proof. intros Hu Hh Hr. pose proof (proj1 (C93_forward t t h h nx nx arm m Hu Hh)) as H. rewrite Hr in H. apply H. Qed.
Print Assumptions C93_planar.

(** left and right: the image in the plane of x and z *)
Definition left_right : mirror := Mirror false true false.
Example C93_case : usable robot6 arm6 /\ image_robot left_right robot6 (seen left_right <$> robot6) /\
  map (fun j => image_type left_right (j_type j)) six = [Linear (V3 1 0 0); Linear (V3 0 (-1) 0); Linear (V3 0 0 1); Rotational (V3 0 0 (-1)); Rotational (V3 0 1 0); Rotational (V3 (-1) 0 0)] /\
  image_pose left_right (Iso (V3 1 2 3) (Qt 1 0 0 0)) = Iso (V3 1 (-2) 3) (Qt (-1) 0 0 0).
Proof.
  split; [exact robot6_usable|]. split; [apply (C93_image left_right robot6 ∅)|].
  split; [|unfold image_pose, image, image_rot, image_axis, left_right, sgn; cbn; f_equal; f_equal; ring].
  unfold six. cbn. unfold image, image_axis, sgn. cbn. repeat (apply (f_equal2 cons); [apply f_equal, V3_eq; cbn; ring|]). reflexivity.
Qed.
(** a turn about z and a slide along x: an arm in the plane of x and y *)
Definition up_down : mirror := Mirror false false true.
Example C93_planar_case k : usable (ride k) arm2 /\ image_robot up_down (ride k) (ride k).
Proof.
  split.
  - split; [repeat split|]. split; [|split].
    + change (c_nodes arm2) with (rev [1; 0]%nat). apply all_live_rev. eapply path_all_live. apply ride_path.
    + change (c_nodes arm2) with (rev [1; 0]%nat). eapply from_end_parents_first. apply ride_path.
    + split; [apply (bool_decide_unpack _); vm_compute; exact I|]. intros a Ha. repeat (apply elem_of_cons in Ha as [->|Ha]; [eexists; split; [reflexivity|split; reflexivity]|]). inversion Ha.
  - intros a. unfold ride. destruct (decide (a = 0%nat)) as [->|H0]; [|destruct (decide (a = 1%nat)) as [->|H1]].
    + rewrite !lookup_insert. unfold image_node, image_joint, spin. cbn. unfold image_pose, image_rot, image, image_axis, sgn. cbn. repeat split; try (unfold iso1, v0, q1; cbn; f_equal; f_equal; ring); f_equal; f_equal; ring.
    + rewrite !lookup_insert_ne, !lookup_insert by auto. unfold image_node, image_joint, rail. cbn. unfold image_pose, image_rot, image, image_axis, sgn. cbn. repeat split; try (unfold iso1, v0, q1; cbn; f_equal; f_equal; ring); f_equal; f_equal; ring.
    + rewrite !lookup_insert_ne, !lookup_empty by auto. exact I.
Qed.
