(** * C21, C22, C37, C49: rigid motions, pose difference, roll-pitch-yaw (over the reals) *)
From Coq Require Import Reals Lra Psatz Nsatz String.
From stdpp Require Import gmap.
From Verif Require Import Scalar ScalarR Geometry Joint Link Prog NodeM ChainM IkM UrdfM SpecJoint SpecNode SpecGraph
  SpecChain SpecFK SpecGeom RGeom PoseDiff GeomProofs.
Local Open Scope R_scope.

(** C21: a local transform is a rigid motion, with a unit rotation. *)
Theorem C21_rigid (j : joint R) : unit_joint j -> proper (local_transform j) /\ rigid (move (local_transform j)).
Proof. exact (fun H => conj (proper_local j H) (proper_rigid _ (proper_local j H))). Qed.
Print Assumptions C21_rigid.
Theorem C21_fixed (j : joint R) : j_type j = Fixed -> local_transform j = j_origin j.
Proof. exact (local_fixed j). Qed.
Print Assumptions C21_fixed.
Theorem C21_linear (j : joint R) (a : vec3 R) : j_type j = Linear a ->
  rt (local_transform j) = rt (j_origin j) /\
  forall x, move (local_transform j) x = move (j_origin j) (plus x (times (j_position j) a)).
Proof. exact (local_linear j a). Qed.
Print Assumptions C21_linear.
(** ... and along a unit axis the displacement has length |p|. *)
Theorem C21_linear_distance (j : joint R) (a x : vec3 R) : unit_joint j -> j_type j = Linear a ->
  dist (move (local_transform j) x) (move (j_origin j) x) = Rabs (j_position j).
Proof.
  intros Hj E. destruct (local_linear j a E) as [_ ->]. destruct Hj as [Ht Ho]. rewrite E in Ht.
  unfold dist. rewrite move_minus, len_turn by exact Ho. cbn in Ht. unfold unit_axis in Ht. unfold len.
  replace (inner _ _) with (j_position j * j_position j).
  2:{ set (p := j_position j). clearbody p. transitivity (p * p * inner a a); [|destruct a, x; un; ring].
      change (inner a a = 1) in Ht. rewrite Ht. ring. }
  rewrite <- sqrt_Rsqr_abs. reflexivity.
Qed.
Print Assumptions C21_linear_distance.
Theorem C21_rotational (j : joint R) (a x : vec3 R) : unit_joint j -> j_type j = Rotational a ->
  move (local_transform j) x = move (j_origin j) (rotate a (j_position j) x).
Proof. exact (local_rotational j a x). Qed.
Print Assumptions C21_rotational.
(** What [rotate] is: it fixes the axis, is additive in the angle, is periodic, and
    turns a vector orthogonal to the axis by the angle in the plane spanned with
    the cross product. *)
Theorem C21_rotation_fixes_axis (a : vec3 R) (p s : R) : unit_axis a -> rotate a p (times s a) = times s a.
Proof.
  intros H. rewrite <- turn_axis_angle, turn_times, turn_axis_angle, rotate_axis by exact H. reflexivity.
Qed.
Print Assumptions C21_rotation_fixes_axis.
Theorem C21_rotation_additive (a x : vec3 R) (p p' : R) : unit_axis a ->
  rotate a (p + p') x = rotate a p (rotate a p' x).
Proof. exact (rotate_add a p p' x). Qed.
Print Assumptions C21_rotation_additive.
Theorem C21_rotation_periodic (a x : vec3 R) (p : R) : rotate a (p + 2 * PI) x = rotate a p x.
Proof. exact (rotate_period a p x). Qed.
Print Assumptions C21_rotation_periodic.
Theorem C21_rotation_plane (a x : vec3 R) (p : R) : unit_axis a -> inner a x = 0 ->
  rotate a p x = plus (times (cos p) x) (times (sin p) (cross a x)).
Proof. intros _ H. unfold rotate. rewrite H. gv; ring. Qed.
Print Assumptions C21_rotation_plane.
(** the same for the joint: equal angles modulo a full turn act equally *)
Theorem C21_rotational_periodic (j : joint R) (a x : vec3 R) : unit_joint j -> j_type j = Rotational a ->
  move (local_transform (joint_set_unchecked j (j_position j + 2 * PI))) x = move (local_transform j) x.
Proof.
  intros Hj E. rewrite (local_rotational (joint_set_unchecked j _) a) by (exact Hj || exact E).
  rewrite (local_rotational j a) by assumption. cbn [joint_set_unchecked j_position j_origin].
  rewrite rotate_period. reflexivity.
Qed.
Print Assumptions C21_rotational_periodic.

(** C22 *)
Theorem C22_update_transforms (t : nat) (h : gmap nat (node R)) nx c :
  all_live h (c_nodes c) -> parents_first h (c_nodes c) ->
  (forall a n, a ∈ c_nodes c -> h !! a = Some n -> unit_joint (n_joint n)) ->
  exists ws h', run t (update_transforms c) (quiet h nx) = Done ws (quiet h' nx) /\
    Forall2 (world h) (c_nodes c) ws /\ Forall (fun w => proper w /\ rigid (move w)) ws.
Proof. exact (update_transforms_proper_lemma t h nx c). Qed.
Print Assumptions C22_update_transforms.
(** C22: for any chain whatsoever, whose caches may be used: properness is kept. *)
Theorem C22_any_chain (t : nat) (h : gmap nat (node R)) nx c ws s' : all_unit h ->
  run t (update_transforms c) (quiet h nx) = Done ws s' ->
  Forall (fun w => proper w /\ rigid (move w)) ws /\ exists h', s' = quiet h' nx /\ all_unit h'.
Proof. exact (update_transforms_unit_lemma t h nx c ws s'). Qed.
Print Assumptions C22_any_chain.
Theorem C22_end_transform (t : nat) (h : gmap nat (node R)) nx c :
  all_live h (c_nodes c) -> (forall a n, a ∈ c_nodes c -> h !! a = Some n -> unit_joint (n_joint n)) ->
  exists w, run t (end_transform c) (quiet h nx) = Done w (quiet h nx) /\ proper w /\ rigid (move w).
Proof. exact (end_transform_unit_lemma t h nx c). Qed.
Print Assumptions C22_end_transform.
(** C22: the matrix of a unit rotation (used for velocities) is the same rotation *)
Theorem C22_rotation_matrix (q : quat R) v : unit_quat q -> mat3_mul (q_to_mat q) v = turn q v.
Proof. unfold unit_quat, turn. destruct q, v. intros H. gv; cbn in *; nsatz. Qed.
Print Assumptions C22_rotation_matrix.

(** C37 *)
Theorem C37_zero_iff_same_pose (a b : iso R) : proper a -> proper b ->
  calc_pose_diff a b = [0; 0; 0; 0; 0; 0] <-> same_pose a b.
Proof. exact (pose_diff_zero_lemma a b). Qed.
Print Assumptions C37_zero_iff_same_pose.
Theorem C37_pose_diff (a b : iso R) : proper a -> proper b ->
  exists w, calc_pose_diff a b =
    [vx (tr a) - vx (tr b); vy (tr a) - vy (tr b); vz (tr a) - vz (tr b); vx w; vy w; vz w] /\
    (forall x, rotate_by w (turn (rt b) x) = turn (rt a) x) /\ len w <= PI.
Proof. exact (pose_diff_rot_lemma a b). Qed.
Print Assumptions C37_pose_diff.

(** C49; over the reals the conversion f64 -> T is the identity *)
Theorem C49_rpy (r p y : R) (v : vec3 R) :
  unit_quat (quaternion_from (fun x : R => x) (V3 r p y)) /\
  turn (quaternion_from (fun x : R => x) (V3 r p y)) v = rot_z y (rot_y p (rot_x r v)).
Proof.
  assert (quaternion_from (fun x : R => x) (V3 r p y) = qeuler r p y) as -> by (apply Qt_eq; reflexivity).
  exact (conj (unit_qeuler r p y) (qeuler_turn r p y v)).
Qed.
Print Assumptions C49_rpy.
(** the coordinate rotations are the rotations about the coordinate axes *)
Theorem C49_axes (p : R) (v : vec3 R) :
  rot_x p v = rotate (V3 1 0 0) p v /\ rot_y p v = rotate (V3 0 1 0) p v /\ rot_z p v = rotate (V3 0 0 1) p v.
Proof. unfold rot_x, rot_y, rot_z. split; [|split]; destruct v; gv; ring. Qed.
Print Assumptions C49_axes.
Theorem C49_isometry (xyz x : vec3 R) (r p y : R) :
  move (isometry_from (fun x : R => x) (UPose xyz (V3 r p y))) x = plus (rot_z y (rot_y p (rot_x r x))) xyz.
Proof.
  unfold move. cbn [isometry_from rt tr u_xyz u_rpy].
  destruct (C49_rpy r p y x) as [_ ->]. destruct xyz. reflexivity.
Qed.
Print Assumptions C49_isometry.

(** ** Concrete cases *)
(** a hinge about z displaced by (1,0,0) and turned by a quarter turn carries
    (1,0,0) to (1,1,0) *)
Definition hinge (p : R) : joint R :=
  Joint "hinge" (Rotational (V3 0 0 1)) p 0 None (Iso (V3 1 0 0) q1) None None.
Definition slide (p : R) : joint R :=
  Joint "slide" (Linear (V3 0 (3/5) (4/5))) p 0 None (Iso (V3 0 0 2) (Qt 0 0 (4/5) (3/5))) None None.
Example C21_case_hypotheses p : unit_joint (hinge p) /\ unit_joint (slide p).
Proof. unfold unit_joint, unit_type, proper, unit_axis, unit_quat; cbn. split; split; lra. Qed.
Example C21_case : move (local_transform (hinge (PI / 2))) (V3 1 0 0) = V3 1 1 0.
Proof.
  rewrite (local_rotational _ (V3 0 0 1)); [|apply C21_case_hypotheses|reflexivity].
  cbn [hinge j_position j_origin]. unfold rotate. rewrite cos_PI2, sin_PI2. gv; ring.
Qed.
(** slide -> hinge; the chain [0; 1] *)
Definition node_of (j : joint R) (p : option nat) (ch : list nat) : node R := Node p ch j None [] None None.
Definition two : gmap nat (node R) :=
  <[0%nat := node_of (slide 1) None [1%nat]]> (<[1%nat := node_of (hinge (PI / 2)) (Some 0%nat) []]> ∅).
Example C22_case_hypotheses :
  all_live two [0%nat; 1%nat] /\ parents_first two [0%nat; 1%nat] /\ all_unit two.
Proof.
  assert (H0 : two !! 0%nat = Some (node_of (slide 1) None [1%nat])) by reflexivity.
  assert (H1 : two !! 1%nat = Some (node_of (hinge (PI / 2)) (Some 0%nat) [])) by reflexivity.
  split; [|split].
  - intros a Ha. apply elem_of_cons in Ha as [->|Ha]; [eauto|]. apply elem_of_list_singleton in Ha as ->. eauto.
  - intros l1 a l2 p E [(n & Hn & Hp) _].
    destruct l1 as [|x [|y [|z l1]]]; cbn in E; try discriminate; injection E; intros; subst.
    + rewrite H0 in Hn. apply Some_inj in Hn as <-. discriminate.
    + rewrite H1 in Hn. apply Some_inj in Hn as <-. cbn in Hp. injection Hp as <-. set_solver.
  - intros a n Hn. unfold two in Hn. apply lookup_insert_Some in Hn as [[<- <-]|[_ Hn]];
      [|apply lookup_insert_Some in Hn as [[<- <-]|[_ Hn]]; [|rewrite lookup_empty in Hn; discriminate]];
      (split; [apply C21_case_hypotheses|intros w E; discriminate]).
Qed.
(** a half turn about z: the rotation vector has length PI, the largest possible *)
Example C37_case : proper (Iso v0 (Qt 0 0 1 0)) /\ proper iso1 /\
  calc_pose_diff (Iso (V3 1 2 3) (Qt 0 0 1 0)) iso1 = [1; 2; 3; 0; 0; PI].
Proof.
  split; [unfold proper, unit_quat; cbn; lra|]. split; [apply proper_1|].
  unfold calc_pose_diff, qrotation_to.
  assert (qmul (rt (Iso (V3 1 2 3) (Qt 0 0 1 0))) (qconj (rt iso1)) = Qt 0 0 1 0) as -> by (gq; ring).
  assert (Hn : vnorm (V3 0 0 1) = 1) by (unfold vnorm; cbn; replace (0 * 0 + 0 * 0 + 1 * 1) with 1 by ring; apply sqrt_1).
  assert (Hs : qscaled_axis (Qt 0 0 1 0) = V3 0 0 PI).
  { unfold qscaled_axis, qaxis, qangle, qvec. cbn [qi qj qk qw].
    replace (sge 0 (szero : R)) with true by (unfold sge; cbn; unfold Rleb; destruct (Rle_dec 0 0); lra || auto).
    rewrite Hn. replace (sgt 1 (szero : R)) with true by (unfold sgt; cbn; unfold Rltb; destruct (Rlt_dec 0 1); lra || auto).
    cbn [sabs RScalar satan2]. rewrite Rabs_R0. unfold Ratan2.
    destruct (Rlt_dec 0 0); [lra|]. destruct (Rlt_dec 0 1); [|lra]. rewrite stwo_R. gv; field. }
  rewrite Hs. cbn. repeat f_equal; ring.
Qed.
(** a quarter turn of yaw carries x to y *)
Example C49_case : turn (quaternion_from (fun x : R => x) (V3 0 0 (PI / 2))) (V3 1 0 0) = V3 0 1 0.
Proof.
  destruct (C49_rpy 0 0 (PI / 2) (V3 1 0 0)) as [_ ->]. unfold rot_x, rot_y, rot_z. cbn.
  rewrite cos_0, sin_0, cos_PI2, sin_PI2. gv; ring.
Qed.
