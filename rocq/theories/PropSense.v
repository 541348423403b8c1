(** * C92: the zero and the sense of the joints *)
From Coq Require Import String Reals Lra Lia NArith Sorting.Sorted.
From stdpp Require Import gmap.
From Verif Require Import Scalar ScalarR Geometry Joint Link Prog NodeM ChainM FuncsM IkM LuM SvdM RunLemmas
  SpecJoint SpecNode SpecGraph SpecChain ChainProofs SpecFK FKProofs SpecIk IkProofs JacProofs SpecCom ComProofs SpecGeom RGeom GeomProofs SpecStep SpecLin LinAlgR LinArm TrajProofs
  UnitLin CacheProofs SpecSense SenseLin SenseProofs SenseSolve PropGeom PropStep PropTraj PropLu PropSvd PropSvd2 PropUnit.
Local Open Scope R_scope.

(** C92: describe the joints of a robot anew, with other zeros and senses.  The solver does the
    same: it returns the same answer, the robots it leaves are the same, and it panics with the
    same message if it panics.  This holds with and without redundancy, limits, a null-space
    function and ignored joints, except if joints are ignored and exactly as many joints as
    constrained coordinates remain. *)
Theorem C92_solver t t' ovf dec (sv sv' : solver R) h h' nx nx' arm target c f :
  decomposes dec -> usable h arm -> recalibrated f h h' -> same_task f arm sv sv' ->
  NoDup (ignored_joint_names c) -> ignored_joint_names c = [] \/ (count (flags c) + length (ignored_joint_names c) < c_dof arm)%nat ->
  recalibrated_outcome f (recalibrated_result eq) nx nx'
    (run t (solve_with_constraints ovf (svd_linalg na_lu_solve dec) sv arm target c) (quiet h nx))
    (run t' (solve_with_constraints ovf (svd_linalg na_lu_solve dec) sv' arm target c) (quiet h' nx')).
Proof.
  intros Hdec Hu Hh Hs Hnd Hn. eapply (csim_solve f arm ovf _ sv sv' target (nalgebra_sense_free dec Hdec) Hs); try eassumption.
  eapply senses_length. exact Hu.
Qed.
Print Assumptions C92_solver.
(** C92: the arm is at the same place, and the columns of the Jacobian change their sign with the
    sense of the joint *)
Theorem C92_forward t t' h h' nx nx' arm f : usable h arm -> recalibrated f h h' ->
  recalibrated_outcome f eq nx nx' (run t (end_transform arm) (quiet h nx)) (run t' (end_transform arm) (quiet h' nx')) /\
  recalibrated_outcome f (fun J J' => m_rows J' = m_rows J /\ m_cols J' = zip_with turned_column (signs (senses f arm)) (m_cols J)) nx nx'
    (run t (jacobian arm) (quiet h nx)) (run t' (jacobian arm) (quiet h' nx')) /\
  (forall a w, world h a w -> world h' a w).
Proof.
  intros Hu Hh. split; [|split].
  - exact (proj1 (csim_end f arm t t' h h' nx nx' Hu Hh)).
  - pose proof (proj1 (csim_jacobian f arm t t' h h' nx nx' Hu Hh)) as H. unfold recalibrated_outcome in *. repeat case_match; try contradiction; [|exact H].
    destruct H as [(_ & _ & _ & ->) H]. split; [|exact H]. split; reflexivity.
  - intros a w. eapply cal_world. exact Hh.
Qed.
Print Assumptions C92_forward.
(** C92: the setters take the positions in the new description *)
Theorem C92_setters t t' h h' nx nx' arm f ps : usable h arm -> recalibrated f h h' -> length ps = c_dof arm ->
  recalibrated_outcome f (recalibrated_result eq) nx nx' (run t (set_joint_positions arm ps) (quiet h nx))
    (run t' (set_joint_positions arm (zip_with measured (senses f arm) ps)) (quiet h' nx')) /\
  recalibrated_outcome f eq nx nx' (run t (set_joint_positions_clamped arm ps) (quiet h nx))
    (run t' (set_joint_positions_clamped arm (zip_with measured (senses f arm) ps)) (quiet h' nx')).
Proof. intros Hu Hh Hl. split; [exact (proj1 (csim_set f arm ps Hl t t' h h' nx nx' Hu Hh))|exact (proj1 (csim_clamped f arm ps t t' h h' nx nx' Hu Hh))]. Qed.
Print Assumptions C92_setters.
(** C92: the center of mass *)
Theorem C92_center_of_mass t t' h h' nx nx' c f : all_live h (c_nodes c) -> parents_first h (c_nodes c) -> recalibrated f h h' ->
  exists x s s', run t (center_of_mass c) (quiet h nx) = Done x s /\ run t' (center_of_mass c) (quiet h' nx') = Done x s'.
Proof.
  intros Hl Hp Hh. assert (Hl' : all_live h' (c_nodes c)) by (intros a Ha; apply (cal_live f _ _ _ Hh), Hl, Ha).
  assert (Hp' : parents_first h' (c_nodes c)) by (intros l1 a l2 p E H; eapply Hp; [exact E|]; apply (cal_live_parent f _ _ _ _ Hh); exact H).
  destruct (center_of_mass_lemma t h nx c Hl Hp) as (cs & g & Hcs & Hr). destruct (center_of_mass_lemma t' h' nx' c Hl' Hp') as (cs' & g' & Hcs' & Hr').
  assert (cs' = cs) as -> by (eapply centers_fun; [exact Hcs'|eapply centers_cal; eauto]).
  eexists _, _, _. split; [exact Hr|exact Hr'].
Qed.
Print Assumptions C92_center_of_mass.
(** C92: the library's null-space function is the same task if its reference positions are
    described anew *)
Theorem C92_reference f arm d a m n ref w : length ref = c_dof arm -> length w = c_dof arm -> length (senses f arm) = c_dof arm ->
  same_task f arm (Solver d a m n (create_reference_positions_nullspace_function ref w))
    (Solver d a m n (create_reference_positions_nullspace_function (zip_with measured (senses f arm) ref) w)).
Proof.
  intros Lr Lw Lf. unfold same_task, create_reference_positions_nullspace_function. rewrite zip_with_length, !decide_True by lia. cbn. do 4 (split; [reflexivity|]).
  unfold signs. revert Lr Lw Lf. generalize (senses f arm) as fs. generalize (c_dof arm) as k. clear. intros k fs. revert k ref w. induction fs as [|g fs IH]; intros k [|r ref] [|y w] Lr Lw Lf [|p q] Lq; cbn in *; try lia.
  - split; [|reflexivity]. intros v E. injection E as <-. exact Lq.
  - destruct k as [|k]; [lia|]. destruct (IH k ref w ltac:(lia) ltac:(lia) ltac:(lia) q ltac:(lia)) as [Hl E]. split.
    + intros v Hv. destruct (nullspace_rows ref w q) as [v0|]; [|discriminate]. injection Hv as <-. cbn. rewrite (Hl v0 eq_refl). reflexivity.
    + rewrite E. destruct (nullspace_rows ref w q) as [v0|]; [|reflexivity]. cbn. do 2 f_equal. unfold measured. ring.
Qed.
Print Assumptions C92_reference.

(** the robot described anew *)
Definition anew (f : sense) (n : node R) : node R :=
  let j := n_joint n in
  Node (n_parent n) (n_children n)
    (Joint (j_name j) (facing f (j_type j)) (measured f (j_position j)) 0 (measured_range f <$> j_limits j)
       (iso_mul (j_origin j) (screw (j_type j) (- zero_at f))) None None) (n_mimic_parent n) (n_mimic_children n) (n_mimic n) (n_link n).
Definition all_anew (f : nat -> sense) (h : gmap nat (node R)) : gmap nat (node R) := map_imap (fun a n => Some (anew (f a) n)) h.
Lemma anew_recalibrated f h : (forall a n, h !! a = Some n -> unit_joint (n_joint n) /\ forall r, j_limits (n_joint n) = Some r -> rmin r <= rmax r) -> recalibrated f h (all_anew f h).
Proof.
  intros H a. unfold all_anew. rewrite map_lookup_imap. destruct (h !! a) as [n|] eqn:Hn; cbn; [|exact I]. destruct (H a n Hn) as [Hu Hr]. repeat split; try apply Hu; assumption.
Qed.
(** every other joint reversed, and all zeros moved *)
Definition odd_ones (a : nat) : sense := Sense (Nat.odd a) (1 / 4).
Definition five : constraints := Constraints true true true true true false [].
Example C92_case : usable robot6 arm6 /\ recalibrated odd_ones robot6 (all_anew odd_ones robot6) /\
  same_task odd_ones arm6 coarse coarse /\ (count (flags five) < c_dof arm6)%nat /\ signs (senses odd_ones arm6) = [1; -1; 1; -1; 1; -1] /\
  position_at (all_anew odd_ones robot6) 1%nat = Some (- (1 / 4)).
Proof.
  split; [exact robot6_usable|]. split.
  { apply anew_recalibrated. intros a n Hn. destruct (decide (a ∈ [5; 4; 3; 2; 1; 0]%nat)) as [Ha|Ha].
    - destruct (robot6_in a Ha) as [j Hj]. rewrite (robot6_at a j Hj) in Hn. apply Some_inj in Hn as <-. change (n_joint (node_six a j)) with j. apply elem_of_list_lookup_2 in Hj.
      split; [pose proof six_unit as H; rewrite Forall_forall in H; apply H; exact Hj|]. intros r Hr. pose proof six_inside as H. rewrite Forall_forall in H. specialize (H j Hj r Hr). lra.
    - exfalso. apply Ha. do 6 (destruct a as [|a]; [repeat first [apply elem_of_list_here|apply elem_of_list_further]|]). unfold robot6 in Hn. cbn in Hn. rewrite !lookup_insert_ne in Hn by lia. rewrite lookup_empty in Hn. discriminate. }
  split; [repeat split|]. split; [vm_compute; lia|]. split; [reflexivity|].
  unfold position_at, all_anew. rewrite map_lookup_imap, (robot6_at 1 _ eq_refl). cbn. f_equal. unfold measured, sg. cbn. lra.
Qed.

(** C92: if the limits of a joint are the wrong way round, the joint is clamped to another place
    when its sense is reversed *)
Theorem C92_limits_refuted (j j' : joint R) x lo hi : j_type j <> Fixed -> j_limits j = Some (Range lo hi) -> hi < x < lo ->
  j_type j' = facing (Sense true 0) (j_type j) -> j_limits j' = measured_range (Sense true 0) <$> j_limits j ->
  j_position (joint_set_clamped j x) = lo /\ j_position (joint_set_clamped j' (measured (Sense true 0) x)) = measured (Sense true 0) hi.
Proof.
  intros Hm Hl Hx Et El. rewrite Hl in El. cbn in El. unfold measured_range, measured, sg in *. cbn in El |- *. unfold joint_set_clamped, is_movable. rewrite Et, Hl, El.
  destruct (j_type j) as [|ax|ax]; [congruence| |]; cbn; unfold clamp, sgt; cbn; unfold Rltb; repeat destruct (Rlt_dec _ _); cbn; split; lra.
Qed.
Print Assumptions C92_limits_refuted.

(** Two slides along x, the first of which is ignored.  One joint and one coordinate remain, so
    the solver takes the LU branch, which gives the answer for the second slide to the first
    (C34), in the sense of the second. *)
Definition lorry (s : R) : joint R := Joint "lorry" (Linear (V3 s 0 0)) 0 0 None iso1 None None.
Definition tandem (s : R) : gmap nat (node R) := <[0%nat := node_of (lorry 1) None [1%nat]]> (<[1%nat := node_of (lorry s) (Some 0%nat) []]> ∅).
Definition ahead : iso R := Iso (V3 1 0 0) q1.
Definition second (a : nat) : sense := Sense (Nat.odd a) 0.
Lemma tandem_path s : path_up (tandem s) 1%nat [1; 0]%nat.
Proof.
  eapply path_step; [split; [eexists; split; [reflexivity|reflexivity]|eexists; reflexivity]|]. apply path_root. split; [eexists; reflexivity|].
  intros p [(n & Hn & E) _]. apply Some_inj in Hn as <-. discriminate.
Qed.
Lemma lorry_local s : local_transform (lorry s) = iso1.
Proof. unfold local_transform, lorry. cbn [j_origin j_type j_position joint_transform]. rewrite iso_mul_1_l. unfold iso1. f_equal. gv; ring. Qed.
Lemma tandem_step s t nx ovf dec : s * s = 1 ->
  exists d h', run t (solve_one_loop_with_constraints ovf (svd_linalg na_lu_solve dec) half arm2 ahead (flags along_x) [0%nat]) (quiet (tandem s) nx) = Done (Ok d) (quiet h' nx) /\
    position_at h' 0%nat = Some (/ 2 * s) /\ position_at h' 1%nat = Some 0.
Proof.
  intros Hs. assert (Hj : joints_at (tandem s) [0; 1]%nat [lorry 1; lorry s]) by (repeat (constructor; [eexists; split; reflexivity|]); constructor).
  assert (Hc : chain_of (tandem s) (rev [1; 0]%nat) arm2) by (repeat split).
  destruct (serial_jacobian t (tandem s) nx arm2 1%nat [1; 0]%nat [lorry 1; lorry s] (tandem_path s) Hc Hj) as (h1 & HJ).
  assert (Ee : end_at iso1 [lorry 1; lorry s] = iso1).
  { unfold end_at. cbn [map]. rewrite !lorry_local. cbn [product foldl]. rewrite !iso_mul_1_l. reflexivity. }
  assert (Hw : run t (end_transform arm2) (quiet (tandem s) nx) = Done iso1 (quiet (tandem s) nx)).
  { rewrite <- Ee. unfold end_transform, end_at. apply run_end_fold, joints_locals, Hj. }
  assert (EJ : colsof (tr (end_at iso1 [lorry 1; lorry s])) iso1 [lorry 1; lorry s] = [[1; 0; 0; 0; 0; 0]; [s; 0; 0; 0; 0; 0]]).
  { rewrite Ee. cbn [colsof]. rewrite !lorry_local, !iso_mul_1_l. cbn [lorry j_type jcol].
    repeat (apply (f_equal2 (@cons (list R))); [repeat (apply (f_equal2 (@cons R)); [un; cbn; ring|]); reflexivity|]). reflexivity. }
  rewrite EJ in HJ.
  assert (Hlive : all_live (tandem s) (c_nodes arm2)) by (change (c_nodes arm2) with (rev [1; 0]%nat); apply all_live_rev; eapply path_all_live; apply tandem_path).
  assert (Hnd : NoDup (c_movable arm2)) by (apply (bool_decide_unpack _); vm_compute; exact I).
  assert (Hidx : Forall (fun j => (j < c_dof arm2)%nat) [0%nat]) by (constructor; [cbn; lia|constructor]).
  destruct (C53_iteration t ovf (svd_linalg na_lu_solve dec) half (tandem s) nx arm2 ahead along_x [0%nat] _ h1 _ Hc Hlive Hnd ltac:(repeat constructor) Hidx Hw HJ) as [_ H].
  destruct H as [H _]; [vm_compute; lia|].
  assert (Herr : flagged (flags along_x) (calc_pose_diff ahead iso1) = [1]) by (cbn; f_equal; lra). rewrite Herr in H.
  assert (Hred : reduced (flags along_x) [0%nat] [[1; 0; 0; 0; 0; 0]; [s; 0; 0; 0; 0; 0]] = Mat 1 [[s]]) by reflexivity. rewrite Hred in H.
  assert (Hsh : shaped (Mat 1 [[s]]) 1 1) by (repeat split; repeat constructor).
  assert (Hx : na_lu_solve (Mat 1 [[s]]) [1] = Some [s]).
  { destruct (na_lu_solve (Mat 1 [[s]]) [1]) as [x|] eqn:E.
    - destruct (C66_lu_exact _ 1 [1] x Hsh eq_refl E) as (_ & Hu & _). f_equal. symmetry. apply Hu. split; [reflexivity|]. cbn. f_equal. lra.
    - apply (C66_lu_singular _ 1 [1] Hsh eq_refl) in E. exfalso. apply E. intros [|z [|]] [Hl Hz]; try discriminate. cbn in Hz. injection Hz as Hz. cbn. f_equal.
      replace z with (s * s * z) by (rewrite Hs; ring). replace (s * s * z) with (s * (s * z + 0)) by ring. rewrite Hz. ring. }
  destruct (H [s] Hx) as (h' & w & Hr & _ & _ & Hpos). eexists _, h'. split; [exact Hr|]. split.
  - rewrite (Hpos 0%nat 0%nat _ eq_refl eq_refl). cbn. f_equal. lra.
  - rewrite (Hpos 1%nat 1%nat _ eq_refl eq_refl). reflexivity.
Qed.
(** C92: so with an ignored joint and a square system, two descriptions of one robot are moved in
    opposite directions *)
Theorem C92_ignored_refuted t nx ovf dec :
  usable (tandem 1) arm2 /\ recalibrated second (tandem 1) (tandem (-1)) /\
  exists d d' h h',
    run t (solve_one_loop_with_constraints ovf (svd_linalg na_lu_solve dec) half arm2 ahead (flags along_x) [0%nat]) (quiet (tandem 1) nx) = Done (Ok d) (quiet h nx) /\
    run t (solve_one_loop_with_constraints ovf (svd_linalg na_lu_solve dec) half arm2 ahead (flags along_x) [0%nat]) (quiet (tandem (-1)) nx) = Done (Ok d') (quiet h' nx) /\
    position_at h 0%nat = Some (1 / 2) /\ position_at h' 0%nat = Some (- (1 / 2)) /\ ~ recalibrated second h h'.
Proof.
  split; [|split].
  - split; [repeat split|]. split; [|split].
    + change (c_nodes arm2) with (rev [1; 0]%nat). apply all_live_rev. eapply path_all_live. apply tandem_path.
    + change (c_nodes arm2) with (rev [1; 0]%nat). eapply from_end_parents_first. apply tandem_path.
    + split; [apply (bool_decide_unpack _); vm_compute; exact I|]. intros a Ha. change (a ∈ [0; 1]%nat) in Ha. rewrite !elem_of_cons, elem_of_nil in Ha.
      destruct Ha as [->|[->|[]]]; eexists; (split; [reflexivity|split; reflexivity]).
  - assert (Hu : unit_joint (lorry 1)) by (split; [unfold unit_type, unit_axis; cbn; lra|unfold proper, unit_quat, lorry, iso1; cbn; lra]).
    assert (Hz : forall x, iso_mul iso1 (screw (Linear (V3 x 0 0)) (- 0)) = iso1) by (intros x; rewrite iso_mul_1_l; unfold screw, iso1; f_equal; unfold times, v0; cbn; f_equal; ring).
    intros a. unfold tandem. destruct (decide (a = 0%nat)) as [->|H0]; [|destruct (decide (a = 1%nat)) as [->|H1]].
    + rewrite !lookup_insert. unfold recalibrated_node, recalibrated_joint. cbn [node_of n_parent n_mimic_parent n_mimic_children n_joint n_link]. do 3 (split; [reflexivity|]). split; [|reflexivity].
      split; [exact Hu|]. split; [discriminate|]. split; [reflexivity|]. unfold second, measured, sg. cbn. repeat split; try lra; [unfold times; cbn; do 2 f_equal; lra|symmetry; apply Hz].
    + rewrite lookup_insert_ne by lia. rewrite lookup_insert. rewrite lookup_insert_ne by lia. rewrite lookup_insert. unfold recalibrated_node, recalibrated_joint. cbn [node_of n_parent n_mimic_parent n_mimic_children n_joint n_link]. do 3 (split; [reflexivity|]). split; [|reflexivity].
      split; [exact Hu|]. split; [discriminate|]. split; [reflexivity|]. unfold second, measured, sg. cbn. repeat split; try lra; [unfold times; cbn; do 2 f_equal; lra|symmetry; apply Hz].
    + rewrite !lookup_insert_ne by congruence. rewrite lookup_empty. exact I.
  - destruct (tandem_step 1 t nx ovf dec ltac:(lra)) as (d & h & Hr & Hp & _). destruct (tandem_step (-1) t nx ovf dec ltac:(lra)) as (d' & h' & Hr' & Hp' & _).
    replace (/ 2 * 1) with (1 / 2) in Hp by field. replace (/ 2 * -1) with (- (1 / 2)) in Hp' by field.
    exists d, d', h, h'. split; [exact Hr|]. split; [exact Hr'|]. split; [exact Hp|]. split; [exact Hp'|]. intros H. specialize (H 0%nat). unfold position_at in Hp, Hp'.
    destruct (h !! 0%nat) as [n|] eqn:Hn; [|discriminate]. destruct (h' !! 0%nat) as [n'|] eqn:Hn'; [|discriminate]. injection Hp as Hp. injection Hp' as Hp'.
    destruct H as (_ & _ & _ & (_ & _ & _ & _ & Ep & _) & _). rewrite Hp, Hp' in Ep. unfold measured, sg, second in Ep. cbn in Ep. lra.
Qed.
Print Assumptions C92_ignored_refuted.
