(** * C79: every matrix has a singular value decomposition, and the solver's motion does not depend on which one is computed *)
From Coq Require Import String NArith Reals Lra Lia Sorting.Sorted.
From stdpp Require Import gmap.
From Verif Require Import Scalar ScalarR Geometry Joint Link Prog NodeM ChainM FuncsM IkM LuM SvdM RunLemmas
  SpecJoint SpecNode SpecGraph GraphProofs SpecChain ChainProofs SpecFK FKProofs SpecIk JacProofs SpecGeom RGeom GeomProofs JacReal PoseDiff
  SpecStep SpecLin SpecConv IkProofs IkProofs2 StepProofs LinAlgR LinArm LinIk LuProofs SvdProofs TrajProofs PropGeom PropJac PropIk PropStep PropTraj PropLu PropSvd
  SvdMax SvdExist SvdUniq SvdDet PropConv.
Local Open Scope R_scope.

(** every column has as many entries as the matrix has rows *)
Definition well_formed (J : mat R) : Prop := Forall (fun c => length c = m_rows J) (m_cols J).
(** [dec] computes a decomposition of every matrix *)
Definition decomposes (dec : mat R -> svd R) : Prop := forall J, well_formed J -> svd_of J (dec J).

(** C79: a decomposition exists, with as many singular values as the smaller side *)
Theorem C79_exists (J : mat R) : well_formed J -> exists d, svd_of J d /\ length (sing d) = min (m_rows J) (length (m_cols J)).
Proof. intros H. destruct (matrix_svd J H) as [d Hd]. exists d. exact Hd. Qed.
Print Assumptions C79_exists.
Definition wf_dec (J : mat R) : Decision (well_formed J) := Forall_dec _ _.
(** C79: so there is a function that computes them *)
Theorem C79_decomposes : exists dec, decomposes dec /\ forall J, well_formed J -> length (sing (dec J)) = min (m_rows J) (length (m_cols J)).
Proof.
  exists (fun J => match wf_dec J with Specif.left H => proj1_sig (matrix_svd J H) | Specif.right _ => Svd [] [] [] end).
  split; intros J HJ; destruct (wf_dec J) as [H|H]; try contradiction; destruct (matrix_svd J H) as [d [H1 H2]]; assumption.
Qed.
Print Assumptions C79_decomposes.

(** C79: two decompositions of a matrix give the same motion and the same pseudo inverse *)
Theorem C79_same_answer (J : mat R) d d' eps : svd_of J d -> svd_of J d' -> 0 < eps ->
  (forall b, na_svd_solve d (length (m_cols J)) eps b = na_svd_solve d' (length (m_cols J)) eps b) /\
  na_pinv d (m_rows J) (length (m_cols J)) eps = na_pinv d' (m_rows J) (length (m_cols J)) eps.
Proof.
  intros H H' He. split; [intros b; apply solve_unique; assumption|].
  destruct (pinv_answer J d eps H He) as (P & -> & HP & Ha). destruct (pinv_answer J d' eps H' He) as (Q & -> & HQ & Ha'). f_equal.
  apply (same_action P Q _ _ HP HQ). intros b Hb. rewrite Ha, Ha' by exact Hb. apply answer_unique; assumption.
Qed.
Print Assumptions C79_same_answer.
(** C79: so the solver is one and the same program, whichever decompositions are computed, also
    when other threads run *)
Theorem C79_same_solver lu dec dec' ovf sv arm target c : decomposes dec -> decomposes dec' ->
  solve_with_constraints ovf (svd_linalg lu dec) sv arm target c = solve_with_constraints ovf (svd_linalg lu dec') sv arm target c.
Proof.
  intros H H'. apply solve_same. intros J HJ. destruct eps_R as [_ He].
  destruct (C79_same_answer J (dec J) (dec' J) ik_eps (H J HJ) (H' J HJ) He) as [H1 H2]. split; [intros b _; split; [reflexivity|apply H1]|exact H2].
Qed.
Print Assumptions C79_same_solver.

(** the matrices the solver meets *)
Lemma met_matrix t h nx arm q cols (c : constraints) idx : jacobian_at t h nx arm q cols -> NoDup idx -> Forall (fun j => (j < c_dof arm)%nat) idx ->
  shaped (reduced (flags c) idx cols) (count (flags c)) (c_dof arm - length idx).
Proof.
  intros [s HJ] Hnd Hi. apply run_bind_inv in HJ as (x & s1 & _ & HJ).
  apply (leaves_run _ t _ s1 (Mat 6 cols) s (leaves_jacobian arm)) in HJ as (_ & Ht & Hl). cbn in Hl.
  assert (E : reduced (flags c) idx cols = reduced (flags c) (sort_unstable idx) cols).
  { unfold reduced. f_equal. f_equal. unfold without. generalize 0%nat. clear. induction cols as [|a cols IH]; intros k; cbn; [reflexivity|]. rewrite IH.
    destruct (decide (k ∈ idx)) as [H|H], (decide (k ∈ sort_unstable idx)) as [H'|H']; try reflexivity; rewrite sort_elem in H'; contradiction. }
  rewrite E, <- (sort_length idx). apply reduced_shaped; [reflexivity|apply sort_strict; exact Hnd| |exact Hl|exact Ht].
  apply Forall_forall. intros j Hj. rewrite sort_elem in Hj. rewrite Forall_forall in Hi. auto.
Qed.
(** C79: with nalgebra's solve and any decomposition, C71 holds without a hypothesis about the linear algebra *)
Theorem C79_converges (t : nat) ovf (h : gmap nat (node R)) nx arm e l (c : constraints) dec q0 w idx cols s' s :
  decomposes dec ->
  path_up h e l -> chain_of h (rev l) arm ->
  (forall a n, a ∈ l -> h !! a = Some n -> unit_joint (n_joint n)) ->
  (forall a n lim, a ∈ c_movable arm -> h !! a = Some n -> j_limits (n_joint n) = Some lim ->
     rmin lim < j_position (n_joint n) < rmax lim) ->
  rotation_x c = rotation_y c -> rotation_y c = rotation_z c ->
  NoDup (ignored_joint_names c) -> Forall2 (first_named h (c_movable arm)) (ignored_joint_names c) idx ->
  (count (flags c) + length idx < c_dof arm)%nat \/ (idx = [] /\ count (flags c) = c_dof arm) ->
  run t (joint_positions arm) (quiet h nx) = Done q0 (quiet h nx) ->
  run t (end_transform arm) (quiet h nx) = Done w (quiet h nx) ->
  run t (jacobian arm) (quiet h nx) = Done (Mat 6 cols) s' ->
  conditioned (reduced (flags c) idx cols) s -> 1 / 5000 < s ->
  exists del, 0 < del /\
  forall m d a, 0 < m <= 1 -> 0 < d -> 0 < a -> exists k,
  forall sv target, nullspace_function sv = None -> jacobian_multiplier sv = m ->
    allowable_target_distance sv = d -> allowable_target_angle sv = a -> (k <= num_max_try sv)%nat ->
    proper target ->
    let err := norm (flagged (flags c) (pose_error target w)) in err < del ->
  exists h' q', run t (solve_with_constraints ovf (svd_linalg na_lu_solve dec) sv arm target c) (quiet h nx) = Done (Ok tt) (quiet h' nx) /\
    run t (joint_positions arm) (quiet h' nx) = Done q' (quiet h' nx) /\ near q0 (4 * err / s) q'.
Proof.
  intros Hdec Hp Hc Hu Hin Hrx Hry Hnd Hidx Hcnt Hq Hw HJ Hcond Hs.
  assert (Hbound : Forall (fun j => (j < c_dof arm)%nat) idx).
  { pose proof Hc as (_ & Hmv & Hdof). apply Forall_forall. intros j Hji. rewrite Hdof, <- Hmv.
    apply elem_of_list_lookup in Hji as [i Hi]. destruct (Forall2_lookup_r _ _ _ _ _ Hidx Hi) as (nm & _ & Hfn).
    destruct Hfn as (a & Haa & _). eapply lookup_lt_Some; exact Haa. }
  apply (C71_local t ovf h nx arm e l c (svd_linalg na_lu_solve dec) q0 w idx cols s' s); try assumption.
  - destruct Hcnt as [Hcnt|[-> Hcnt]]; cbn [length]; lia.
  - intros q cols' _ HJ'. destruct (met_matrix t h nx arm q cols' c idx HJ' (indices_nodup _ _ _ _ Hnd Hidx) Hbound) as (Hr & Hl & Hf).
    set (J := reduced (flags c) idx cols') in *. unfold nalgebra_at. destruct (decide _) as [Hd|Hd].
    + destruct (C79_exists J) as (d & Hd1 & Hd2); [unfold well_formed; rewrite Hr; exact Hf|]. exists d. split; [exact Hd1|].
      split; [rewrite Hd2, Hr, Hl; lia|]. intros b. cbn [svd_solve svd_linalg]. destruct eps_R as [_ He].
      apply (C79_same_answer J (dec J) d ik_eps); [|exact Hd1|exact He]. apply Hdec. unfold well_formed. rewrite Hr. exact Hf.
    + destruct Hcnt as [Hcnt|[-> Hcnt]]; [contradiction|]. split; reflexivity.
Qed.
Print Assumptions C79_converges.

(** two decompositions of the identity with different vectors *)
Definition plain : svd R := Svd [[1; 0]; [0; 1]] [1; 1] [[1; 0]; [0; 1]].
Definition turned : svd R := Svd [[3/5; 4/5]; [-4/5; 3/5]] [1; 1] [[3/5; 4/5]; [-4/5; 3/5]].
Definition id2 : mat R := Mat 2 [[1; 0]; [0; 1]].
Ltac ortho2 := intros i j a b Ha Hb; destruct i as [|[|i]]; try discriminate Ha; destruct j as [|[|j]]; try discriminate Hb;
  injection Ha as <-; injection Hb as <-; first [rewrite decide_True by reflexivity | rewrite decide_False by discriminate]; cbn; field.
Example C79_case : svd_of id2 plain /\ svd_of id2 turned /\ plain <> turned /\
  na_svd_solve turned 2 (1 / 10000) [5; 10] = na_svd_solve plain 2 (1 / 10000) [5; 10] /\ na_svd_solve plain 2 (1 / 10000) [5; 10] = Some [5; 10].
Proof.
  assert (H1 : svd_of id2 plain).
  { split; [reflexivity|]. split; [reflexivity|]. split; [repeat (apply Forall_cons; split; [reflexivity|]); constructor|]. split; [repeat (apply Forall_cons; split; [reflexivity|]); constructor|].
    split; [ortho2|]. split; [ortho2|]. split; [repeat (apply Forall_cons; split; [lra|]); constructor|].
    intros x Hx. change (length x = 2%nat) in Hx. destruct x as [|x [|y [|]]]; try discriminate Hx. cbn. repeat (apply (f_equal2 cons); [field|]). reflexivity. }
  assert (H2 : svd_of id2 turned).
  { split; [reflexivity|]. split; [reflexivity|]. split; [repeat (apply Forall_cons; split; [reflexivity|]); constructor|]. split; [repeat (apply Forall_cons; split; [reflexivity|]); constructor|].
    split; [ortho2|]. split; [ortho2|]. split; [repeat (apply Forall_cons; split; [lra|]); constructor|].
    intros x Hx. change (length x = 2%nat) in Hx. destruct x as [|x [|y [|]]]; try discriminate Hx. cbn. repeat (apply (f_equal2 cons); [field|]). reflexivity. }
  split; [exact H1|]. split; [exact H2|]. split; [intros E; injection E; intros; lra|]. split.
  - apply (C79_same_answer id2 turned plain (1 / 10000) H2 H1). lra.
  - rewrite (solve_answer id2 plain (1 / 10000) H1) by lra. f_equal. unfold answer, weights, coords. cbn. destruct (Rlt_dec (1 / 10000) 1); [|lra]. repeat (apply (f_equal2 cons); [field|]). reflexivity.
Qed.
(** a redundant arm: the gantry of C71, with any decomposition *)
Example C79_arm_case t ovf nx dec : decomposes dec ->
  exists del, 0 < del /\ forall m d a, 0 < m <= 1 -> 0 < d -> 0 < a -> exists k, forall n x y, (k <= n)%nat -> norm [x; y] < del ->
  exists h' q', run t (solve_with_constraints ovf (svd_linalg na_lu_solve dec) (Solver d a m n None) arm3 (Iso (V3 x y 0) q1) plane) (quiet gantry nx) = Done (Ok tt) (quiet h' nx) /\
    run t (joint_positions arm3) (quiet h' nx) = Done q' (quiet h' nx) /\ near [0; 0; 0] (4 * norm [x; y]) q'.
Proof.
  intros Hdec. destruct (gantry_run t nx) as [Hw [h1 HJ]]. destruct gantry_arm as (G1 & G2 & G3).
  destruct (run_positions t gantry nx arm3 _ G2) as (q0 & Hq & _).
  pose proof (start_positions t gantry nx arm3 _ tracks q0 _ G2 gantry_joints Hq) as E0. change (TrajProofs.posns tracks) with [0; 0; 0] in E0. subst q0.
  destruct (C79_converges t ovf gantry nx arm3 2%nat [2; 1; 0]%nat plane dec [0; 0; 0] iso1 []
    [[1; 0; 0; 0; 0; 0]; [0; 1; 0; 0; 0; 0]; [1; 0; 0; 0; 0; 0]] (quiet h1 nx) 1 Hdec G1 G2) as (del & Hdel & H); try reflexivity; try assumption.
  - intros a n Ha Hn. assert (Ha' : a = 0%nat \/ a = 1%nat \/ a = 2%nat) by (clear -Ha; set_solver).
    destruct Ha' as [-> | [-> | ->]]; apply Some_inj in Hn as <-; (split; [unfold unit_type, unit_axis; cbn; ring|exact proper_1]).
  - intros a n r Ha Hn. assert (Ha' : a = 0%nat \/ a = 1%nat \/ a = 2%nat) by (clear -Ha; cbn in Ha; set_solver).
    destruct Ha' as [-> | [-> | ->]]; apply Some_inj in Hn as <-; discriminate.
  - constructor.
  - constructor.
  - left. vm_compute. lia.
  - intros b Hb. change (length b = 2%nat) in Hb. do 3 (destruct b as [|? b]; try discriminate Hb). rewrite Rmult_1_l. apply norm_le. unfold transposed. change (m_cols _) with [[1; 0]; [0; 1]; [1; 0]]. cbn. nra.
  - lra.
  - exists del. split; [exact Hdel|]. intros m d a Hm Hd Ha. destruct (H m d a Hm Hd Ha) as [k Hk]. exists k. intros n x y Hn Hxy.
    assert (E : flagged (flags plane) (pose_error (Iso (V3 x y 0) q1) iso1) = [x; y]).
    { cbn. repeat (apply (f_equal2 (@cons R)); [ring|]). reflexivity. }
    destruct (Hk (Solver d a m n None) (Iso (V3 x y 0) q1)) as (h' & q' & F1 & F2 & F3); try reflexivity; try assumption.
    + unfold proper, unit_quat. cbn. ring.
    + rewrite E. exact Hxy.
    + exists h', q'. split; [exact F1|]. split; [exact F2|]. rewrite E in F3. replace (4 * norm [x; y]) with (4 * norm [x; y] / 1) by field. exact F3.
Qed.
