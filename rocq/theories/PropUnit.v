(** * C91: the unit of length *)
From Coq Require Import String Reals Lra Lia NArith Sorting.Sorted.
From stdpp Require Import gmap.
From Verif Require Import Scalar ScalarR Geometry Joint Link Prog NodeM ChainM FuncsM IkM LuM SvdM RunLemmas
  SpecJoint SpecNode SpecGraph SpecChain ChainProofs SpecFK FKProofs SpecIk IkProofs JacProofs SpecCom ComProofs SpecGeom RGeom SpecStep SpecLin LinAlgR LinArm TrajProofs
  SpecUnit UnitLin CacheProofs UnitProofs UnitSolve PropGeom PropStep PropTraj PropLu PropSvd PropSvd2.
Local Open Scope R_scope.

Definition usable (h : gmap nat (node R)) (arm : chain) : Prop :=
  chain_of h (c_nodes arm) arm /\ all_live h (c_nodes arm) /\ parents_first h (c_nodes arm) /\ SpecChain.plain h (c_movable arm).
Lemma units_length k h arm : chain_of h (c_nodes arm) arm -> length (units k h arm) = c_dof arm.
Proof. intros (_ & Hm & Hd). unfold units. rewrite map_length, Hm, Hd. reflexivity. Qed.
Lemma units_pos k h arm : 0 < k -> Forall (fun u => u <> 0) (units k h arm).
Proof.
  intros Hk. unfold units. apply Forall_map, Forall_true. intros a. unfold unit_at. destruct (h !! a) as [n|]; [|lra].
  pose proof (unit_pos k Hk (j_type (n_joint n))). lra.
Qed.

(** C91: an arm with no more joints than constrained coordinates.  The solver does the same
    with the robot, the target and the tolerance in meters as with all of them in millimeters:
    it returns the same answer, the robots it leaves are the same, and it panics with the same
    message if it panics. *)
Theorem C91_solver t t' ovf (la la' : linalg R) (sv sv' : solver R) h h' nx nx' arm target c k :
  0 < k -> usable h arm -> same_robot k h h' -> same_solver k sv sv' ->
  (forall m b, lu_solve la m b = na_lu_solve m b) -> (forall m b, lu_solve la' m b = na_lu_solve m b) ->
  ignored_joint_names c = [] -> (c_dof arm <= count (flags c))%nat ->
  same_outcome k (same_result k eq) nx nx' (run t (solve_with_constraints ovf la sv arm target c) (quiet h nx))
    (run t' (solve_with_constraints ovf la' sv' arm (rescaled k target) c) (quiet h' nx')).
Proof.
  intros Hk Hu Hh Hs H1 H2 Hno Hd. eapply (sim_solve k arm (units k h arm)); try assumption.
  - apply units_length, Hu.
  - apply units_pos, Hk.
  - split; [exact Hu|reflexivity].
Qed.
Print Assumptions C91_solver.
(** C91: where the arm is, and its Jacobian *)
Theorem C91_forward t t' h h' nx nx' arm k : 0 < k -> usable h arm -> same_robot k h h' ->
  same_outcome k (fun w w' => w' = rescaled k w) nx nx' (run t (end_transform arm) (quiet h nx)) (run t' (end_transform arm) (quiet h' nx')) /\
  same_outcome k (fun J J' => m_rows J' = m_rows J /\ m_cols J' = zip_with (rescaled_column (row_units k)) (units k h arm) (m_cols J)) nx nx'
    (run t (jacobian arm) (quiet h nx)) (run t' (jacobian arm) (quiet h' nx')) /\
  (forall a w, world h a w -> world h' a (rescaled k w)).
Proof.
  intros Hk Hu Hh. assert (Hok : ok k arm (units k h arm) h) by (split; [exact Hu|reflexivity]). split; [|split].
  - exact (proj1 (sim_end k arm _ t t' h h' nx nx' Hok Hh)).
  - pose proof (proj1 (sim_jacobian k arm _ Hk t t' h h' nx nx' Hok Hh)) as H. unfold same_outcome in *. repeat case_match; try contradiction; [|exact H].
    destruct H as [(H6 & _ & _ & ->) H]. split; [|exact H]. split; [symmetry; exact H6|reflexivity].
  - intros a w. apply rel_world. exact Hh.
Qed.
Print Assumptions C91_forward.
(** C91: the center of mass, of any chain whose nodes come after their parents *)
Theorem C91_center_of_mass t t' h h' nx nx' c k : 0 < k -> all_live h (c_nodes c) -> parents_first h (c_nodes c) -> same_robot k h h' ->
  exists x s s', run t (center_of_mass c) (quiet h nx) = Done x s /\ run t' (center_of_mass c) (quiet h' nx') = Done (times k x) s'.
Proof.
  intros Hk Hl Hp Hh. assert (Hl' : all_live h' (c_nodes c)) by (intros a Ha; apply (rel_live k _ _ _ Hh), Hl, Ha).
  assert (Hp' : parents_first h' (c_nodes c)) by (intros l1 a l2 p E H; eapply Hp; [exact E|]; apply (rel_live_parent k _ _ _ _ Hh); exact H).
  destruct (center_of_mass_lemma t h nx c Hl Hp) as (cs & g & Hcs & Hr). destruct (center_of_mass_lemma t' h' nx' c Hl' Hp') as (cs' & g' & Hcs' & Hr').
  assert (cs' = map (fun mc => (fst mc, times k (snd mc))) cs) as -> by (eapply centers_fun; [exact Hcs'|eapply centers_rescaled; eauto]).
  destruct (weighted_rescaled k cs) as [E1 E2]. rewrite E1, E2 in Hr'. eexists _, _, _. split; [exact Hr|]. rewrite Hr'. f_equal.
  destruct (weighted_sum cs). unfold vdivs, times. cbn. f_equal; unfold Rdiv; ring.
Qed.
Print Assumptions C91_center_of_mass.

(** a robot in the other unit *)
Definition in_unit (k : R) (n : node R) : node R :=
  let j := n_joint n in let u := unit_of k (j_type j) in
  Node (n_parent n) (n_children n)
    (Joint (j_name j) (j_type j) (u * j_position j) (u * j_velocity j) ((fun r => Range (u * rmin r) (u * rmax r)) <$> j_limits j)
       (rescaled k (j_origin j)) None None) (n_mimic_parent n) (n_mimic_children n) (n_mimic n) None.
Lemma in_unit_same k (h : gmap nat (node R)) : (forall a n, h !! a = Some n -> n_link n = None) -> same_robot k h (in_unit k <$> h).
Proof.
  intros Hl a. rewrite lookup_fmap. destruct (h !! a) as [n|] eqn:Hn; cbn; [|exact I]. repeat split. cbn. rewrite (Hl a n Hn). exact I.
Qed.
Lemma robot6_usable : usable robot6 arm6.
Proof.
  split; [exact six_chain|]. split; [|split].
  - change (c_nodes arm6) with (rev [5; 4; 3; 2; 1; 0]%nat). apply all_live_rev. eapply path_all_live. exact robot6_path.
  - change (c_nodes arm6) with (rev [5; 4; 3; 2; 1; 0]%nat). apply from_end_parents_first with 5%nat. exact robot6_path.
  - split; [apply (bool_decide_unpack _); vm_compute; exact I|]. intros a Ha. destruct (robot6_mov a Ha) as [j Hj]. exists (node_six a j). split; [apply robot6_at; exact Hj|split; reflexivity].
Qed.
Definition coarse : solver R := Solver (/ 1000) (/ 200) (/ 2) 10 None.
Definition coarse_mm : solver R := Solver 1 (/ 200) (/ 2) 10 None.
(** three slides and three turns, all with limits, in meters and in millimeters *)
Example C91_case : usable robot6 arm6 /\ same_robot 1000 robot6 (in_unit 1000 <$> robot6) /\ same_solver 1000 coarse coarse_mm /\
  (c_dof arm6 <= count (flags all_six))%nat /\ units 1000 robot6 arm6 = [1000; 1000; 1000; 1; 1; 1] /\ rescaled 1000 there <> there.
Proof.
  split; [exact robot6_usable|]. split.
  { apply in_unit_same. intros a n Hn. destruct (decide (a ∈ [5; 4; 3; 2; 1; 0]%nat)) as [Ha|Ha].
    - destruct (robot6_in a Ha) as [j Hj]. rewrite (robot6_at a j Hj) in Hn. apply Some_inj in Hn as <-. reflexivity.
    - exfalso. apply Ha. do 6 (destruct a as [|a]; [repeat first [apply elem_of_list_here|apply elem_of_list_further]|]). unfold robot6 in Hn. cbn in Hn. rewrite !lookup_insert_ne in Hn by lia. rewrite lookup_empty in Hn. discriminate. }
  split; [unfold same_solver; cbn; repeat split; lra|]. split; [vm_compute; lia|]. split; [reflexivity|].
  unfold rescaled, there, times. cbn. intros E. injection E. lra.
Qed.

(** An arm that turns about z and slides along x, [k] away from the axis, to be moved [k]
    along x.  It has more joints than coordinates, so the solver takes the shortest of the
    solutions, and which one is the shortest depends on the unit. *)
Definition spin : joint R := Joint "spin" (Rotational (V3 0 0 1)) 0 0 None iso1 None None.
Definition rail (k : R) : joint R := Joint "rail" (Linear (V3 1 0 0)) 0 0 None (Iso (V3 0 (- k) 0) q1) None None.
Definition ride (k : R) : gmap nat (node R) := <[0%nat := node_of spin None [1%nat]]> (<[1%nat := node_of (rail k) (Some 0%nat) []]> ∅).
Definition arm2 : chain := Chain [0; 1]%nat [0; 1]%nat 2.
Definition along_x : constraints := Constraints true false false false false false [].
Definition away (k : R) : iso R := Iso (V3 k (- k) 0) q1.
Lemma ride_path k : path_up (ride k) 1%nat [1; 0]%nat.
Proof.
  eapply path_step; [split; [eexists; split; [reflexivity|reflexivity]|eexists; reflexivity]|]. apply path_root. split; [eexists; reflexivity|].
  intros p [(n & Hn & E) _]. apply Some_inj in Hn as <-. discriminate.
Qed.
Lemma spin_local : local_transform spin = iso1.
Proof. exact (axle_local "spin" (Rotational (V3 0 0 1))). Qed.
Lemma rail_local k : local_transform (rail k) = Iso (V3 0 (- k) 0) q1.
Proof. unfold local_transform, rail. cbn [j_origin j_type j_position joint_transform]. unfold iso_mul. cbn [tr rt]. f_equal; [gv; ring|gq; ring]. Qed.
Definition one_row (k : R) : mat R := Mat 1 [[k]; [1]].
(** its singular value decomposition *)
Definition one_row_svd (k : R) : svd R := let s := R_sqrt.sqrt (k * k + 1) in Svd [[1]] [s] [[k / s; 1 / s]].
Lemma one_row_decomposed k : svd_of (one_row k) (one_row_svd k).
Proof.
  set (s := R_sqrt.sqrt (k * k + 1)). assert (Hp : 0 < k * k + 1) by nra. assert (Hs : 0 < s) by (apply sqrt_lt_R0; exact Hp). assert (Hss : s * s = k * k + 1) by (apply sqrt_sqrt; lra).
  unfold svd_of, one_row_svd. fold s. cbn [left right sing one_row m_rows m_cols length]. split; [reflexivity|]. split; [reflexivity|].
  split; [repeat constructor|]. split; [repeat constructor|]. split; [|split; [|split]].
  - intros [|i] [|j] a b Ha Hb; try discriminate. injection Ha as <-. injection Hb as <-. rewrite decide_True by reflexivity. cbn [dot]. ring.
  - intros [|i] [|j] a b Ha Hb; try discriminate. injection Ha as <-. injection Hb as <-. rewrite decide_True by reflexivity. cbn [dot].
    replace (k / s * (k / s) + (1 / s * (1 / s) + 0)) with ((k * k + 1) / (s * s)) by (field; lra). rewrite Hss. field. lra.
  - constructor; [lra|constructor].
  - intros [|x [|y [|]]] Hx; try discriminate. unfold act, one_row. cbn. f_equal. field. lra.
Qed.
Lemma one_row_answer k d : 1 <= k -> svd_of (one_row k) d -> exists y, na_svd_solve d 2 ik_eps [k] = Some [k * k / (k * k + 1); y].
Proof.
  intros Hk Hd. destruct eps_R as [Ee He]. destruct (C79_same_answer _ _ _ ik_eps Hd (one_row_decomposed k) He) as [E _]. cbn [one_row m_cols length] in E. rewrite E.
  destruct (C67_solve (one_row k) (one_row_svd k) ik_eps [k] (one_row_decomposed k) He eq_refl) as (x & Hx & Lx & _ & _ & Hg). cbn [one_row m_cols length] in Hx, Lx.
  assert (Hp : 0 < k * k + 1) by nra.
  destruct Hg as (_ & Hmin & Hsol).
  { unfold gap, one_row_svd. cbn [sing]. constructor; [|constructor]. right. rewrite Ee. apply Rlt_le_trans with 1; [lra|]. rewrite <- sqrt_1 at 1. apply sqrt_le_1_alt. nra. }
  destruct x as [|x [|y [|]]]; try discriminate. exists y. rewrite Hx. do 3 f_equal.
  pose (x0 := k * k / (k * k + 1)). pose (y0 := k / (k * k + 1)). assert (E0 : k * x0 + y0 = k) by (unfold x0, y0; field; lra).
  assert (Hs0 : solves (one_row k) [x0; y0] [k]) by (split; [reflexivity|]; cbn; f_equal; lra).
  assert (Hex : exists x', solves (one_row k) x' [k]) by (exists [x0; y0]; exact Hs0). destruct (Hsol Hex) as [_ Hs]. cbn in Hs. injection Hs as Hs.
  assert (Hn : norm [x; y] <= norm [x0; y0]).
  { apply Hmin; [reflexivity|]. f_equal. f_equal. unfold act. cbn. f_equal. lra. }
  unfold norm in Hn. apply sqrt_le_0 in Hn; [|cbn; nra|cbn; nra]. cbn in Hn.
  fold x0. assert (Ey : y = k - k * x) by lra. assert (Ey0 : y0 = k - k * x0) by lra. subst y. rewrite Ey0 in Hn.
  assert (Hx0 : (k * k + 1) * x0 = k * k) by (unfold x0; field; lra).
  assert (Hq : (k * k + 1) * ((x - x0) * (x - x0)) = x * x + (k - k * x) * (k - k * x) - (x0 * x0 + (k - k * x0) * (k - k * x0)) + 2 * ((k * k + 1) * x0 - k * k) * (x0 - x)) by ring.
  rewrite Hx0 in Hq. destruct (Req_dec x x0) as [|Hne]; [assumption|exfalso].
  assert (Hpos : 0 < (x - x0) * (x - x0)) by (apply (Rsqr_pos_lt (x - x0)); lra). pose proof (Rmult_lt_0_compat _ _ Hp Hpos). lra.
Qed.
Lemma ride_step k t nx ovf dec : 1 <= k -> decomposes dec ->
  exists d h', run t (solve_one_loop_with_constraints ovf (svd_linalg na_lu_solve dec) half arm2 (away k) (flags along_x) []) (quiet (ride k) nx) = Done (Ok d) (quiet h' nx) /\
    position_at h' 0%nat = Some (/ 2 * (k * k / (k * k + 1))).
Proof.
  intros Hk Hdec. assert (Hj : joints_at (ride k) [0; 1]%nat [spin; rail k]) by (repeat (constructor; [eexists; split; reflexivity|]); constructor).
  assert (Hc : chain_of (ride k) (rev [1; 0]%nat) arm2) by (repeat split).
  destruct (serial_jacobian t (ride k) nx arm2 1%nat [1; 0]%nat [spin; rail k] (ride_path k) Hc Hj) as (h1 & HJ).
  assert (Ee : end_at iso1 [spin; rail k] = Iso (V3 0 (- k) 0) q1).
  { unfold end_at. cbn [map]. rewrite spin_local, rail_local. cbn [product foldl]. rewrite !iso_mul_1_l. reflexivity. }
  assert (Hw : run t (end_transform arm2) (quiet (ride k) nx) = Done (Iso (V3 0 (- k) 0) q1) (quiet (ride k) nx)).
  { rewrite <- Ee. unfold end_transform, end_at. apply run_end_fold, joints_locals, Hj. }
  assert (EJ : colsof (tr (end_at iso1 [spin; rail k])) iso1 [spin; rail k] = [[k; 0; 0; 0; 0; 1]; [1; 0; 0; 0; 0; 0]]).
  { rewrite Ee. cbn [colsof]. rewrite spin_local, rail_local, !iso_mul_1_l. cbn [spin rail j_type jcol].
    repeat (apply (f_equal2 (@cons (list R))); [repeat (apply (f_equal2 (@cons R)); [un; cbn; ring|]); reflexivity|]). reflexivity. }
  rewrite EJ in HJ.
  assert (Hlive : all_live (ride k) (c_nodes arm2)) by (change (c_nodes arm2) with (rev [1; 0]%nat); apply all_live_rev; eapply path_all_live; apply ride_path).
  assert (Hnd : NoDup (c_movable arm2)) by (apply (bool_decide_unpack _); vm_compute; exact I).
  destruct (C53_iteration t ovf (svd_linalg na_lu_solve dec) half (ride k) nx arm2 (away k) along_x [] _ h1 _ Hc Hlive Hnd (SSorted_nil _) (Forall_nil_2 _) Hw HJ) as [H _].
  destruct (one_row_answer k (dec (one_row k)) Hk) as [y Hy]; [apply Hdec; repeat constructor|].
  assert (Herr : flagged (flags along_x) (calc_pose_diff (away k) (Iso (V3 0 (- k) 0) q1)) = [k]) by (cbn; f_equal; lra).
  destruct H as [H _]; [vm_compute; lia|reflexivity|]. rewrite Herr in H.
  destruct (H [k * k / (k * k + 1); y]) as (full & Lf & [Hf _] & Hm); [exact Hy|reflexivity|].
  destruct Hm as (h' & w & Hr & _ & _ & Hpos). eexists _, h'. split; [exact Hr|].
  destruct full as [|f0 [|f1 [|]]]; try discriminate Lf. change (without [] [f0; f1]) with [f0; f1] in Hf. injection Hf as -> ->.
  rewrite (Hpos 0%nat 0%nat _ eq_refl eq_refl). cbn. f_equal. lra.
Qed.
(** C91: so an arm with more joints than constrained coordinates moves differently in another
    unit: after one iteration the two robots are no longer the same *)
Theorem C91_redundant_refuted t nx ovf dec : decomposes dec ->
  usable (ride 1) arm2 /\ same_robot 2 (ride 1) (ride 2) /\ rescaled 2 (away 1) = away 2 /\
  exists d d' h h',
    run t (solve_one_loop_with_constraints ovf (svd_linalg na_lu_solve dec) half arm2 (away 1) (flags along_x) []) (quiet (ride 1) nx) = Done (Ok d) (quiet h nx) /\
    run t (solve_one_loop_with_constraints ovf (svd_linalg na_lu_solve dec) half arm2 (away 2) (flags along_x) []) (quiet (ride 2) nx) = Done (Ok d') (quiet h' nx) /\
    position_at h 0%nat = Some (1 / 4) /\ position_at h' 0%nat = Some (2 / 5) /\ ~ same_robot 2 h h'.
Proof.
  intros Hdec. split; [|split; [|split]].
  - split; [repeat split|]. split; [|split].
    + change (c_nodes arm2) with (rev [1; 0]%nat). apply all_live_rev. eapply path_all_live. apply ride_path.
    + change (c_nodes arm2) with (rev [1; 0]%nat). eapply from_end_parents_first. apply ride_path.
    + split; [apply (bool_decide_unpack _); vm_compute; exact I|]. intros a Ha. change (a ∈ [0; 1]%nat) in Ha. rewrite !elem_of_cons, elem_of_nil in Ha.
      destruct Ha as [->|[->|[]]]; eexists; (split; [reflexivity|split; reflexivity]).
  - intros a. unfold ride. destruct (decide (a = 0%nat)) as [->|H0]; [|destruct (decide (a = 1%nat)) as [->|H1]].
    + rewrite !lookup_insert. unfold same_node, same_joint, rescaled, node_of, spin, times. cbn. repeat split; try lra. unfold iso1. f_equal. unfold v0. cbn. f_equal; lra.
    + rewrite lookup_insert_ne by lia. rewrite lookup_insert. rewrite lookup_insert_ne by lia. rewrite lookup_insert. unfold same_node, same_joint, rescaled, node_of, rail, times. cbn. repeat split; try lra. f_equal. f_equal; lra.
    + rewrite !lookup_insert_ne by congruence. rewrite lookup_empty. exact I.
  - unfold rescaled, away, times. cbn. f_equal. f_equal; lra.
  - destruct (ride_step 1 t nx ovf dec ltac:(lra) Hdec) as (d & h & Hr & Hp). destruct (ride_step 2 t nx ovf dec ltac:(lra) Hdec) as (d' & h' & Hr' & Hp').
    replace (/ 2 * (1 * 1 / (1 * 1 + 1))) with (1 / 4) in Hp by field. replace (/ 2 * (2 * 2 / (2 * 2 + 1))) with (2 / 5) in Hp' by field.
    exists d, d', h, h'. split; [exact Hr|]. split; [exact Hr'|]. split; [exact Hp|]. split; [exact Hp'|]. intros H. specialize (H 0%nat). unfold position_at in Hp, Hp'.
    destruct (h !! 0%nat) as [n|] eqn:Hn; [|discriminate]. destruct (h' !! 0%nat) as [n'|] eqn:Hn'; [|discriminate]. injection Hp as Hp. injection Hp' as Hp'.
    destruct H as (_ & _ & _ & (_ & Et & Ep & _) & _). rewrite Hp, Hp' in Ep. unfold unit_of in Ep. destruct (j_type (n_joint n)); lra.
Qed.
Print Assumptions C91_redundant_refuted.
