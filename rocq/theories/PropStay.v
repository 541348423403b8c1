(** * C88: an arm asked for what it already does stays where it is *)
From Coq Require Import String NArith Reals Lra Lia Sorting.Sorted.
From stdpp Require Import gmap.
From Verif Require Import Scalar ScalarR Geometry Joint Link Prog NodeM ChainM FuncsM IkM LuM SvdM RunLemmas
  SpecJoint SpecNode SpecGraph GraphProofs SpecChain ChainProofs SpecFK FKProofs SpecIk JacProofs SpecGeom RGeom
  SpecStep SpecLin IkProofs IkProofs2 StepProofs LinAlgR LinArm LinIk LuProofs SvdProofs PropGeom PropIk PropStep PropLu PropSvd
  PropSvd2 SpecVerdict VerdictProofs PropVerdict StayProofs.
Local Open Scope R_scope.

(** C88: the target is met in the constrained coordinates, the joints rest inside their limits,
    and the system of the iteration can be solved: it has more unknowns than equations, and a
    null space function, if there is one, asks for no motion; or it is square and regular.
    Then the solver succeeds and no joint has moved. *)
Theorem C88_stays (t : nat) ovf dec (sv : solver R) (h : gmap nat (node R)) nx arm target (c : constraints) idx cols s w :
  decomposes dec ->
  chain_of h (c_nodes arm) arm -> all_live h (c_nodes arm) -> NoDup (c_movable arm) -> SpecIk.rest h (c_movable arm) ->
  NoDup (ignored_joint_names c) -> ignored_at h arm c idx ->
  run t (end_transform arm) (quiet h nx) = Done w (quiet h nx) ->
  run t (jacobian arm) (quiet h nx) = Done (Mat 6 cols) s ->
  agrees c target w ->
  0 < allowable_target_distance sv -> 0 < allowable_target_angle sv -> (0 < num_max_try sv)%nat ->
  ((count (flags c) + length idx < c_dof arm)%nat /\
   (forall f q, nullspace_function sv = Some f -> map Some q = map (position_at h) (c_movable arm) -> f q = Some (zeros (c_dof arm)))) \/
  ((count (flags c) + length idx = c_dof arm)%nat /\ regular (reduced (flags c) idx cols)) ->
  exists h', run t (solve_with_constraints ovf (svd_linalg na_lu_solve dec) sv arm target c) (quiet h nx) = Done (Ok tt) (quiet h' nx) /\
    heaps same_but_caches h h'.
Proof.
  intros Hdec Hc Hl Hnd Hr Hnn Hi Hw HJ Hag Hd Ha Hn0 Hsys.
  assert (Hdof : c_dof arm = length (c_movable arm)) by (destruct Hc as (_ & -> & ->); reflexivity).
  destruct (ignored_strict h arm c idx Hdof Hnn Hi) as [Hs Hb].
  assert (Hle : (count (flags c) + length idx <= c_dof arm)%nat) by lia.
  assert (Hstep : exists h' w' d, run t (solve_one_loop_with_constraints ovf (svd_linalg na_lu_solve dec) sv arm target (flags c) idx) (quiet h nx) = Done (Ok d) (quiet h' nx) /\
    run t (end_transform arm) (quiet h' nx) = Done w' (quiet h' nx) /\ heaps same_but_caches h h').
  { destruct (iteration_matrix t h nx arm cols s c idx Hl HJ Hs Hb) as (h1 & _ & HsJ).
    destruct Hsys as [[Hcnt Hns]|[Hcnt Hreg]].
    - destruct (C67_bounded_step t ovf na_lu_solve dec sv h nx arm target c idx cols s w Hc Hl Hnd Hs Hb Hcnt Hw HJ) as [B1 B2].
      { apply Hdec. destruct HsJ as (E1 & _ & E2). unfold well_formed. rewrite E1. exact E2. }
      unfold agrees in Hag. rewrite Hag, zeros_norm in B1, B2.
      destruct (nullspace_function sv) as [f|] eqn:Hf.
      + destruct (B2 f (zeros (c_dof arm)) eq_refl) as (full & Hlen & Hle2 & _ & Hm).
        { intros q Hq. exact (Hns f q eq_refl Hq). } { apply zeros_length. }
        rewrite zeros_norm in Hle2. eapply (zero_motion _ _ _ _ _ _ _ full); [exact Hr| |exact Hm].
        intros j y Hy. rewrite (norm_zero full) in Hy by lra. eapply zeros_lookup; exact Hy.
      + destruct (B1 eq_refl) as (full & Hlen & Hle2 & _ & Hm).
        eapply (zero_motion _ _ _ _ _ _ _ full); [exact Hr| |exact Hm].
        intros j y Hy. rewrite (norm_zero full) in Hy; [eapply zeros_lookup; exact Hy|]. pose proof (sqrt_pos (dot full full)). fold (norm full) in *. nra.
    - destruct (C66_iteration t ovf (svd_linalg na_lu_solve dec) sv h nx arm target c idx cols s w Hc Hl Hnd Hs Hb Hcnt (fun _ _ => eq_refl) Hw HJ) as [_ B].
      destruct (B Hreg) as (x & _ & Hu & Hm). unfold agrees in Hag. rewrite Hag in Hu. rewrite <- (Hu _ (zeros_solve _ _ _ HsJ)) in Hm.
      eapply zero_motion; [exact Hr| |exact Hm]. intros j y Hy. eapply zeros_lookup; exact Hy. }
  destruct Hstep as (h2 & w2 & d & E & Hw2 & Hu2).
  assert (w2 = w) as ->.
  { pose proof (end_transform_unch t h h2 nx nx arm w Hl (proj2 (unch_heaps _ _) Hu2) Hw) as E2. rewrite Hw2 in E2. congruence. }
  destruct (C87_hit t ovf (svd_linalg na_lu_solve dec) sv h nx arm target c idx 0 h h2 w Hc Hl Hnd Hi Hle Hn0 (missed_none _ _ _ _ _ _ _ _ _ _) (ex_intro _ d (conj E Hw2))
    (agrees_on_target sv c target w Hag Hd Ha)) as (h3 & Hp & E3).
  exists h3. split; [exact E3|]. apply unch_heaps. apply unch_heaps in Hu2 as Hu2'. eapply unch_trans; [exact Hu2'|]. apply unch_heaps.
  eapply inside_still; [eapply rest_same; eauto|exact Hp].
Qed.
Print Assumptions C88_stays.

(** C88: the pose the arm has meets the target, under any constraints *)
Theorem C88_own_pose (c : constraints) (target w : iso R) : proper target -> proper w -> same_pose target w -> agrees c target w.
Proof.
  intros Ht Hw Hs. apply (C37_zero_iff_same_pose target w Ht Hw) in Hs. unfold agrees. change (pose_error target w) with (calc_pose_diff target w). rewrite Hs.
  destruct c as [[] [] [] [] [] [] names]; reflexivity.
Qed.
Print Assumptions C88_own_pose.

(** C88: but a square arm in a singular posture reports an error for every target, also for the pose it has *)
Theorem C88_singular (t : nat) ovf dec (sv : solver R) (h : gmap nat (node R)) nx arm target (c : constraints) idx cols s w :
  chain_of h (c_nodes arm) arm -> all_live h (c_nodes arm) -> NoDup (c_movable arm) -> SpecChain.plain h (c_movable arm) -> inside_limits h (c_movable arm) ->
  NoDup (ignored_joint_names c) -> ignored_at h arm c idx ->
  run t (end_transform arm) (quiet h nx) = Done w (quiet h nx) ->
  run t (jacobian arm) (quiet h nx) = Done (Mat 6 cols) s -> (0 < num_max_try sv)%nat ->
  (count (flags c) + length idx = c_dof arm)%nat -> ~ regular (reduced (flags c) idx cols) ->
  exists s', run t (solve_with_constraints ovf (svd_linalg na_lu_solve dec) sv arm target c) (quiet h nx) = Done (Err InverseMatrixError) s'.
Proof.
  intros Hc Hl Hnd Hpl Hin Hnn Hi Hw HJ Hn0 Hcnt Hreg.
  assert (Hdof : c_dof arm = length (c_movable arm)) by (destruct Hc as (_ & -> & ->); reflexivity).
  destruct (ignored_strict h arm c idx Hdof Hnn Hi) as [Hs Hb].
  destruct (C66_iteration t ovf (svd_linalg na_lu_solve dec) sv h nx arm target c idx cols s w Hc Hl Hnd Hs Hb Hcnt (fun _ _ => eq_refl) Hw HJ) as [B _].
  destruct (B Hreg) as (E & h' & -> & _).
  apply (C87_stop t ovf (svd_linalg na_lu_solve dec) sv h nx arm target c idx 0 h h' _ Hc Hl Hpl Hin Hi ltac:(lia) Hn0 (missed_none _ _ _ _ _ _ _ _ _ _) E).
Qed.
Print Assumptions C88_singular.

(** C88: and a tolerance that is not positive is never met, not even by the exact pose *)
Theorem C88_zero_tolerance (t : nat) ovf la (sv : solver R) (h : gmap nat (node R)) nx arm target (c : constraints) s :
  chain_of h (c_nodes arm) arm -> all_live h (c_nodes arm) -> limits_ok h (c_movable arm) -> inside_limits h (c_movable arm) ->
  allowable_target_distance sv <= 0 \/ allowable_target_angle sv <= 0 ->
  run t (solve_with_constraints ovf la sv arm target c) (quiet h nx) <> Done (Ok tt) s.
Proof.
  intros Hc Hl Hlim Hin Htol E. apply C31_ok_means_on_target in E as (h' & w & _ & _ & [H1 H2] & _); try assumption.
  assert (L : forall x y : R, slt x y = true -> x < y) by (intros x y; cbn; unfold Rltb; destruct (Rlt_dec x y); [auto|discriminate]).
  apply L in H1, H2.
  assert (P : forall v : vec3 R, 0 <= vnorm v) by (intros v; unfold vnorm; cbn; apply sqrt_pos).
  pose proof (P (position_error c target w)). pose proof (P (rotation_error c target w)). lra.
Qed.
Print Assumptions C88_zero_tolerance.

(** ** the gantry of C53, asked for x = 0, y = 0, where it is *)
Example C88_case (t nx : nat) ovf : exists dec, decomposes dec /\
  exists h', run t (solve_with_constraints ovf (svd_linalg na_lu_solve dec) half arm3 iso1 plane) (quiet gantry nx) = Done (Ok tt) (quiet h' nx) /\
    heaps same_but_caches gantry h'.
Proof.
  destruct C79_decomposes as (dec & Hdec & _). exists dec. split; [exact Hdec|].
  destruct (gantry_run t nx) as [Hw [h1 HJ]].
  apply (C88_stays t ovf dec half gantry nx arm3 iso1 plane [] _ _ iso1 Hdec (arm_chain _ _ _ _ gantry_arm) (arm_live _ _ _ _ gantry_arm) (arm_nodup _ _ _ _ gantry_arm)) with (4 := Hw) (5 := HJ).
  - intros a n r Ha Hn Hlim. destruct gantry_arm as (_ & _ & G). exfalso.
    assert (Hin : a ∈ [2; 1; 0]%nat) by (clear -Ha; cbn in Ha; rewrite !elem_of_cons in *; tauto). destruct (G a n Hin Hn) as [_ G2]. congruence.
  - constructor.
  - exists []. split; [constructor|]. split; [reflexivity|constructor].
  - apply C88_own_pose; [exact proper_1|exact proper_1|]. intros x. reflexivity.
  - cbn. lra.
  - cbn. lra.
  - cbn. lia.
  - left. split; [vm_compute; lia|]. intros f q Hf. discriminate Hf.
Qed.
(** two slides along x, asked for x = 0, y = 0, where they are *)
Definition rails : gmap nat (node R) :=
  <[0%nat := node_of (track "a" (V3 1 0 0)) None [1%nat]]> (<[1%nat := node_of (track "b" (V3 1 0 0)) (Some 0%nat) []]> ∅).
Definition arm2 : chain := Chain [0%nat; 1%nat] [0%nat; 1%nat] 2.
Lemma rails_at a n : rails !! a = Some n -> (a = 0%nat /\ n = node_of (track "a" (V3 1 0 0)) None [1%nat]) \/ (a = 1%nat /\ n = node_of (track "b" (V3 1 0 0)) (Some 0%nat) []).
Proof.
  unfold rails. rewrite lookup_insert_Some. intros [[<- <-]|[_ H]]; [left; auto|]. apply lookup_insert_Some in H as [[<- <-]|[_ H]]; [right; auto|]. rewrite lookup_empty in H. discriminate.
Qed.
Lemma rails_arm : arm_ok arm2 1%nat [1; 0]%nat rails.
Proof.
  split; [|split].
  - eapply path_step; [|apply path_root].
    + split; [eexists; split; reflexivity|eexists; reflexivity].
    + split; [eexists; reflexivity|]. intros p [(n & Hn & E) _]. apply rails_at in Hn as [[_ ->]|[? _]]; discriminate.
  - split; [reflexivity|]. split; reflexivity.
  - intros a n Ha Hn. apply rails_at in Hn as [[_ ->]|[_ ->]]; (split; [split; [exact proper_1|exact I]|reflexivity]).
Qed.
Theorem C88_here_refuted (t nx : nat) ovf dec : exists w,
  run t (end_transform arm2) (quiet rails nx) = Done w (quiet rails nx) /\ agrees plane w w /\
  exists s, run t (solve_with_constraints ovf (svd_linalg na_lu_solve dec) half arm2 w plane) (quiet rails nx) = Done (Err InverseMatrixError) s.
Proof.
  pose proof (arm_jacobian arm2 1%nat [1; 0]%nat t rails nx [track "a" (V3 1 0 0); track "b" (V3 1 0 0)] rails_arm) as HJ.
  destruct HJ as [Hw [h1 HJ]]; [repeat (constructor; [eexists; split; reflexivity|]); constructor|].
  assert (Ew : product iso1 (map local_transform [track "a" (V3 1 0 0); track "b" (V3 1 0 0)]) = iso1 (T := R)).
  { unfold track, local_transform. cbn [map j_type j_origin j_position product foldl joint_transform]. apply Iso_eq; [gv; ring|gq; ring]. }
  assert (Ed : dirs iso1 [track "a" (V3 1 0 0); track "b" (V3 1 0 0)] = [V3 1 0 0; V3 1 0 0]).
  { unfold track. cbn [dirs j_type]. unfold local_transform. cbn [j_type j_origin j_position joint_transform]. repeat (apply (f_equal2 cons); [gv; ring|]). reflexivity. }
  rewrite Ew in Hw. rewrite Ed in HJ. exists iso1. split; [exact Hw|].
  split; [apply C88_own_pose; [exact proper_1|exact proper_1|intros x; reflexivity]|].
  apply (C88_singular t ovf dec half rails nx arm2 iso1 plane [] _ _ iso1 (arm_chain _ _ _ _ rails_arm) (arm_live _ _ _ _ rails_arm) (arm_nodup _ _ _ _ rails_arm)) with (5 := Hw) (6 := HJ).
  - split; [cbn; repeat constructor; set_solver|]. intros a Ha. cbn in Ha. assert (a = 0 \/ a = 1)%nat as [-> | ->] by (clear -Ha; rewrite !elem_of_cons, elem_of_nil in Ha; tauto); eexists; (split; [reflexivity|]); split; reflexivity.
  - intros a n Ha Hn. apply rails_at in Hn as [[_ ->]|[_ ->]]; intros r E; discriminate E.
  - constructor.
  - exists []. split; [constructor|]. split; [reflexivity|constructor].
  - cbn. lia.
  - reflexivity.
  - intros H. specialize (H [1; -1]). assert (E : [1; -1] = zeros 2); [|injection E; lra]. apply H. split; [reflexivity|]. cbn.
    repeat (apply (f_equal2 (@cons R)); [ring|]). reflexivity.
Qed.
Print Assumptions C88_here_refuted.
