(** * C67: the singular value solve of the solver over the reals *)
From Coq Require Import String NArith Reals Lra Sorting.Sorted.
From stdpp Require Import gmap.
From Verif Require Import Scalar ScalarR Geometry Joint Link Prog NodeM ChainM FuncsM IkM LuM SvdM RunLemmas
  SpecJoint SpecNode SpecGraph GraphProofs SpecChain ChainProofs SpecFK FKProofs SpecIk JacProofs SpecGeom RGeom GeomProofs JacReal PoseDiff
  SpecStep SpecLin IkProofs StepProofs LinAlgR LinArm LinIk LuProofs SvdProofs TrajProofs PropGeom PropJac PropIk PropStep PropTraj PropLu.
Local Open Scope R_scope.

(** C67: what the solve returns for a decomposition of the matrix *)
Theorem C67_solve (J : mat R) d eps b : svd_of J d -> 0 < eps -> length b = m_rows J ->
  exists x, na_svd_solve d (length (m_cols J)) eps b = Some x /\ length x = length (m_cols J) /\
    norm x <= norm b / eps /\ norm (diff (act J x) b) <= norm b /\
    (gap d eps ->
       (forall x', length x' = length (m_cols J) -> norm (diff (act J x) b) <= norm (diff (act J x') b)) /\
       (forall x', length x' = length (m_cols J) -> norm (diff (act J x') b) = norm (diff (act J x) b) -> norm x <= norm x') /\
       ((exists x', solves J x' b) -> solves J x b)).
Proof.
  intros HJ Heps Hb. exists (answer J d eps b). split; [apply solve_answer; assumption|]. split; [apply answer_length; assumption|].
  split; [apply norm_bound; [exact Heps|apply answer_bound; assumption]|]. split.
  - apply norm_le. rewrite residual by assumption. pose proof (dot_nonneg (kept eps (sing d) (coords (left d) b))). lra.
  - intros Hg. split; [|split].
    + intros x' Hx. apply norm_le. rewrite (residual_other J d eps HJ Heps Hg b x' Hb Hx).
      set (q := diff (zip_with _ _ _) _). pose proof (dot_nonneg q). lra.
    + intros x' Hx E. apply norm_le. apply norm_eq_dot in E. apply (least_norm_lemma J d eps HJ Heps Hg b x' Hb Hx E).
    + intros (x' & Hx & Hxb). split; [apply answer_length; assumption|]. unfold solves in *. rewrite <- Hxb.
      exact (gap_exact J d eps HJ Heps Hg x' Hx).
Qed.
Print Assumptions C67_solve.
(** C67: the pseudo inverse is a matrix with the same answers; without a gap it is one in the
    sense of Penrose *)
Theorem C67_pinv (J : mat R) d eps : svd_of J d -> 0 < eps ->
  exists P, na_pinv d (m_rows J) (length (m_cols J)) eps = Some P /\ shaped P (length (m_cols J)) (m_rows J) /\
    (forall b, length b = m_rows J -> na_svd_solve d (length (m_cols J)) eps b = Some (act P b)) /\
    (gap d eps -> Forall (fun c => length c = m_rows J) (m_cols J) ->
       forall x, length x = length (m_cols J) -> act J (act P (act J x)) = act J x).
Proof.
  intros HJ Heps. destruct (pinv_answer J d eps HJ Heps) as (P & HP & Hs & Ha). exists P. split; [exact HP|]. split; [exact Hs|]. split.
  - intros b Hb. rewrite Ha by exact Hb. apply solve_answer; assumption.
  - intros Hg Hc x Hx. rewrite Ha by (apply combine_length; exact Hc). apply gap_exact; assumption.
Qed.
Print Assumptions C67_pinv.

(** the matrix of an iteration *)
Lemma iteration_matrix t h nx arm cols s (c : constraints) idx : all_live h (c_nodes arm) ->
  run t (jacobian arm) (quiet h nx) = Done (Mat 6 cols) s ->
  StronglySorted lt idx -> Forall (fun j => (j < c_dof arm)%nat) idx ->
  exists h1, s = quiet h1 nx /\ shaped (reduced (flags c) idx cols) (count (flags c)) (c_dof arm - length idx).
Proof.
  intros Hl HJ Hs Hi. destruct (jacobian_done t h nx arm (Mat 6 cols) s Hl HJ) as (h1 & -> & _ & _ & Hd & H6). cbn [m_cols] in Hd, H6.
  exists h1. split; [reflexivity|]. apply reduced_shaped; auto.
Qed.
Lemma eps_R : ik_eps = 1 / 10000 /\ 0 < @ik_eps R RScalar.
Proof. unfold ik_eps. cbn. unfold Q2R. cbn. split; lra. Qed.
(** C67: an iteration of a redundant arm without null space function proposes a motion of at
    most 10000 times the remaining error, however close to a singular position; with a null
    space function returning [sub] it is not longer than that and [sub] together *)
Theorem C67_bounded_step (t : nat) ovf lu dec (sv : solver R) h nx arm target (c : constraints) idx cols s w :
  chain_of h (c_nodes arm) arm -> all_live h (c_nodes arm) -> NoDup (c_movable arm) ->
  StronglySorted lt idx -> Forall (fun j => (j < c_dof arm)%nat) idx -> (count (flags c) + length idx < c_dof arm)%nat ->
  run t (end_transform arm) (quiet h nx) = Done w (quiet h nx) ->
  run t (jacobian arm) (quiet h nx) = Done (Mat 6 cols) s ->
  let J := reduced (flags c) idx cols in
  let err := flagged (flags c) (pose_error target w) in
  let iteration := run t (solve_one_loop_with_constraints ovf (svd_linalg lu dec) sv arm target (flags c) idx) (quiet h nx) in
  svd_of J (dec J) ->
  (nullspace_function sv = None -> exists full, length full = c_dof arm /\ norm full <= 10000 * norm err /\
     (forall j, j ∈ idx -> full !! j = Some 0) /\ moved_by t h nx arm target c (jacobian_multiplier sv) full iteration) /\
  (forall f sub, nullspace_function sv = Some f -> (forall q, map Some q = map (position_at h) (c_movable arm) -> f q = Some sub) ->
     length sub = c_dof arm -> exists full, length full = c_dof arm /\
     norm full * norm full <= 10000 * norm err * (10000 * norm err) + norm sub * norm sub /\
     (forall j, j ∈ idx -> full !! j = Some 0) /\ moved_by t h nx arm target c (jacobian_multiplier sv) full iteration).
Proof.
  intros Hc Hl Hnd Hs Hi Hcnt Hw HJ J err iteration Hdec. destruct eps_R as [Ee Hpos].
  destruct (iteration_matrix t h nx arm cols s c idx Hl HJ Hs Hi) as (h1 & -> & HsJ). fold J in HsJ. destruct HsJ as (HJr & HJc & HJl).
  assert (Herr : length err = m_rows J) by (unfold err; rewrite HJr; apply flagged_length; reflexivity). split.
  - intros Hns. destruct (C67_solve J (dec J) ik_eps err Hdec Hpos Herr) as (x & Hx & Hlx & Hb & _).
    destruct (C53_iteration t ovf (svd_linalg lu dec) sv h nx arm target c idx cols h1 w Hc Hl Hnd Hs Hi Hw HJ) as [H _].
    destruct (H Hcnt Hns) as [H1 _]. destruct (H1 x Hx) as (full & H2 & H3 & H4); [lia|].
    exists full. split; [exact H2|]. split.
    + unfold norm at 1. rewrite (spread_dot idx x full H3). fold (norm x). rewrite Ee in Hb. lra.
    + split; [apply H3|exact H4].
  - intros f sub Hns Hf Hsub. destruct (pinv_answer J (dec J) ik_eps Hdec Hpos) as (P & HP & HsP & Ha).
    destruct (step_null t ovf (svd_linalg lu dec) sv h nx arm target (flags c) idx cols h1 w Hc Hl Hnd eq_refl Hs Hi Hw HJ f P sub Hcnt Hns HP)
      as (full & Hlf & Hsp & Hst); [destruct HsP as [-> _]; fold J; lia|exact Hf|exact Hsub|].
    exists full. split; [exact Hlf|]. split; [|split; [apply Hsp|apply moved_by_intro; exact Hst]].
    assert (Hls : length (without idx sub) = length (m_cols J)).
    { assert (Hrc : run (T := R) 0 (remove_columns true 0 idx sub) (quiet ∅ 0) = Done (without_from 0 idx sub) (quiet ∅ 0)).
      { apply run_remove_columns; [exact Hs|]. rewrite Hsub. eapply Forall_impl; [exact Hi|]. cbn. intros. lia. }
      apply remove_columns_length in Hrc. unfold without. lia. }
    assert (HshJ : shaped J (m_rows J) (length (m_cols J))) by (split; [reflexivity|split; [reflexivity|rewrite HJr; exact HJl]]).
    change (flagged (flags c) (calc_pose_diff target w)) with err in Hsp. change (reduced (flags c) idx cols) with J in Hsp.
    rewrite (null_vec J P (m_rows J) (length (m_cols J)) err (without idx sub) HshJ HsP Herr Hls) in Hsp.
    rewrite (Ha err Herr), (Ha (act J (without idx sub))) in Hsp by (apply (act_length J _ _ _ HshJ)).
    rewrite norm_sqr, (spread_dot idx _ full Hsp).
    pose proof (null_bound J (dec J) ik_eps Hdec Hpos err (without idx sub) Herr Hls) as Hb. cbn zeta in Hb. rewrite Ee in *.
    assert (Hsub2 : dot (without idx sub) (without idx sub) <= dot sub sub).
    { unfold without. generalize 0%nat. clear. induction sub as [|y l IH]; intros k; cbn; [lra|]. specialize (IH (S k)). case_decide; cbn; nra. }
    replace (10000 * norm err * (10000 * norm err)) with (100000000 * (norm err * norm err)) by ring. rewrite !norm_sqr. lra.
Qed.
Print Assumptions C67_bounded_step.

(** C67: if no singular value lies between 0 and 0.0001, the hypothesis of C51, C54 and C65 about
    the linear algebra holds *)
Theorem C67_exact_solver (J : mat R) lu dec (sv : solver R) dof required ignored :
  Forall (fun c => length c = m_rows J) (m_cols J) -> (required + ignored < dof)%nat ->
  svd_of J (dec J) -> gap (dec J) (1 / 10000) ->
  (forall f q, nullspace_function sv = Some f -> length q = dof -> exists v, f q = Some v /\ length v = dof) ->
  solves_exactly (svd_linalg lu dec) sv dof required ignored J.
Proof.
  intros Hc Hcnt Hdec Hg Hf. destruct eps_R as [Ee Hpos]. rewrite <- Ee in Hg. unfold solves_exactly. rewrite decide_True by exact Hcnt.
  destruct (nullspace_function sv) as [f|] eqn:Hns.
  - split; [intros q; apply (Hf f q eq_refl)|]. destruct (C67_pinv J (dec J) ik_eps Hdec Hpos) as (P & HP & Hs & _ & Hpen).
    exists P. split; [exact HP|]. split; [exact Hs|]. apply Hpen; assumption.
  - intros b Hsol. assert (Hb : length b = m_rows J) by (destruct Hsol as (x & _ & <-); apply combine_length; exact Hc).
    destruct (C67_solve J (dec J) ik_eps b Hdec Hpos Hb) as (x & Hx & _ & _ & _ & H). exists x. split; [exact Hx|]. apply H; assumption.
Qed.
Print Assumptions C67_exact_solver.
(** C67: so an iteration of a redundant arm with full rank singular values above 0.0001 brings
    the arm closer if the multiplier is small *)
Theorem C67_closer (t : nat) ovf (h : gmap nat (node R)) nx arm e l target (c : constraints) lu dec sv cols s w idx :
  path_up h e l -> chain_of h (rev l) arm ->
  (forall a n, a ∈ l -> h !! a = Some n -> unit_joint (n_joint n)) ->
  (forall a n r, a ∈ c_movable arm -> h !! a = Some n -> j_limits (n_joint n) = Some r ->
     rmin r < j_position (n_joint n) < rmax r) ->
  run t (jacobian arm) (quiet h nx) = Done (Mat 6 cols) s ->
  run t (end_transform arm) (quiet h nx) = Done w (quiet h nx) ->
  StronglySorted lt idx -> Forall (fun j => (j < c_dof arm)%nat) idx -> (count (flags c) + length idx < c_dof arm)%nat ->
  let J := reduced (flags c) idx cols in
  svd_of J (dec J) -> length (sing (dec J)) = count (flags c) -> Forall (fun x => 1 / 10000 < x) (sing (dec J)) ->
  (forall f q, nullspace_function sv = Some f -> length q = c_dof arm -> exists v, f q = Some v /\ length v = c_dof arm) ->
  exists del, 0 < del /\
  forall sv', nullspace_function sv' = nullspace_function sv -> 0 < jacobian_multiplier sv' < del ->
  exists d h' w',
    run t (solve_one_loop_with_constraints ovf (svd_linalg lu dec) sv' arm target (flags c) idx) (quiet h nx) = Done (Ok d) (quiet h' nx) /\
    run t (end_transform arm) (quiet h' nx) = Done w' (quiet h' nx) /\
    (position_error c target w <> V3 0 0 0 -> len (position_error c target w') < len (position_error c target w)) /\
    (unit_quat (rt target) -> rotation_x c = true -> rotation_y c = true -> rotation_z c = true ->
     0 < len (rotation_error c target w) < PI ->
     len (rotation_error c target w') < len (rotation_error c target w)).
Proof.
  intros Hp Hc Hu Hin HJ Hw Hs Hi Hcnt J Hdec Hk Hsg Hf.
  assert (Hl : all_live h (c_nodes arm)) by (destruct Hc as (-> & _); apply all_live_rev; eapply path_all_live, Hp).
  destruct (iteration_matrix t h nx arm cols s c idx Hl HJ Hs Hi) as (h1 & -> & HsJ). fold J in HsJ. destruct HsJ as (HJr & HJc & HJl).
  assert (Hg : gap (dec J) (1 / 10000)) by (eapply Forall_impl; [exact Hsg|]; cbn; intros x Hx; right; exact Hx).
  destruct eps_R as [Ee Hpos].
  assert (Hsol : exists x, solves J x (flagged (flags c) (pose_error target w))).
  { exists (answer J (dec J) ik_eps (flagged (flags c) (pose_error target w))). split; [apply answer_length; assumption|].
    apply (full_rank J (dec J) ik_eps Hdec Hpos); [congruence|rewrite Ee; exact Hsg|rewrite HJr; apply flagged_length; reflexivity]. }
  apply (C65_closer t ovf h nx arm e l target c (svd_linalg lu dec) sv cols (quiet h1 nx) w idx Hp Hc Hu Hin HJ Hw); try assumption.
  apply C67_exact_solver; try assumption.
Qed.
Print Assumptions C67_closer.

(** The gantry of C51: the singular values are sqrt 2 (both slides along x) and 1. *)
Definition r2 : R := R_sqrt.sqrt 2.
Definition flat_svd : svd R := Svd [[1; 0]; [0; 1]] [r2; 1] [[/ r2; 0; / r2]; [0; 1; 0]].
Lemma r2_pos : 0 < r2 /\ r2 * r2 = 2.
Proof. split; [apply R_sqrt.sqrt_lt_R0; lra|apply sqrt_sqrt; lra]. Qed.
Lemma flat_dec : svd_of flat flat_svd.
Proof.
  destruct r2_pos as [Hp Hq]. assert (E : / r2 * / r2 = / 2) by (rewrite <- Rinv_mult, Hq; reflexivity).
  split; [reflexivity|]. split; [reflexivity|]. split; [repeat constructor|]. split; [repeat constructor|].
  cbn [left right sing flat_svd]. split; [|split; [|split]].
  - intros [|[|i]] [|[|j]] a b Ha Hb; try discriminate; apply Some_inj in Ha as <-; apply Some_inj in Hb as <-; case_decide; try lia; cbn; ring.
  - intros [|[|i]] [|[|j]] a b Ha Hb; try discriminate; apply Some_inj in Ha as <-; apply Some_inj in Hb as <-; case_decide; try lia; cbn; lra.
  - repeat constructor; lra.
  - intros [|x1 [|x2 [|x3 [|x4 x]]]]; try discriminate. intros _. cbn.
    repeat (apply (f_equal2 (@cons R)); [field; lra|]). reflexivity.
Qed.
Lemma flat_large : Forall (fun x => 1 / 10000 < x) (sing flat_svd).
Proof. destruct r2_pos as [Hp Hq]. cbn. repeat constructor; [nra|lra]. Qed.
Definition flat_dec_of (_ : mat R) : svd R := flat_svd.
Example C67_case (t nx : nat) ovf : exists del, 0 < del /\ forall m, 0 < m < del ->
  exists d h' w',
    run t (solve_one_loop_with_constraints ovf (svd_linalg (fun _ _ => None) flat_dec_of) (slow m) arm3 PropStep.goal (flags plane) []) (quiet gantry nx) = Done (Ok d) (quiet h' nx) /\
    run t (end_transform arm3) (quiet h' nx) = Done w' (quiet h' nx) /\
    len (position_error plane PropStep.goal w') < len (position_error plane PropStep.goal iso1).
Proof.
  destruct (gantry_run t nx) as [Hw [h1 HJ]]. destruct gantry_arm as (G1 & G2 & G3).
  destruct (C67_closer t ovf gantry nx arm3 2%nat [2; 1; 0]%nat PropStep.goal plane (fun _ _ => None) flat_dec_of (slow 1) [[1; 0; 0; 0; 0; 0]; [0; 1; 0; 0; 0; 0]; [1; 0; 0; 0; 0; 0]] (quiet h1 nx) iso1 [] G1 G2) as (del & Hdel & H);
    [| |exact HJ|exact Hw|constructor|constructor|vm_compute; lia|exact flat_dec|reflexivity|exact flat_large|discriminate|].
  - intros a n Ha Hn. assert (Ha' : a = 0%nat \/ a = 1%nat \/ a = 2%nat) by (clear -Ha; set_solver).
    destruct Ha' as [-> | [-> | ->]]; apply Some_inj in Hn as <-; (split; [unfold unit_type, unit_axis; cbn; ring|exact proper_1]).
  - intros a n r Ha Hn. assert (Ha' : a = 0%nat \/ a = 1%nat \/ a = 2%nat) by (clear -Ha; cbn in Ha; set_solver).
    destruct Ha' as [-> | [-> | ->]]; apply Some_inj in Hn as <-; discriminate.
  - exists del. split; [exact Hdel|]. intros m Hm. destruct (H (slow m) eq_refl Hm) as (d & h' & w' & E1 & E2 & E3 & _).
    exists d, h', w'. split; [exact E1|]. split; [exact E2|]. apply E3. unfold position_error. cbn. intros E. injection E. lra.
Qed.
