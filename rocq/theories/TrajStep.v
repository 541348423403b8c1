(** * One iteration of the solver with a small multiplier *)
From Coq Require Import String NArith Reals Lra Psatz Nsatz Sorting.Sorted.
From stdpp Require Import gmap.
From Verif Require ReachProofs.
From Verif Require Import Scalar ScalarR Geometry Joint Link Prog NodeM ChainM FuncsM IkM RunLemmas
  SpecJoint SpecNode RangeProofs JointProofs NodeProofs SpecGraph GraphProofs SpecChain ChainProofs
  SpecFK FKProofs VelocityProofs IkLookup SpecIk IkProofs IkProofs2 JacProofs SpecGeom RGeom GeomProofs JacReal PoseDiff
  SpecStep StepProofs LinAlgR LinArm LinIk TrajProofs TrajQuat TrajLog.
Local Open Scope R_scope.

Lemma spread_unique idx : forall (a b : list R) k, length a = length b ->
  without_from k idx a = without_from k idx b ->
  (forall j, (k <= j)%nat -> j ∈ idx -> a !! (j - k)%nat = Some 0) -> (forall j, (k <= j)%nat -> j ∈ idx -> b !! (j - k)%nat = Some 0) -> a = b.
Proof.
  induction a as [|x a IH]; intros [|y b] k Hl Hw Ha Hb; try discriminate; [reflexivity|]. injection Hl as Hl. cbn in Hw.
  assert (Ht : forall (z : R) (c : list R), (forall j, (k <= j)%nat -> j ∈ idx -> (z :: c) !! (j - k)%nat = Some 0) ->
    forall j, (S k <= j)%nat -> j ∈ idx -> c !! (j - S k)%nat = Some 0).
  { intros z c H j Hj Hi. specialize (H j ltac:(lia) Hi). replace (j - k)%nat with (S (j - S k)) in H by lia. exact H. }
  destruct (decide (k ∈ idx)) as [Hk|Hk].
  - pose proof (Ha k (le_n k) Hk) as H1. pose proof (Hb k (le_n k) Hk) as H2. rewrite Nat.sub_diag in H1, H2. cbn in H1, H2.
    f_equal; [congruence|]. apply (IH b (S k)); [assumption|assumption|eapply Ht; eauto|eapply Ht; eauto].
  - injection Hw as -> Hw. f_equal. apply (IH b (S k)); [assumption|assumption|eapply Ht; eauto|eapply Ht; eauto].
Qed.
Lemma spread_to_unique idx (d a b : list R) : length a = length b -> spread_to idx d a -> spread_to idx d b -> a = b.
Proof.
  intros Hl [H1 H2] [H3 H4]. apply (spread_unique idx a b 0 Hl); [unfold without in *; congruence| |];
    intros j _ Hj; rewrite Nat.sub_0_r; auto.
Qed.

(** the motion proposed by an exact linear solver does not depend on the multiplier *)
Lemma exact_step t ovf la (sv0 : solver R) h nx arm target ops idx cols h1 w :
  chain_of h (c_nodes arm) arm -> all_live h (c_nodes arm) -> NoDup (c_movable arm) ->
  length ops = 6%nat -> StronglySorted lt idx -> Forall (fun j => (j < c_dof arm)%nat) idx ->
  run t (end_transform arm) (quiet h nx) = Done w (quiet h nx) ->
  run t (jacobian arm) (quiet h nx) = Done (Mat 6 cols) (quiet h1 nx) ->
  let J := reduced ops idx cols in
  let err := flagged ops (calc_pose_diff target w) in
  solves_exactly la sv0 (c_dof arm) (count_true ops) (length idx) J -> (exists x, solves J x err) ->
  exists full, length full = c_dof arm /\ flagged ops (combine 6 cols full) = err /\
    forall sv, nullspace_function sv = nullspace_function sv0 ->
    step_to t h nx arm target ops (jacobian_multiplier sv) full
      (run t (solve_one_loop_with_constraints ovf la sv arm target ops idx) (quiet h nx)).
Proof.
  intros Hc Hl Hnd Hops Hs Hi Hw HJ J err Hex Hsol.
  pose proof HJ as HJ2. apply jacobian_done in HJ2 as (h2 & _ & _ & _ & Hlen & H6); [|exact Hl]. cbn [m_cols] in *.
  assert (Hrc : forall (A : Type) (k : list A), length k = c_dof arm -> (length (without idx k) + length idx = c_dof arm)%nat).
  { intros A k Hk. assert (Hrc : run (T := R) 0 (remove_columns true 0 idx k) (quiet ∅ 0) = Done (without_from 0 idx k) (quiet ∅ 0)).
    { apply run_remove_columns; [exact Hs|]. rewrite Hk. eapply Forall_impl; [exact Hi|]. cbn. intros. lia. }
    apply remove_columns_length in Hrc. unfold without. lia. }
  assert (HnJ : (length (m_cols J) + length idx = c_dof arm)%nat) by (unfold J, reduced; cbn [m_cols]; rewrite map_length; auto).
  assert (H6J : Forall (fun k => length k = m_rows J) (m_cols J)).
  { unfold J, reduced. cbn [m_rows m_cols]. apply Forall_map. eapply Forall_impl; [apply Forall_without; exact H6|].
    intros c Hl6. cbn in Hl6. apply flagged_length. congruence. }
  assert (Herr : length err = m_rows J) by (unfold err, J, reduced; cbn [m_rows]; apply flagged_length; rewrite Hops; reflexivity).
  unfold solves_exactly in Hex.
  destruct (decide (count_true ops + length idx < c_dof arm)%nat) as [Hreq|Hreq].
  - destruct (nullspace_function sv0) as [f|] eqn:Hns.
    + destruct Hex as (Hf & P & HP & HsP & Hpen). destruct Hsol as [x0 [Hx0 Hb]].
      destruct (run_positions t h nx arm _ Hc) as (orig & _ & Hlo & Hpos).
      destruct (Hf orig) as (sub & Hsub & Hlsub); [congruence|].
      assert (Hf' : forall q, map Some q = map (position_at h) (c_movable arm) -> f q = Some sub).
      { intros q Hq. rewrite <- Hsub. f_equal. rewrite <- Hpos in Hq. clear -Hq. revert orig Hq.
        induction q as [|x q IH]; intros [|y o] E; try discriminate; [reflexivity|]. cbn in E. injection E as -> E. f_equal. auto. }
      assert (HPr : (m_rows P + length idx = c_dof arm)%nat) by (destruct HsP as [-> _]; exact HnJ).
      destruct (step_null t ovf la sv0 h nx arm target ops idx cols h1 w Hc Hl Hnd Hops Hs Hi Hw HJ f P sub Hreq Hns HP HPr Hf' Hlsub)
        as (full & Hlf & Hsp & Hst).
      exists full. split; [exact Hlf|]. split.
      * rewrite (act_full_gen ops idx cols full _ Hops H6 ltac:(congruence) Hsp). fold J err.
        rewrite (null_motion J P (m_rows J) (length (m_cols J)));
          [|split; [reflexivity|split; [reflexivity|exact H6J]]|exact HsP|exact Herr| |exact Hpen].
        -- change (act J x0 = err) in Hb. rewrite <- Hb. apply Hpen. exact Hx0.
        -- specialize (Hrc R sub Hlsub). lia.
      * intros sv Esv.
        destruct (step_null t ovf la sv h nx arm target ops idx cols h1 w Hc Hl Hnd Hops Hs Hi Hw HJ f P sub Hreq Esv HP HPr Hf' Hlsub)
          as (full' & Hlf' & Hsp' & Hst').
        rewrite (spread_to_unique idx _ full full' ltac:(congruence) Hsp Hsp'). exact Hst'.
    + destruct (Hex err Hsol) as (x & Hx & Hlx & Hb).
      destruct (step_svd t ovf la sv0 h nx arm target ops idx cols h1 w Hc Hl Hnd Hops Hs Hi Hw HJ x Hreq Hns Hx) as (full & Hlf & Hsp & Hst); [lia|].
      exists full. split; [exact Hlf|]. split.
      * rewrite (act_full_gen ops idx cols full _ Hops H6 ltac:(congruence) Hsp). exact Hb.
      * intros sv Esv.
        destruct (step_svd t ovf la sv h nx arm target ops idx cols h1 w Hc Hl Hnd Hops Hs Hi Hw HJ x Hreq Esv Hx) as (full' & Hlf' & Hsp' & Hst'); [lia|].
        rewrite (spread_to_unique idx _ full full' ltac:(congruence) Hsp Hsp'). exact Hst'.
  - destruct Hex as [Hi0 Hex]. destruct (Hex err Hsol) as (x & Hx & Hlx & Hb).
    assert (Hidx0 : idx = []) by (destruct idx; [reflexivity|discriminate]).
    exists x. split; [lia|]. split.
    + rewrite (act_full_gen ops idx cols x x Hops H6 ltac:(lia)); [exact Hb|].
      rewrite Hidx0. split; [apply without_from_none; set_solver|set_solver].
    + intros sv _. apply (step_lu t ovf la sv h nx arm target ops idx cols h1 w Hc Hl Hnd Hops Hs Hi Hw HJ x); [lia|exact Hx].
Qed.

(** the joints after a step that left everything but the positions as it was *)
Lemma fed_joints h h' L : forall js q, joints_at h L js -> frozen h h' -> length q = nmov js ->
  (forall i a, List.filter (node_movable h) L !! i = Some a -> position_at h' a = q !! i) ->
  exists js', joints_at h' L js' /\ map local_transform js' = map local_transform (feed js q).
Proof.
  induction L as [|a L IH]; intros js q Hj Hf Hl Hm; inversion Hj as [|? j ? js0 (n & Hn & ->) Hj' E1 E2]; subst js.
  { exists []. split; [constructor|reflexivity]. }
  destruct (frozen_at h h' a n Hf Hn) as (n' & Hn' & E). apply bare_eq in E as (_ & Et & _ & _ & Eo & _).
  cbn [nmov feed List.filter] in *. unfold node_movable in Hm at 1. rewrite Hn in Hm.
  assert (Hmv : forall x q', position_at h' a = Some x -> length q' = nmov js0 ->
    (forall i a, List.filter (node_movable h) L !! i = Some a -> position_at h' a = q' !! i) ->
    exists js', joints_at h' (a :: L) js' /\ map local_transform js' = map local_transform (jat (n_joint n) x :: feed js0 q')).
  { intros z q' Hz Hl' Hm'. destruct (IH js0 q' Hj' Hf Hl' Hm') as (js' & H1 & H2).
    exists (n_joint n' :: js'). split; [constructor; eauto|]. cbn [map]. rewrite H2. f_equal.
    unfold position_at in Hz. rewrite Hn' in Hz. apply Some_inj in Hz.
    unfold local_transform, jat. cbn. rewrite Hz, Et, Eo. reflexivity. }
  destruct (j_type (n_joint n)) eqn:Ety.
  - destruct (IH js0 q Hj' Hf Hl Hm) as (js' & H1 & H2). exists (n_joint n' :: js'). split; [constructor; eauto|].
    cbn [map]. rewrite H2. f_equal. unfold local_transform. rewrite Et, Eo, Ety. reflexivity.
  - destruct q as [|y q]; [discriminate|]. injection Hl as Hl. apply Hmv; [apply (Hm 0%nat); reflexivity|exact Hl|intros i; apply (Hm (S i))].
  - destruct q as [|y q]; [discriminate|]. injection Hl as Hl. apply Hmv; [apply (Hm 0%nat); reflexivity|exact Hl|intros i; apply (Hm (S i))].
Qed.

(** a strictly interior position stays inside for a while *)
Definition strictly_inside (j : joint R) : Prop :=
  forall r, j_limits j = Some r -> rmin r < j_position j < rmax r.
Lemma limited_near (o : option (range R)) p y : (forall r, o = Some r -> rmin r < p < rmax r) ->
  exists del, 0 < del /\ forall m, 0 <= m < del -> limited o (p + m * y) = p + m * y.
Proof.
  intros H. destruct o as [r|]; [|exists 1; split; [lra|reflexivity]]. destruct (H r eq_refl) as [H1 H2].
  set (g := Rmin (p - rmin r) (rmax r - p)). assert (Hg : 0 < g) by (apply Rmin_pos; lra).
  exists (g / (Rabs y + 1)). pose proof (Rabs_pos y). split; [apply Rdiv_lt_0_compat; lra|]. intros m [Hm0 Hm].
  assert (Hmy : Rabs (m * y) < g).
  { rewrite Rabs_mult, (Rabs_right m) by lra.
    assert (m * (Rabs y + 1) < g).
    { apply (Rmult_lt_compat_r (Rabs y + 1)) in Hm; [|lra]. unfold Rdiv in Hm. rewrite Rmult_assoc, Rinv_l, Rmult_1_r in Hm by lra. exact Hm. }
    nra. }
  apply Rabs_def2 in Hmy. pose proof (Rmin_l (p - rmin r) (rmax r - p)). pose proof (Rmin_r (p - rmin r) (rmax r - p)). fold g in H3, H4.
  unfold limited, clamp, sgt, slt. cbn. unfold Rltb. destruct (Rlt_dec _ _); [lra|]. destruct (Rlt_dec _ _); [lra|reflexivity].
Qed.
Lemma all_near {A} (P : A -> R -> Prop) (l : list A) :
  (forall x, x ∈ l -> exists del, 0 < del /\ forall m, 0 <= m < del -> P x m) ->
  exists del, 0 < del /\ forall m, 0 <= m < del -> forall x, x ∈ l -> P x m.
Proof.
  induction l as [|x l IH]; intros H; [exists 1; split; [lra|set_solver]|].
  destruct (H x) as (d1 & Hd1 & H1); [set_solver|]. destruct IH as (d2 & Hd2 & H2); [intros y Hy; apply H; set_solver|].
  exists (Rmin d1 d2). split; [apply Rmin_pos; assumption|]. intros m [Hm0 Hm] y Hy.
  pose proof (Rmin_l d1 d2). pose proof (Rmin_r d1 d2).
  apply elem_of_cons in Hy as [->|Hy]; [apply H1; lra|apply H2; [lra|exact Hy]].
Qed.

Lemma flagged_same {A} fl : forall a b : list A, length a = length fl -> length b = length fl -> flagged fl a = flagged fl b ->
  forall i, fl !! i = Some true -> a !! i = b !! i.
Proof.
  induction fl as [|f fl IH]; intros [|x a] [|y b] Ha Hb E i Hi; try discriminate. injection Ha as Ha. injection Hb as Hb.
  destruct f; cbn in E; [injection E as -> E|]; (destruct i; [try reflexivity; discriminate|]); cbn in *; apply (IH a b Ha Hb E i Hi).
Qed.

(** what a derivative of minus the value says about small steps *)
Lemma first_order (g : R -> vec3 R) : deriv3 g 0 (times (-1) (g 0)) ->
  forall eps, 0 < eps -> exists del, 0 < del /\ forall m, 0 < m < del ->
  len (minus (g m) (times (1 - m) (g 0))) <= eps * m.
Proof.
  intros (D1 & D2 & D3) eps Heps. set (e := eps / 2). assert (He : 0 < e) by (unfold e; lra).
  destruct (D1 e He) as [e1 H1]. destruct (D2 e He) as [e2 H2]. destruct (D3 e He) as [e3 H3].
  exists (Rmin e1 (Rmin e2 e3)). split; [repeat apply Rmin_pos; apply cond_pos|]. intros m [Hm0 Hm].
  pose proof (Rmin_l e1 (Rmin e2 e3)). pose proof (Rmin_r e1 (Rmin e2 e3)). pose proof (Rmin_l e2 e3). pose proof (Rmin_r e2 e3).
  assert (Hab : Rabs m = m) by (apply Rabs_right; lra).
  specialize (H1 m ltac:(lra) ltac:(rewrite Hab; lra)). specialize (H2 m ltac:(lra) ltac:(rewrite Hab; lra)). specialize (H3 m ltac:(lra) ltac:(rewrite Hab; lra)).
  rewrite Rplus_0_l in *. destruct (g 0) as [a b c]. destruct (g m) as [a' b' c']. cbn [vx vy vz times] in *.
  assert (Hk : forall z z', Rabs ((z' - z) / m - -1 * z) < e -> (z' - (1 - m) * z) * (z' - (1 - m) * z) <= (e * m) * (e * m)).
  { intros z z' Hz. replace (z' - (1 - m) * z) with (((z' - z) / m - -1 * z) * m) by (field; lra).
    apply Rabs_def2 in Hz. set (u := (z' - z) / m - -1 * z) in *.
    assert (u * u <= e * e) by nra. replace (u * m * (u * m)) with (u * u * (m * m)) by ring. replace (e * m * (e * m)) with (e * e * (m * m)) by ring.
    apply Rmult_le_compat_r; nra. }
  apply Hk in H1. apply Hk in H2. apply Hk in H3.
  set (d := minus _ _). pose proof (len_nonneg d) as Hd0. pose proof (len_sqr d) as Hd.
  assert (inner d d <= 3 * ((e * m) * (e * m))).
  { unfold d, inner, minus. cbn. lra. }
  assert (0 < e * m) by nra. replace (eps * m) with (2 * (e * m)) by (unfold e; field). nra.
Qed.

(** ** Along the motion of an iteration *)
Lemma position_deriv c target (fk : R -> iso R) w l o (full : list R) cols : fk 0 = w ->
  combine 6 cols full = [vx l; vy l; vz l; vx o; vy o; vz o] ->
  flagged (flags c) (combine 6 cols full) = flagged (flags c) (calc_pose_diff target w) ->
  deriv3 (fun s => tr (fk s)) 0 l ->
  deriv3 (fun s => position_error c target (fk s)) 0 (times (-1) (position_error c target (fk 0))).
Proof.
  intros E0 Ec Ef (D1 & D2 & D3). rewrite Ec in Ef. rewrite E0.
  pose proof (fun H1 H2 => flagged_same (flags c) _ _ H1 H2 Ef) as Hi. specialize (Hi eq_refl eq_refl).
  assert (Hkeep : forall b (f : R -> R) d a x, derivable_pt_lim f 0 d -> (b = true -> d = a - x) ->
    derivable_pt_lim (fun s => keep b (a - f s)) 0 (-1 * keep b (a - x))).
  { intros b f d a x Hd Hb. destruct b; cbn [keep].
    - eapply deriv_ext; [intros u; reflexivity| |apply deriv_diff; [apply deriv_const|exact Hd]]. rewrite (Hb eq_refl). ring.
    - change (@szero R RScalar) with 0. eapply deriv_ext; [intros u; reflexivity| |apply deriv_const]. ring. }
  split; [|split]; cbn [position_error vx vy vz times].
  - apply (Hkeep _ (fun s => vx (tr (fk s))) _ _ _ D1). intros Hb. specialize (Hi 0%nat). cbn in Hi. rewrite Hb in Hi. specialize (Hi eq_refl). injection Hi as ->. reflexivity.
  - apply (Hkeep _ (fun s => vy (tr (fk s))) _ _ _ D2). intros Hb. specialize (Hi 1%nat). cbn in Hi. rewrite Hb in Hi. specialize (Hi eq_refl). injection Hi as ->. reflexivity.
  - apply (Hkeep _ (fun s => vz (tr (fk s))) _ _ _ D3). intros Hb. specialize (Hi 2%nat). cbn in Hi. rewrite Hb in Hi. specialize (Hi eq_refl). injection Hi as ->. reflexivity.
Qed.
Lemma halfturn q : unit_quat q -> qw q = 0 -> len (qscaled_axis q) = PI.
Proof.
  intros Hq Hw. pose proof PI_RGT_0. destruct (scaled_axis_cases q Hq) as [[Hv _]|(a & th & Ha & [Ht Hp] & Es & Hx)].
  - exfalso. destruct q as [i j k w]. unfold qvec, unit_quat in *. cbn in *. injection Hv as -> -> ->. subst. lra.
  - rewrite Es, len_times by lra. assert (len a = 1) as -> by (unfold len; change (inner a a = 1) in Ha; rewrite Ha; apply sqrt_1).
    rewrite Rmult_1_r. destruct Hp as [Hp|Hp]; [|exact Hp]. exfalso.
    (* the trace of the rotation *)
    pose proof (Hx (V3 1 0 0)) as H1. pose proof (Hx (V3 0 1 0)) as H2. pose proof (Hx (V3 0 0 1)) as H3.
    apply (f_equal vx) in H1. apply (f_equal vy) in H2. apply (f_equal vz) in H3.
    assert (Hc : cos th = -1).
    { destruct q as [i j k w], a as [ax ay az]. unfold unit_quat, unit_axis in *. cbn in Hq, Hw, Ha. subst w.
      clear Hx Es. unfold turn, rotate, plus, times, cross, inner in H1, H2, H3. cbn in H1, H2, H3.
      pose proof (f_equal (Rmult (1 - cos th)) Ha) as Ha'. lra. }
    pose proof (cos_decreasing_1 th PI ltac:(lra) ltac:(lra) ltac:(lra) ltac:(lra) Hp) as Hlt. rewrite cos_PI in Hlt. lra.
Qed.
Lemma rotation_deriv c target (fk : R -> iso R) w l o (full : list R) cols : fk 0 = w ->
  combine 6 cols full = [vx l; vy l; vz l; vx o; vy o; vz o] ->
  flagged (flags c) (combine 6 cols full) = flagged (flags c) (calc_pose_diff target w) ->
  deriv4 (fun s => rt (fk s)) 0 (qtimes (/ 2) (qmul (pure o) (rt w))) ->
  (forall s, unit_quat (rt (fk s))) -> unit_quat (rt target) ->
  rotation_x c = true -> rotation_y c = true -> rotation_z c = true -> len (rotation_error c target w) < PI ->
  deriv3 (fun s => rotation_error c target (fk s)) 0 (times (-1) (rotation_error c target (fk 0))).
Proof.
  intros E0 Ec Ef HD Hu Ht Cx Cy Cz Hpi. rewrite Ec in Ef.
  pose proof (fun H1 H2 => flagged_same (flags c) _ _ H1 H2 Ef) as Hi. specialize (Hi eq_refl eq_refl).
  set (E := fun s => qmul (rt target) (qconj (rt (fk s)))).
  assert (Hre : forall s, rotation_error c target (fk s) = qscaled_axis (E s)).
  { intros s. unfold rotation_error. fold (E s). rewrite Cx, Cy, Cz. cbn [keep]. destruct (qscaled_axis (E s)); reflexivity. }
  assert (Ho : o = qscaled_axis (E 0)).
  { unfold E. rewrite E0. pose proof (Hi 3%nat) as H3. pose proof (Hi 4%nat) as H4. pose proof (Hi 5%nat) as H5. cbn in H3, H4, H5.
    rewrite Cx in H3. rewrite Cy in H4. rewrite Cz in H5. specialize (H3 eq_refl). specialize (H4 eq_refl). specialize (H5 eq_refl).
    apply Some_inj in H3. apply Some_inj in H4. apply Some_inj in H5.
    change (qrotation_to (rt w) (rt target)) with (qmul (rt target) (qconj (rt w))) in *.
    destruct o, (qscaled_axis (qmul (rt target) (qconj (rt w)))). cbn in *. congruence. }
  assert (HE : forall s, unit_quat (E s)) by (intros s; apply unit_qmul; [exact Ht|apply unit_qconj, Hu]).
  apply (deriv3_ext (fun s => qscaled_axis (E s)) _ 0 (times (-1) (qscaled_axis (E 0)))); [intros s; rewrite Hre; reflexivity|rewrite Hre; reflexivity|].
  apply log_deriv; [exact HE| |].
  - intros Hw. apply (halfturn _ (HE 0)) in Hw. rewrite <- Hre, E0 in Hw. lra.
  - rewrite <- Ho.
    assert (Hcj : deriv4 (fun s => qconj (rt (fk s))) 0 (qconj (qtimes (/ 2) (qmul (pure o) (rt w))))).
    { destruct HD as (D1 & D2 & D3 & D4). split; [|split; [|split]]; cbn [qconj qi qj qk qw].
      - exact (derivable_pt_lim_opp _ _ _ D1).
      - exact (derivable_pt_lim_opp _ _ _ D2).
      - exact (derivable_pt_lim_opp _ _ _ D3).
      - exact D4. }
    pose proof (deriv4_mul (fun _ => rt target) _ 0 _ _ (deriv4_const (rt target) 0) Hcj) as Hm.
    eapply deriv4_ext; [intros s; reflexivity| |exact Hm]. unfold E. rewrite E0. cbn beta.
    destruct (rt target), (rt w), o. unfold qplus, qtimes, pure, qconj. un. cbn. f_equal; ring.
Qed.

Lemma map_Some_inj {A} (a b : list A) : map Some a = map Some b -> a = b.
Proof. revert b. induction a as [|x a IH]; intros [|y b] E; try discriminate; [reflexivity|]. injection E as -> E. f_equal. apply IH, E. Qed.

Lemma small_step_lemma t ovf (h : gmap nat (node R)) nx arm e l target (c : constraints) la sv cols s w idx :
  path_up h e l -> chain_of h (rev l) arm ->
  (forall a n, a ∈ l -> h !! a = Some n -> unit_joint (n_joint n)) ->
  (forall a n, a ∈ c_movable arm -> h !! a = Some n -> strictly_inside (n_joint n)) ->
  run t (jacobian arm) (quiet h nx) = Done (Mat 6 cols) s ->
  run t (end_transform arm) (quiet h nx) = Done w (quiet h nx) ->
  let J := reduced (flags c) idx cols in
  solves_exactly la sv (c_dof arm) (count (flags c)) (length idx) J ->
  (exists x, solves J x (flagged (flags c) (pose_error target w))) ->
  StronglySorted lt idx -> Forall (fun j => (j < c_dof arm)%nat) idx ->
  exists (fk : R -> iso R) del, 0 < del /\
    (forall sv', nullspace_function sv' = nullspace_function sv -> 0 <= jacobian_multiplier sv' < del ->
      exists d h', run t (solve_one_loop_with_constraints ovf la sv' arm target (flags c) idx) (quiet h nx) = Done (Ok d) (quiet h' nx) /\
        run t (end_transform arm) (quiet h' nx) = Done (fk (jacobian_multiplier sv')) (quiet h' nx)) /\
    fk 0 = w /\
    deriv3 (fun m => position_error c target (fk m)) 0 (times (-1) (position_error c target (fk 0))) /\
    (unit_quat (rt target) -> rotation_x c = true -> rotation_y c = true -> rotation_z c = true -> len (rotation_error c target w) < PI ->
     deriv3 (fun m => rotation_error c target (fk m)) 0 (times (-1) (rotation_error c target (fk 0)))).
Proof.
  intros Hp Hch Hu Hin HJ Hw J Hex Hsol Hso Hi. pose proof Hch as (En & Hm & Hd).
  assert (Hlive : all_live h (rev l)) by (apply all_live_rev; eapply path_all_live; eauto).
  destruct (joints_exist h (rev l) Hlive) as [js Hjs].
  destruct (serial_jacobian t h nx arm e l js Hp Hch Hjs) as (h1 & Hr).
  assert (cols = colsof (tr (end_at iso1 js)) iso1 js) as Ecols by (rewrite HJ in Hr; congruence).
  assert (Ew : w = end_at iso1 js).
  { assert (Hr2 : run t (end_transform arm) (quiet h nx) = Done (end_at iso1 js) (quiet h nx)).
    { unfold end_transform, end_at. apply run_end_fold. rewrite En. apply joints_locals. exact Hjs. }
    rewrite Hw in Hr2. congruence. }
  assert (Hnd : NoDup (c_movable arm)).
  { rewrite Hm. apply NoDup_ListNoDup, List.NoDup_filter, NoDup_rev, NoDup_ListNoDup. eapply path_up_nodup; eauto. }
  assert (Hch' : chain_of h (c_nodes arm) arm) by (rewrite En; exact Hch).
  assert (Hlive' : all_live h (c_nodes arm)) by (rewrite En; exact Hlive).
  rewrite <- Ecols in Hr.
  destruct (exact_step t ovf la sv h nx arm target (flags c) idx cols h1 w Hch' Hlive' Hnd eq_refl Hso Hi Hw Hr Hex Hsol)
    as (full & Hlf & Hfull & Hstep).
  assert (Hun : Forall unit_joint js).
  { assert (Hu' : forall a n, a ∈ rev l -> h !! a = Some n -> unit_joint (n_joint n)).
    { intros a n Ha. apply Hu. apply elem_of_list_In, in_rev, elem_of_list_In. exact Ha. }
    clear -Hjs Hu'. induction Hjs as [|a j L js (n & Hn & ->) Hj IH]; constructor; [apply (Hu' a n); [set_solver|exact Hn]|].
    apply IH. intros b m Hb. apply Hu'. set_solver. }
  assert (Hnm : nmov js = c_dof arm) by (rewrite (nmov_filter h (rev l) js Hjs); symmetry; exact Hd).
  pose proof (posns_filter h (rev l) js Hjs) as Hpos. rewrite <- Hm in Hpos.
  set (us := zip_with (fun p y (m : R) => p + m * y) (posns js) full).
  assert (Hlp : length (posns js) = c_dof arm).
  { apply (f_equal length) in Hpos. rewrite !map_length in Hpos. rewrite Hpos, Hm. symmetry. exact Hd. }
  assert (Hlus : length us = nmov js) by (unfold us; rewrite zip_with_length; lia).
  assert (Hval : forall m, map (fun u : R -> R => u m) us = zip_with (fun p y => p + m * y) (posns js) full).
  { intros m. unfold us. clear. revert full. induction (posns js) as [|p ps IH]; intros [|y full]; cbn; try reflexivity. f_equal. apply IH. }
  assert (Hus0 : map (fun u : R -> R => u 0) us = posns js).
  { rewrite Hval. assert (E : length (posns js) = length full) by congruence. revert E. clear.
    revert full. induction (posns js) as [|p ps IH]; intros [|y full] E; try discriminate; [reflexivity|]. cbn. injection E as E. rewrite (IH full E). f_equal. ring. }
  assert (Hder : Forall2 (fun u d => derivable_pt_lim u 0 d) us full).
  { unfold us. assert (E : length (posns js) = length full) by congruence. revert E. clear.
    revert full. induction (posns js) as [|p ps IH]; intros [|y full] E; try discriminate; [constructor|]. cbn. injection E as E. constructor; [|apply IH, E].
    eapply deriv_ext; [intros m; reflexivity| |apply deriv_sum; [apply deriv_const|apply (deriv_prod (fun m => m)); [exact (derivable_pt_lim_id 0)|apply deriv_const]]]. cbn beta. ring. }
  pose proof (traj_lemma 0 js Hun us full iso1 Hlus Hder Hus0 proper_1) as Htr.
  pose proof (traj_quat_lemma 0 js Hun us full iso1 Hlus Hder Hus0 proper_1) as Htq.
  pose proof (combine_twist (tr (end_at iso1 js)) js iso1 full ltac:(congruence)) as Hcb. rewrite <- Ecols in Hcb.
  destruct (twist (tr (end_at iso1 js)) iso1 js full) as [lv ov]. destruct Htr as [Ht1 _]. cbn [snd] in Htq. rewrite <- Ew in Htq.
  assert (Hx : end_at iso1 (feed_at js us 0) = w) by (rewrite Ew; unfold end_at, feed_at; rewrite Hus0, feed_posns; reflexivity).
  destruct (all_near (fun '(a, (p, y)) m => forall n, h !! a = Some n -> limited (j_limits (n_joint n)) (p + m * y) = p + m * y)
    (zip (c_movable arm) (zip (posns js) full))) as (del & Hdel & Hlim).
  { intros [a [p y]] Hz. apply elem_of_list_lookup in Hz as [i Hz]. apply lookup_zip_with_Some in Hz as (a' & [p' y'] & E & Ha & Hz2).
    injection E as -> -> ->. apply lookup_zip_with_Some in Hz2 as (p'' & y'' & E & Hpi & _). injection E as -> ->.
    assert (Hpa : position_at h a' = Some p'').
    { assert (E : map Some (posns js) !! i = map (position_at h) (c_movable arm) !! i) by (rewrite Hpos; reflexivity).
      change (Some <$> posns js) with (map Some (posns js)) in E. rewrite !list_lookup_fmap in E. rewrite Hpi, Ha in E. cbn in E. congruence. }
    unfold position_at in Hpa. destruct (h !! a') as [n|] eqn:Hn; [|discriminate]. cbn in Hpa. apply Some_inj in Hpa.
    destruct (limited_near (j_limits (n_joint n)) p'' y'') as (del & Hdel & H).
    { intros r Er. rewrite <- Hpa. apply (Hin a' n); [eapply elem_of_list_lookup_2; exact Ha|exact Hn|exact Er]. }
    exists del. split; [exact Hdel|]. intros m Hm' n' E. apply Some_inj in E as <-. apply H, Hm'. }
  exists (fun m => end_at iso1 (feed_at js us m)), del. split; [exact Hdel|]. split; [|split; [exact Hx|split]].
  - intros sv' Esv Hmul. destruct (Hstep sv' Esv) as (h' & w' & Hrun & Hw' & Hf & _ & Hposs).
    eexists _, h'. split; [exact Hrun|]. rewrite Hw'. f_equal.
    destruct (fed_joints h h' (rev l) js (map (fun u : R -> R => u (jacobian_multiplier sv')) us) Hjs Hf) as (js' & Hjs' & Ejs').
    { rewrite map_length. exact Hlus. }
    { intros i a Ha. rewrite <- Hm in Ha. rewrite Hval.
      destruct (lookup_lt_is_Some_2 full i) as [y Hy]; [apply lookup_lt_Some in Ha; rewrite Hlf, Hd, <- Hm; exact Ha|].
      destruct (lookup_lt_is_Some_2 (posns js) i) as [p Hpi]; [apply lookup_lt_Some in Hy; congruence|].
      assert (Hpa : position_at h a = Some p).
      { assert (E : map Some (posns js) !! i = map (position_at h) (c_movable arm) !! i) by (rewrite Hpos; reflexivity).
        rewrite !list_lookup_fmap in E. rewrite Hpi, Ha in E. cbn in E. congruence. }
      unfold position_at in Hpa. destruct (h !! a) as [n|] eqn:Hn; [|discriminate]. cbn in Hpa. apply Some_inj in Hpa.
      rewrite (Hposs i a n Ha Hn), Hy. erewrite (proj2 (lookup_zip_with_Some _ _ _ _ _)) by (exists p, y; split; [reflexivity|split; assumption]).
      f_equal. rewrite Hpa. change (sadd p (smul (jacobian_multiplier sv') y)) with (p + jacobian_multiplier sv' * y).
      assert (Hz : (a, (p, y)) ∈ zip (c_movable arm) (zip (posns js) full)).
      { apply elem_of_list_lookup. exists i. apply lookup_zip_with_Some. exists a, (p, y). split; [reflexivity|]. split; [exact Ha|].
        apply lookup_zip_with_Some. exists p, y. auto. }
      exact (Hlim _ Hmul _ Hz n Hn). }
    assert (Hr2 : run t (end_transform arm) (quiet h' nx) = Done (end_at iso1 js') (quiet h' nx)).
    { unfold end_transform, end_at. apply run_end_fold. rewrite En. apply joints_locals. exact Hjs'. }
    rewrite Hw' in Hr2. injection Hr2 as ->. unfold end_at, feed_at. rewrite Ejs'. reflexivity.
  - eapply (position_deriv c target (fun m => end_at iso1 (feed_at js us m)) w lv ov full cols Hx Hcb Hfull Ht1).
  - intros Ht Cx Cy Cz Hpi.
    apply (rotation_deriv c target (fun m => end_at iso1 (feed_at js us m)) w lv ov full cols Hx Hcb Hfull Htq); try assumption.
    intros m. apply proper_end_at; [apply proper_1|apply feed_unit; exact Hun].
Qed.
Lemma shorter (a b : vec3 R) m eps : 0 < m < 1 -> 0 < len a -> eps < len a ->
  len (minus b (times (1 - m) a)) <= eps * m -> len b < len a.
Proof.
  intros Hm Ha He H.
  assert (Hb : len b <= len (minus b (times (1 - m) a)) + len (times (1 - m) a)).
  { set (d := minus _ _) in *. set (k := times (1 - m) a) in *.
    replace b with (plus d k) by (unfold d; destruct b, k; gv; ring).
    apply ReachProofs.len_plus. }
  rewrite len_times in Hb by lra. nra.
Qed.
