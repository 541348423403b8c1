(** * The solver on arms of linear joints *)
From Coq Require Import String NArith Reals Lra Sorting.Sorted.
From stdpp Require Import gmap.
From Verif Require Import Scalar ScalarR Geometry Joint Link Prog NodeM ChainM FuncsM IkM RunLemmas
  SpecJoint SpecNode RangeProofs JointProofs NodeProofs SpecGraph GraphProofs SpecChain ChainProofs
  SpecFK FKProofs VelocityProofs IkLookup SpecIk IkProofs IkProofs2 JacProofs SpecGeom RGeom GeomProofs SpecStep StepProofs LinAlgR LinArm.
Local Open Scope R_scope.

Lemma lsub_scale m a : lsub a (lscale m a) = lscale (1 - m) a.
Proof. induction a as [|x a IH]; cbn; [reflexivity|]. unfold lsub, lscale in *. rewrite IH. f_equal. ring. Qed.
Lemma lscale_lscale a b x : lscale a (lscale b x) = lscale (a * b) x.
Proof. induction x as [|y x IH]; cbn; [reflexivity|]. unfold lscale in *. rewrite IH. f_equal. ring. Qed.
Lemma solves_scale J c x b : Forall (fun k => length k = m_rows J) (m_cols J) -> solves J x b -> solves J (lscale c x) (lscale c b).
Proof. intros H [E <-]. split; [rewrite lscale_length; exact E|]. apply combine_scale; assumption. Qed.

Lemma Forall_without {A} (P : A -> Prop) idx l : Forall P l -> forall k, Forall P (without_from k idx l).
Proof. induction 1 as [|x l Hx H IH]; intros k; cbn; [constructor|]. case_decide; [apply IH|constructor; [exact Hx|apply IH]]. Qed.
Section LinIk.
  Variables (arm : chain) (e : nat) (l : list nat) (target : iso R) (ops : list bool) (idx : list nat)
    (D : list (vec3 R)) (la : linalg R) (sv : solver R).
  Hypothesis Hops : length ops = 6%nat.
  Hypothesis Hsort : StronglySorted lt idx.
  Hypothesis Hidx : Forall (fun j => (j < c_dof arm)%nat) idx.
  Let cols := map col_of D.
  Let J := reduced ops idx cols.
  Hypothesis HD : length D = c_dof arm.
  Hypothesis Hexact : solves_exactly la sv (c_dof arm) (count_true ops) (length idx) J.
  Lemma cols6 : Forall (fun c => length c = 6%nat) cols.
  Proof. apply Forall_map, Forall_true. intros x. reflexivity. Qed.
  Lemma J_shaped : Forall (fun k => length k = m_rows J) (m_cols J).
  Proof.
    unfold J, reduced. cbn [m_rows m_cols]. apply Forall_map.
    eapply Forall_impl; [apply Forall_without; exact cols6|]. intros c Hc. cbn in Hc. apply flagged_length. congruence.
  Qed.
  (** dropping the columns of the ignored joints *)
  Lemma act_full full x : length full = c_dof arm -> spread_to idx x full -> flagged ops (combine 6 cols full) = act J x.
  Proof.
    intros Hlen [Hw Hz]. rewrite <- Hops, flagged_combine. unfold act, J, reduced. cbn [m_rows m_cols].
    unfold without in *. rewrite <- without_from_map, <- Hw.
    symmetry. apply combine_without_from.
    - apply Forall_map. eapply Forall_impl; [exact cols6|]. cbn. intros c Hc. apply flagged_length. congruence.
    - rewrite map_length. unfold cols. rewrite map_length. congruence.
    - intros j _ Hj. apply Hz. exact Hj.
  Qed.
  Lemma ncols_J : (length (m_cols J) + length idx = c_dof arm)%nat.
  Proof.
    unfold J, reduced. cbn [m_cols]. rewrite map_length.
    assert (Hrc : run (T := R) 0 (remove_columns true 0 idx cols) (quiet ∅ 0) = Done (without_from 0 idx cols) (quiet ∅ 0)).
    { apply run_remove_columns; [exact Hsort|]. unfold cols. rewrite map_length, HD. eapply Forall_impl; [exact Hidx|]. cbn. intros. lia. }
    apply remove_columns_length in Hrc. unfold without. rewrite Hrc. unfold cols. rewrite map_length. exact HD.
  Qed.

  (** at this heap the arm has these columns *)
  Definition at_cols (h : gmap nat (node R)) (w : iso R) : Prop :=
    arm_ok arm e l h /\ exists js, joints_at h (rev l) js /\ dirs iso1 js = D /\ w = product iso1 (map local_transform js).
  Lemma lin_step t ovf h nx w : at_cols h w ->
    (exists x, solves J x (flagged ops (calc_pose_diff target w))) ->
    exists h' w', at_cols h' w' /\ frozen h h' /\
      run t (solve_one_loop_with_constraints ovf la sv arm target ops idx) (quiet h nx) =
        Done (Ok (flagged ops (calc_pose_diff target w'))) (quiet h' nx) /\
      run t (end_transform arm) (quiet h' nx) = Done w' (quiet h' nx) /\
      flagged ops (calc_pose_diff target w') = lscale (1 - jacobian_multiplier sv) (flagged ops (calc_pose_diff target w)).
  Proof.
    intros (Hok & js & Hjs & HDs & ->) Hsol.
    destruct (arm_jacobian arm e l t h nx js Hok Hjs) as [Hw [h1 HJ]]. rewrite HDs in HJ. fold cols in HJ.
    set (w := product iso1 (map local_transform js)) in *. set (err := flagged ops (calc_pose_diff target w)) in *.
    set (m := jacobian_multiplier sv).
    assert (Hmain : exists full, length full = c_dof arm /\ flagged ops (combine 6 cols full) = err /\
      step_to t h nx arm target ops m full (run t (solve_one_loop_with_constraints ovf la sv arm target ops idx) (quiet h nx))).
    { pose proof (arm_chain _ _ _ _ Hok) as Hc. pose proof (arm_live _ _ _ _ Hok) as Hl. pose proof (arm_nodup _ _ _ _ Hok) as Hnd.
      pose proof ncols_J as HnJ. unfold solves_exactly in Hexact.
      destruct (decide (count_true ops + length idx < c_dof arm)%nat) as [Hreq|Hreq].
      - destruct (nullspace_function sv) as [f|] eqn:Hns.
        + destruct Hexact as (Hf & P & HP & HsP & Hpen). destruct Hsol as [x0 [Hx0 Hb]].
          destruct (run_positions t h nx arm _ Hc) as (orig & _ & Hlo & Hpos).
          destruct (Hf orig) as (sub & Hsub & Hlsub); [congruence|].
          destruct (step_null t ovf la sv h nx arm target ops idx cols h1 w Hc Hl Hnd Hops Hsort Hidx Hw HJ f P sub Hreq Hns HP)
            as (full & Hlf & Hsp & Hst); [destruct HsP as [-> _]; exact HnJ| |exact Hlsub|].
          { intros q Hq. rewrite <- Hsub. f_equal. rewrite <- Hpos in Hq. clear -Hq. revert orig Hq.
            induction q as [|x q IH]; intros [|y o] E; try discriminate; [reflexivity|]. cbn in E. injection E as -> E. f_equal. auto. }
          exists full. split; [exact Hlf|]. split; [|exact Hst]. rewrite (act_full _ _ Hlf Hsp).
          assert (HsJ : shaped J (m_rows J) (length (m_cols J))) by (split; [reflexivity|split; [reflexivity|apply J_shaped]]).
          assert (Herr : length err = m_rows J) by (rewrite <- Hb; apply combine_length, J_shaped).
          rewrite (null_motion J P (m_rows J) (length (m_cols J))); [|exact HsJ|exact HsP|exact Herr| |exact Hpen].
          * change (combine (m_rows J) (m_cols J) x0) with (act J x0) in Hb. change (act J (act P err) = err). rewrite <- Hb. apply Hpen. exact Hx0.
          * assert (Hrc : run (T := R) 0 (remove_columns true 0 idx sub) (quiet ∅ 0) = Done (without_from 0 idx sub) (quiet ∅ 0)).
            { apply run_remove_columns; [exact Hsort|]. rewrite Hlsub. eapply Forall_impl; [exact Hidx|]. cbn. intros. lia. }
            apply remove_columns_length in Hrc. unfold without. lia.
        + destruct (Hexact err Hsol) as (x & Hx & Hlx & Hb).
          destruct (step_svd t ovf la sv h nx arm target ops idx cols h1 w Hc Hl Hnd Hops Hsort Hidx Hw HJ x Hreq Hns Hx) as (full & Hlf & Hsp & Hst); [lia|].
          exists full. split; [exact Hlf|]. split; [|exact Hst]. rewrite (act_full _ _ Hlf Hsp). exact Hb.
      - destruct Hexact as [Hi Hex]. destruct (Hex err Hsol) as (x & Hx & Hlx & Hb).
        assert (Hidx0 : idx = []) by (destruct idx; [reflexivity|discriminate]).
        exists x. split; [lia|]. split.
        + rewrite (act_full x x); [exact Hb|lia|]. rewrite Hidx0. split; [apply without_from_none; set_solver|set_solver].
        + apply (step_lu t ovf la sv h nx arm target ops idx cols h1 w Hc Hl Hnd Hops Hsort Hidx Hw HJ x); [lia|exact Hx]. }
    destruct Hmain as (full & Hlf & Hfull & h' & w' & Hrun & Hw' & Hf & Ho & Hpos).
    pose proof (arm_frozen _ _ _ _ _ Hok Hf) as Hok'.
    destruct (joints_exist h' (rev l)) as [js' Hjs'].
    { pose proof (arm_live _ _ _ _ Hok') as Hl'. destruct Hok' as (_ & (En & _) & _). rewrite En in Hl'. exact Hl'. }
    destruct (arm_moved arm e l h h' js js' target m full Hok Hf Hjs Hjs' Hlf Hpos) as [Hd' Hdiff].
    destruct (arm_jacobian arm e l t h' nx js' Hok' Hjs') as [Hw2 _].
    assert (w' = product iso1 (map local_transform js')) as -> by (rewrite Hw2 in Hw'; congruence).
    exists h', (product iso1 (map local_transform js')). split; [split; [exact Hok'|exists js'; split; [exact Hjs'|split; [congruence|reflexivity]]]|].
    split; [exact Hf|]. split; [exact Hrun|]. split; [exact Hw'|].
    rewrite Hdiff, HDs. fold w cols. unfold lsub at 1. rewrite flagged_zip. unfold lscale at 1. rewrite flagged_map.
    change (map (Rmult m)) with (lscale m). rewrite Hfull. fold err. apply lsub_scale.
  Qed.

  Lemma lin_loop t ovf nx orig err0 n : forall h last w c k, at_cols h w -> (exists x, solves J x err0) ->
    flagged ops (calc_pose_diff target w) = lscale c err0 ->
    (1 <= k <= n)%nat ->
    reached sv (target_diff_to_len_rot_diff (lscale (c * (1 - jacobian_multiplier sv) ^ k) err0) ops) = true ->
    exists h', run t (ik_loop ovf la sv arm target ops idx orig n last) (quiet h nx) = Done (Ok tt) (quiet h' nx).
  Proof.
    induction n as [|n IH]; intros h last w c k Hat Hsol Herr Hk Hre; [lia|]. cbn [ik_loop].
    destruct (lin_step t ovf h nx w Hat) as (h' & w' & Hat' & Hf & Hrun & Hw' & Herr').
    { rewrite Herr. destruct Hsol as [x Hx]. exists (lscale c x). apply solves_scale; [apply J_shaped|exact Hx]. }
    rewrite run_bind, Hrun. cbn [obind]. rewrite Herr in Herr'. rewrite lscale_lscale in Herr'.
    destruct (reached sv (target_diff_to_len_rot_diff (flagged ops (calc_pose_diff target w')) ops)) eqn:Hr.
    - destruct Hat' as [Hok' _]. pose proof (arm_chain _ _ _ _ Hok') as Hc'.
      destruct (run_positions t h' nx arm _ Hc') as (ps & Hps & _ & _). rewrite run_bind, Hps. cbn [obind].
      rewrite run_bind, run_clamped by (eapply movable_live; exact Hc'). cbn [obind run]. eauto.
    - destruct k as [|[|k]]; [lia| |].
      + rewrite Herr' in Hr. rewrite pow_1 in Hre. rewrite Rmult_comm in Hre. congruence.
      + apply (IH h' _ w' ((1 - jacobian_multiplier sv) * c) (S k) Hat' Hsol Herr'); [lia|].
        replace ((1 - jacobian_multiplier sv) * c * (1 - jacobian_multiplier sv) ^ S k) with (c * (1 - jacobian_multiplier sv) ^ S (S k)) by (simpl; ring).
        exact Hre.
  Qed.
End LinIk.

Lemma scaled_errors (q : R) c target w :
  target_diff_to_len_rot_diff (lscale q (flagged (flags c) (calc_pose_diff target w))) (flags c) =
  (times q (position_error c target w), times q (rotation_error c target w)).
Proof.
  destruct c as [[] [] [] [] [] [] names]; unfold position_error, rotation_error, keep; cbn; unfold times; cbn;
    rewrite ?Rmult_0_r; reflexivity.
Qed.
Lemma no_rotation_error c target w J D idx x :
  J = reduced (flags c) idx (map col_of D) -> solves J x (flagged (flags c) (calc_pose_diff target w)) ->
  rotation_error c target w = V3 0 0 0.
Proof.
  intros -> [_ Hs]. unfold reduced in Hs. cbn [m_rows m_cols] in Hs. unfold without in Hs. rewrite without_from_map in Hs.
  change (length (filter _ (flags c))) with (length (filter (fun b => b = true) (flags c))) in Hs.
  rewrite <- flagged_combine in Hs. change (length (flags c)) with 6%nat in Hs. rewrite combine_cols in Hs.
  destruct c as [[] [] [] [] [] [] names]; unfold rotation_error, keep; cbn in Hs |- *; change (@szero R RScalar) with 0;
    try (injection Hs; intros); unfold qrotation_to in *; f_equal; congruence.
Qed.
Lemma vnorm_times (q : R) (v : vec3 R) : vnorm (times q v) = Rabs q * len v.
Proof.
  unfold vnorm, len. cbn [ssqrt RScalar]. rewrite <- sqrt_Rsqr_abs, <- R_sqrt.sqrt_mult_alt by apply Rle_0_sqr.
  f_equal. unfold Rsqr, inner, times, vdot. cbn. ring.
Qed.
Lemma reduced_ext {T} `{Scalar T} ops idx1 idx2 (cols : list (list T)) : (forall j, j ∈ idx1 <-> j ∈ idx2) -> reduced ops idx1 cols = reduced ops idx2 cols.
Proof. intros E. unfold reduced, without. rewrite (without_from_ext idx1 idx2); auto. Qed.

Section Whole.
  Variables (t : nat) (ovf : bool) (h : gmap nat (node R)) (nx : nat) (arm : chain) (e : nat) (l : list nat) (target : iso R) (c : constraints)
    (la : linalg R) (sv : solver R) (cols : list (list R)) (s : sh R) (w : iso R) (idx : list nat).
  Hypothesis Hok : arm_ok arm e l h.
  Hypothesis HJ : run t (jacobian arm) (quiet h nx) = Done (Mat 6 cols) s.
  Hypothesis Hw : run t (end_transform arm) (quiet h nx) = Done w (quiet h nx).
  Let J := reduced (flags c) idx cols.
  Hypothesis Hex : solves_exactly la sv (c_dof arm) (count (flags c)) (length idx) J.
  Hypothesis Hsol : exists x, solves J x (flagged (flags c) (pose_error target w)).
  Lemma whole_start : exists D, cols = map col_of D /\ at_cols arm e l D h w /\ length D = c_dof arm.
  Proof.
    destruct (joints_exist h (rev l)) as [js Hjs].
    { pose proof (arm_live _ _ _ _ Hok) as Hl. destruct Hok as (_ & (En & _) & _). rewrite En in Hl. exact Hl. }
    destruct (arm_jacobian arm e l t h nx js Hok Hjs) as [Hw' [h1 HJ']].
    exists (dirs iso1 js). assert (cols = map col_of (dirs iso1 js)) as Ec by (rewrite HJ' in HJ; congruence).
    split; [exact Ec|]. split; [split; [exact Hok|exists js; split; [exact Hjs|split; [reflexivity|rewrite Hw' in Hw; congruence]]]|].
    rewrite HJ in HJ'. pose proof HJ as HJ2. apply jacobian_done in HJ2 as (h2 & _ & _ & _ & Hlen & _); [|eapply arm_live; eauto].
    cbn in Hlen. rewrite Ec, map_length in Hlen. exact Hlen.
  Qed.
  Lemma lin_step_lemma : StronglySorted lt idx -> Forall (fun j => (j < c_dof arm)%nat) idx ->
    exists d h' w', run t (solve_one_loop_with_constraints ovf la sv arm target (flags c) idx) (quiet h nx) = Done (Ok d) (quiet h' nx) /\
      run t (end_transform arm) (quiet h' nx) = Done w' (quiet h' nx) /\
      d = flagged (flags c) (pose_error target w') /\
      position_error c target w' = times (1 - jacobian_multiplier sv) (position_error c target w) /\
      rotation_error c target w = V3 0 0 0 /\ rotation_error c target w' = V3 0 0 0.
  Proof.
    intros Hs Hi. destruct whole_start as (D & Ec & Hat & HD). subst cols.
    destruct (lin_step arm e l target (flags c) idx D la sv eq_refl Hs Hi HD Hex t ovf h nx w Hat Hsol) as (h' & w' & Hat' & Hf & Hrun & Hw' & Herr).
    exists (flagged (flags c) (calc_pose_diff target w')), h', w'. split; [exact Hrun|]. split; [exact Hw'|]. split; [reflexivity|].
    destruct Hsol as [x Hx].
    pose proof (scaled_errors 1 c target w') as E1. pose proof (scaled_errors (1 - jacobian_multiplier sv) c target w) as E2.
    rewrite <- Herr in E2.
    assert (H1 : forall k, lscale 1 k = k) by (intros k; unfold lscale; rewrite (map_ext _ (fun x => x)) by (intros; ring); apply map_id).
    rewrite H1 in E1. rewrite E1 in E2.
    pose proof (f_equal fst E2) as Ep. pose proof (f_equal snd E2) as Er. cbn [fst snd] in Ep, Er.
    assert (H1v : forall v, times 1 v = v) by (intros [a b d]; unfold times; cbn; f_equal; ring). rewrite H1v in Ep, Er.
    pose proof (no_rotation_error c target w J D idx x eq_refl Hx) as Hr0. rewrite Hr0 in *.
    split; [exact Ep|]. split; [reflexivity|]. rewrite Er. unfold times. cbn. rewrite Rmult_0_r. reflexivity.
  Qed.
  Lemma lin_solve_lemma k : NoDup (ignored_joint_names c) -> Forall2 (first_named h (c_movable arm)) (ignored_joint_names c) idx ->
    (count (flags c) + length idx <= c_dof arm)%nat -> 0 < allowable_target_angle sv -> (1 <= k <= num_max_try sv)%nat ->
    Rabs (1 - jacobian_multiplier sv) ^ k * len (position_error c target w) < allowable_target_distance sv ->
    exists h', run t (solve_with_constraints ovf la sv arm target c) (quiet h nx) = Done (Ok tt) (quiet h' nx).
  Proof.
    intros Hndn Hidx Hcnt Hang Hk Hdist. destruct whole_start as (D & Ec & Hat & HD). subst cols.
    pose proof (arm_chain _ _ _ _ Hok) as Hc. pose proof (Forall2_length _ _ _ Hidx) as Hlen.
    pose proof (indices_nodup _ _ _ _ Hndn Hidx) as Hndi.
    assert (EJ : reduced (flags c) (sort_unstable idx) (map col_of D) = J) by (apply reduced_ext; intros j; apply sort_elem).
    assert (Hbound : Forall (fun j => (j < c_dof arm)%nat) (sort_unstable idx)).
    { apply Forall_forall. intros j Hj. apply (proj1 (sort_elem _ _)) in Hj. rewrite (arm_dof _ _ _ _ Hok).
      apply elem_of_list_lookup in Hj as [i Hi]. destruct (Forall2_lookup_r _ _ _ _ _ Hidx Hi) as (nm & _ & Hfn).
      destruct Hfn as (a & Ha & _). eapply lookup_lt_Some; exact Ha. }
    unfold solve_with_constraints.
    destruct (run_positions t h nx arm _ Hc) as (orig & Horig & _ & _). rewrite run_bind, Horig. cbn [obind].
    assert (Hi : exists h', run t (solve_with_constraints_internal ovf la sv arm target c) (quiet h nx) = Done (Ok tt) (quiet h' nx)).
    { unfold solve_with_constraints_internal. rewrite run_bind, Horig. cbn [obind].
      change (define_operational_space c) with (flags c). change (count_true (flags c)) with (count (flags c)).
      rewrite run_bind. unfold dof. rewrite run_usize_sub by lia. cbn [obind]. rewrite decide_False by lia.
      destruct (run_ignored_indices t h nx arm (ignored_joint_names c)) as (ri & Hri & Hidx'); [eapply movable_live; eauto|].
      rewrite run_bind, Hri. cbn [obind]. destruct ri as [idx'|err].
      - assert (idx' = idx) as ->.
        { clear -Hidx Hidx'. revert idx Hidx. induction Hidx' as [|nm i names idx' H1 H IH]; intros idx Hidx; inversion Hidx; subst; [reflexivity|].
          f_equal; [eapply first_named_fun; eauto|apply IH; assumption]. }
        destruct Hsol as [x Hx].
        apply (lin_loop arm e l target (flags c) (sort_unstable idx) D la sv eq_refl (sort_strict _ Hndi) Hbound HD) with
          (err0 := flagged (flags c) (calc_pose_diff target w)) (w := w) (c := 1) (k := k).
        + rewrite sort_length, EJ. exact Hex.
        + exact Hat.
        + rewrite EJ. exists x. exact Hx.
        + unfold lscale. rewrite (map_ext _ (fun x => x)) by (intros; ring). symmetry. apply map_id.
        + exact Hk.
        + rewrite scaled_errors. pose proof (no_rotation_error c target w J D idx x eq_refl Hx) as Hr0. rewrite Hr0.
          unfold reached. cbn [fst snd]. rewrite !vnorm_times. apply andb_true_iff. rewrite Rmult_1_l, <- RPow_abs.
          unfold slt. cbn. unfold Rltb. split; [destruct (Rlt_dec _ _); [reflexivity|contradiction]|].
          assert (len (V3 0 0 0) = 0) as -> by (unfold len, inner; cbn; replace (0 * 0 + 0 * 0 + 0 * 0) with 0 by ring; apply sqrt_0).
          rewrite Rmult_0_r. destruct (Rlt_dec _ _); [reflexivity|contradiction].
      - exfalso. destruct Hidx' as (l1 & nm & l2 & E & _ & Hno & _).
        assert (Hin : nm ∈ ignored_joint_names c) by (rewrite E; set_solver).
        apply elem_of_list_lookup in Hin as [i Hi]. destruct (Forall2_lookup_l _ _ _ _ _ Hidx Hi) as (j & _ & Hfn).
        destruct Hfn as (a & Ha & Hna & _). apply (Hno a); [eapply elem_of_list_lookup_2; exact Ha|exact Hna]. }
    destruct Hi as [h' Hi]. exists h'. rewrite run_bind, Hi. reflexivity.
  Qed.
End Whole.

(** ** null space motion on any arm *)
Lemma act_full_gen ops idx (cols : list (list R)) full x : length ops = 6%nat -> Forall (fun c => length c = 6%nat) cols ->
  length full = length cols -> spread_to idx x full -> flagged ops (combine 6 cols full) = act (reduced ops idx cols) x.
Proof.
  intros Hops H6 Hlen [Hw Hz]. rewrite <- Hops, flagged_combine. unfold act, reduced. cbn [m_rows m_cols].
  unfold without in *. rewrite <- without_from_map, <- Hw.
  symmetry. apply combine_without_from.
  - apply Forall_map. eapply Forall_impl; [exact H6|]. cbn. intros c Hc. apply flagged_length. congruence.
  - rewrite map_length. congruence.
  - intros j _ Hj. apply Hz. exact Hj.
Qed.
Lemma null_step_lemma t ovf la (sv : solver R) h nx arm target ops idx cols h1 w f P sub :
  chain_of h (c_nodes arm) arm -> all_live h (c_nodes arm) -> NoDup (c_movable arm) ->
  length ops = 6%nat -> StronglySorted lt idx -> Forall (fun j => (j < c_dof arm)%nat) idx ->
  run t (end_transform arm) (quiet h nx) = Done w (quiet h nx) ->
  run t (jacobian arm) (quiet h nx) = Done (Mat 6 cols) (quiet h1 nx) ->
  (count_true ops + length idx < c_dof arm)%nat -> nullspace_function sv = Some f ->
  let J := reduced ops idx cols in
  let err := flagged ops (calc_pose_diff target w) in
  pinv la J = Some P -> shaped P (length (m_cols J)) (m_rows J) ->
  (forall x, length x = length (m_cols J) -> act J (act P (act J x)) = act J x) ->
  (forall q, map Some q = map (position_at h) (c_movable arm) -> f q = Some sub) -> length sub = c_dof arm ->
  exists full, length full = c_dof arm /\
    step_to t h nx arm target ops (jacobian_multiplier sv) full
      (run t (solve_one_loop_with_constraints ovf la sv arm target ops idx) (quiet h nx)) /\
    (forall j, j ∈ idx -> full !! j = Some 0) /\
    flagged ops (combine 6 cols full) = act J (act P err).
Proof.
  intros Hc Hl Hnd Hops Hs Hi Hw HJ Hreq Hns J err HP HsP Hpen Hf Hsub.
  pose proof HJ as HJ2. apply jacobian_done in HJ2 as (h2 & _ & _ & _ & Hlen & H6); [|exact Hl]. cbn [m_cols] in *.
  assert (Hrc : forall (A : Type) (k : list A), length k = c_dof arm -> (length (without idx k) + length idx = c_dof arm)%nat).
  { intros A k Hk. assert (Hrc : run (T := R) 0 (remove_columns true 0 idx k) (quiet ∅ 0) = Done (without_from 0 idx k) (quiet ∅ 0)).
    { apply run_remove_columns; [exact Hs|]. rewrite Hk. eapply Forall_impl; [exact Hi|]. cbn. intros. lia. }
    apply remove_columns_length in Hrc. unfold without. lia. }
  assert (HnJ : (length (m_cols J) + length idx = c_dof arm)%nat) by (unfold J, reduced; cbn [m_cols]; rewrite map_length; auto).
  destruct (step_null t ovf la sv h nx arm target ops idx cols h1 w Hc Hl Hnd Hops Hs Hi Hw HJ f P sub Hreq Hns HP)
    as (full & Hlf & Hsp & Hst); [destruct HsP as [-> _]; exact HnJ|exact Hf|exact Hsub|].
  exists full. split; [exact Hlf|]. split; [exact Hst|]. split; [apply Hsp|].
  assert (Hlc : length full = length cols) by congruence.
  rewrite (act_full_gen ops idx cols full _ Hops H6 Hlc Hsp). fold J err.
  assert (H6J : Forall (fun k => length k = m_rows J) (m_cols J)).
  { unfold J, reduced. cbn [m_rows m_cols]. apply Forall_map. eapply Forall_impl; [apply Forall_without; exact H6|].
    intros c Hl6. cbn in Hl6. apply flagged_length. congruence. }
  apply (null_motion J P (m_rows J) (length (m_cols J))); [split; [reflexivity|split; [reflexivity|exact H6J]]|exact HsP| | |exact Hpen].
  - unfold err, J, reduced. cbn [m_rows]. apply flagged_length. rewrite Hops. reflexivity.
  - specialize (Hrc R sub Hsub). lia.
Qed.
