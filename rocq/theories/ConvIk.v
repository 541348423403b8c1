(** * The solver converges from nearby *)
From Coq Require Import String NArith Reals Lra Psatz Nsatz Sorting.Sorted.
From stdpp Require Import gmap.
From Verif Require ReachProofs.
From Verif Require Import Scalar ScalarR Geometry Joint Link Prog NodeM ChainM FuncsM IkM RunLemmas
  SpecJoint SpecNode RangeProofs JointProofs NodeProofs SpecGraph GraphProofs SpecChain ChainProofs
  SpecFK FKProofs VelocityProofs IkLookup SpecIk IkProofs IkProofs2 JacProofs SpecGeom RGeom GeomProofs JacReal PoseDiff
  SpecStep StepProofs LinAlgR LinArm LinIk TrajProofs TrajStep SpecReach SpecLin SvdProofs SpecConv ConvGeom ConvRot ConvList ConvStep.
Local Open Scope R_scope.

(** ** the same arm at other positions *)
Lemma frozen_others h h' L js js' : frozen h h' -> joints_at h L js -> joints_at h' L js' -> Forall2 at_other_position js js'.
Proof.
  intros Hf H. revert js'. induction H as [|a j L js (n & Hn & ->) H IH]; intros js' H'; inversion H' as [|? j' ? js2 (n' & Hn' & ->) H2]; subst; constructor; [|apply IH; exact H2].
  destruct (frozen_at h h' a n Hf Hn) as (n2 & Hn2 & E). assert (n2 = n') as -> by congruence.
  apply bare_eq in E as (_ & Et & _ & _ & Eo & _). split; assumption.
Qed.
Lemma gaps_posns js js' : Forall2 at_other_position js js' -> gaps js js' = diff (posns js') (posns js).
Proof.
  induction 1 as [|j j' js js' [Et Eo] H IH]; [reflexivity|]. cbn [gaps posns]. rewrite Et. destruct (j_type j); [exact IH| |]; cbn; f_equal; exact IH.
Qed.
Lemma nmov_posns js : length (posns js) = nmov js.
Proof. induction js as [|j js IH]; [reflexivity|]. cbn [posns nmov]. destruct (j_type j); cbn [length]; congruence. Qed.
Lemma others_nmov js js' : Forall2 at_other_position js js' -> nmov js' = nmov js.
Proof. induction 1 as [|j j' js js' [Et Eo] H IH]; [reflexivity|]. cbn [nmov]. rewrite Et, IH. reflexivity. Qed.
Lemma diff_ladd a b : length a = length b -> diff (ladd a b) a = b.
Proof. revert b. induction a as [|x a IH]; intros [|y b] E; try discriminate; [reflexivity|]. injection E as E. cbn. f_equal; [ring|apply IH, E]. Qed.
Lemma diff_ladd2 a b c : length a = length b -> diff (ladd a b) c = ladd (diff a c) b.
Proof. revert b c. induction a as [|x a IH]; intros [|y b] [|z c] E; try discriminate; try reflexivity. injection E as E. cbn. f_equal; [ring|apply IH, E]. Qed.
Lemma others_span js js' : Forall2 at_other_position js js' -> total (map span js') <= total (map span js) + asum (gaps js js').
Proof.
  induction 1 as [|j j' js js' [Et Eo] H IH]; [unfold asum; cbn; lra|]. cbn [map gaps]. rewrite !ReachProofs.total_cons.
  unfold span at 1 3, extension. rewrite Et, Eo. destruct (j_type j); rewrite ?asum_cons; [lra| |].
  - pose proof (Rabs_pos (j_position j' - j_position j)). lra.
  - replace (j_position j') with (j_position j + (j_position j' - j_position j)) at 1 by ring.
    pose proof (Rabs_triang (j_position j) (j_position j' - j_position j)). lra.
Qed.
Lemma others_refl js : Forall2 at_other_position js js.
Proof. induction js; constructor; [split; reflexivity|assumption]. Qed.

(** an arm's columns depend on types and transforms only *)
Lemma colsof_ext p js js' : Forall2 (fun j j' => j_type j' = j_type j /\ local_transform j' = local_transform j) js js' ->
  forall W, colsof p W js' = colsof p W js.
Proof. induction 1 as [|j j' js js' [Et El] H IH]; intros W; [reflexivity|]. cbn [colsof]. rewrite Et, El, IH. reflexivity. Qed.
Lemma end_at_ext js js' : Forall2 (fun j j' => j_type j' = j_type j /\ local_transform j' = local_transform j) js js' ->
  forall W, end_at W js' = end_at W js.
Proof. intros H W. unfold end_at. f_equal. induction H as [|j j' js js' [Et El] H IH]; [reflexivity|]. cbn. rewrite El, IH. reflexivity. Qed.

Section Conv.
  Variables (t : nat) (ovf : bool) (h0 : gmap nat (node R)) (nx : nat) (arm : chain) (e : nat) (l : list nat)
    (target : iso R) (c : constraints) (idx : list nat) (la : linalg R) (sv : solver R) (js0 : list (joint R)) (K L r : R).
  Hypothesis Hp : path_up h0 e l.
  Hypothesis Hch : chain_of h0 (rev l) arm.
  Hypothesis Hjs0 : joints_at h0 (rev l) js0.
  Hypothesis Hu0 : Forall unit_joint js0.
  Hypothesis Htgt : proper target.
  Hypothesis Hrx : rotation_x c = rotation_y c.
  Hypothesis Hry : rotation_y c = rotation_z c.
  Hypothesis Hns : nullspace_function sv = None.
  Hypothesis Hs : StronglySorted lt idx.
  Hypothesis Hi : Forall (fun j => (j < c_dof arm)%nat) idx.
  Let m := jacobian_multiplier sv.
  Let q0 := posns js0.
  Let N := INR (c_dof arm).
  Hypothesis Hm : 0 < m <= 1.
  Hypothesis HK : 0 <= K.
  Hypothesis HL : 1 <= L.
  Hypothesis Hspan : total (map span js0) + N * r <= L.
  Hypothesis Hroom : Forall (roomy h0 r) (c_movable arm).
  Let err js := flagged (flags c) (pose_error target (end_at iso1 js)).
  Definition inv (h : gmap nat (node R)) (js : list (joint R)) : Prop := frozen h0 h /\ joints_at h (rev l) js.

  Lemma unit_others js js' : Forall unit_joint js -> Forall2 at_other_position js js' -> Forall unit_joint js'.
  Proof. intros Hu Ho. induction Ho as [|j j' js js' Hj H IH]; [constructor|]. apply Forall_cons in Hu as [Hj1 Hj2]. constructor; [eapply ReachProofs.unit_other; eauto|auto]. Qed.
  Lemma inv_others h js : inv h js -> Forall2 at_other_position js0 js.
  Proof. intros [Hf Hj]. eapply frozen_others; eauto. Qed.
  Lemma inv_dof h js : inv h js -> nmov js = c_dof arm.
  Proof.
    intros H. rewrite (others_nmov js0 js) by (eapply inv_others; eauto). rewrite (nmov_filter h0 (rev l) js0 Hjs0). symmetry. apply Hch.
  Qed.
  Lemma inv_posns h js : inv h js -> map Some (posns js) = map (position_at h) (c_movable arm).
  Proof.
    intros [Hf Hj]. rewrite (posns_filter h (rev l) js Hj). f_equal. destruct (frozen_chain _ _ _ _ Hf Hch) as (_ & Hm' & _). symmetry. exact Hm'.
  Qed.
  Lemma inv_span h js : inv h js -> norm (diff (posns js) q0) <= r -> total (map span js) <= L.
  Proof.
    intros H Hr. pose proof (inv_others h js H) as Ho. pose proof (others_span js0 js Ho) as H1. rewrite gaps_posns in H1 by exact Ho.
    pose proof (asum_norm _ r Hr) as H2.
    assert (length (diff (posns js) q0) = c_dof arm) as E.
    { unfold diff, q0. rewrite zip_with_length, !nmov_posns. pose proof (inv_dof h js H). pose proof (others_nmov _ _ Ho). lia. }
    rewrite E in H2. fold N in H2. fold q0 in H1. lra.
  Qed.
  Lemma arm_nodup : NoDup (c_movable arm).
  Proof. destruct Hch as (En & Hmv & Hd). rewrite Hmv. apply NoDup_ListNoDup, List.NoDup_filter, NoDup_rev, NoDup_ListNoDup. eapply path_up_nodup; eauto. Qed.

  Lemma heap_step_at h js : inv h js ->
    solves_well la (c_dof arm) (count (flags c)) (length idx) (reduced (flags c) idx (colsof (tr (end_at iso1 js)) iso1 js)) K ->
    norm (diff (posns js) q0) + m * (K * norm (err js)) <= r ->
    exists h' js', inv h' js' /\
      run t (solve_one_loop_with_constraints ovf la sv arm target (flags c) idx) (quiet h nx) = Done (Ok (err js')) (quiet h' nx) /\
      run t (end_transform arm) (quiet h' nx) = Done (end_at iso1 js') (quiet h' nx) /\
      norm (diff (posns js') q0) <= norm (diff (posns js) q0) + m * (K * norm (err js)) /\
      norm (err js') <= (1 - m) * norm (err js) + 3 * L * N * (m * (K * norm (err js)) * (m * (K * norm (err js)))).
  Proof.
    intros Hinv Hwell Hr. pose proof Hinv as [Hf Hjs]. pose proof (inv_others h js Hinv) as Ho. pose proof (inv_dof h js Hinv) as Hdof.
    assert (HKe : 0 <= m * (K * norm (err js))) by (apply Rmult_le_pos; [lra|apply Rmult_le_pos; [exact HK|apply norm_nonneg]]).
    assert (Hr0 : norm (diff (posns js) q0) <= r) by lra.
    pose proof (inv_span h js Hinv Hr0) as HspanJ.
    assert (Hpath : path_up h e l) by (eapply same_parents_path; [apply frozen_parents; exact Hf|exact Hp]).
    assert (Hchh : chain_of h (rev l) arm) by (eapply frozen_chain; eauto). pose proof Hchh as (En & Hmv & Hd).
    assert (Hlive : all_live h (rev l)) by (apply all_live_rev; eapply path_all_live; eauto).
    destruct (serial_jacobian t h nx arm e l js Hpath Hchh Hjs) as (h1 & HJ).
    set (w := end_at iso1 js) in *. set (cols := colsof (tr w) iso1 js) in *.
    assert (Hw : run t (end_transform arm) (quiet h nx) = Done w (quiet h nx)).
    { unfold end_transform, w, end_at. apply run_end_fold. rewrite En. apply joints_locals. exact Hjs. }
    assert (Hch' : chain_of h (c_nodes arm) arm) by (rewrite En; exact Hchh).
    assert (Hlive' : all_live h (c_nodes arm)) by (rewrite En; exact Hlive).
    pose proof arm_nodup as Hnd.
    pose proof HJ as HJ2. apply jacobian_done in HJ2 as (h2 & _ & _ & _ & Hlen & H6); [|exact Hlive']. cbn [m_cols] in *.
    set (J := reduced (flags c) idx cols) in *.
    assert (HnJ : (length (m_cols J) + length idx = c_dof arm)%nat).
    { unfold J, reduced. cbn [m_cols]. rewrite map_length.
      assert (Hrc : run (T := R) 0 (remove_columns true 0 idx cols) (quiet ∅ 0) = Done (without_from 0 idx cols) (quiet ∅ 0)).
      { apply run_remove_columns; [exact Hs|]. rewrite Hlen. eapply Forall_impl; [exact Hi|]. cbn. intros. lia. }
      apply remove_columns_length in Hrc. unfold without. lia. }
    assert (Herr : length (err js) = m_rows J).
    { unfold J, reduced. cbn [m_rows]. unfold err. apply flagged_length. reflexivity. }
    assert (Hmain : exists full, length full = c_dof arm /\ flagged (flags c) (combine 6 cols full) = err js /\ norm full <= K * norm (err js) /\
      step_to t h nx arm target (flags c) m full (run t (solve_one_loop_with_constraints ovf la sv arm target (flags c) idx) (quiet h nx))).
    { destruct Hwell as [Hig Hso]. destruct (Hso (err js) Herr) as (x & Hx & [Hlx Hb] & Hn).
      destruct (decide (count (flags c) + length idx < c_dof arm)%nat) as [Hreq|Hreq].
      - destruct (step_svd t ovf la sv h nx arm target (flags c) idx cols h1 w Hch' Hlive' Hnd eq_refl Hs Hi Hw HJ x Hreq Hns Hx) as (full & Hlf & Hsp & Hst); [change (length x = length (m_cols J)) in Hlx || idtac; lia|].
        exists full. split; [exact Hlf|]. split; [|split; [|exact Hst]].
        + rewrite (act_full_gen (flags c) idx cols full _ eq_refl H6 ltac:(congruence) Hsp). exact Hb.
        + unfold norm in *. rewrite (spread_dot idx x full Hsp). exact Hn.
      - assert (Hidx0 : idx = []) by (destruct idx; [reflexivity|discriminate]).
        assert (Hlxd : length x = c_dof arm) by (pose proof (f_equal (@length nat) Hidx0) as Hi0; cbn in Hi0; change (length x = length (m_cols J)) in Hlx || idtac; congruence || lia).
        exists x. split; [exact Hlxd|]. split; [|split; [exact Hn|]].
        + rewrite (act_full_gen (flags c) idx cols x x eq_refl H6); [exact Hb| |].
          * congruence.
          * rewrite Hidx0. split; [apply without_from_none; set_solver|set_solver].
        + apply (step_lu t ovf la sv h nx arm target (flags c) idx cols h1 w Hch' Hlive' Hnd eq_refl Hs Hi Hw HJ x); [unfold count_true; unfold count in Hreq; lia|exact Hx]. }
    destruct Hmain as (full & Hlf & Hfull & Hnf & h' & w' & Hrun & Hw' & Hf' & _ & Hpos).
    assert (Hf0 : frozen h0 h') by (eapply frozen_trans; eauto).
    assert (Hlive2 : all_live h' (rev l)) by (exact (frozen_live _ _ _ Hf' Hlive)).
    destruct (joints_exist h' (rev l) Hlive2) as [js' Hjs'].
    assert (Hinv' : inv h' js') by (split; assumption).
    assert (Ho' : Forall2 at_other_position js js') by (exact (frozen_others _ _ _ _ _ Hf' Hjs Hjs')).
    assert (Hlp : length (posns js) = c_dof arm) by (rewrite nmov_posns; exact Hdof).
    set (q := ladd (posns js) (lscale m full)).
    assert (Hlq : length q = c_dof arm) by (unfold q; rewrite ladd_length; rewrite ?lscale_length; congruence).
    assert (Hnq : norm (diff q q0) <= norm (diff (posns js) q0) + m * (K * norm (err js))).
    { unfold q. rewrite diff_ladd2 by (rewrite lscale_length; congruence). eapply Rle_trans; [apply norm_ladd|].
      - rewrite lscale_length. unfold diff, q0. rewrite zip_with_length, !nmov_posns, <- (others_nmov _ _ Ho). lia.
      - rewrite norm_lscale by lra. assert (m * norm full <= m * (K * norm (err js))) by (apply Rmult_le_compat_l; lra). lra. }
    assert (Hq : posns js' = q).
    { assert (E : map Some (posns js') = map Some q).
      { rewrite (inv_posns h' js' Hinv'). apply list_eq. intros i.
        change (map (position_at h') (c_movable arm)) with (position_at h' <$> c_movable arm). change (map Some q) with (Some <$> q). rewrite !list_lookup_fmap.
        destruct (c_movable arm !! i) as [a|] eqn:Ha.
        2:{ apply lookup_ge_None in Ha. assert (q !! i = None) as ->; [apply lookup_ge_None; rewrite Hmv in Ha; lia|reflexivity]. }
        assert (Hia : (i < c_dof arm)%nat) by (apply lookup_lt_Some in Ha; rewrite Hmv in Ha; lia).
        destruct (posns js !! i) as [p|] eqn:Ep; [|apply lookup_ge_None in Ep; lia].
        destruct (full !! i) as [y|] eqn:Ey; [|apply lookup_ge_None in Ey; lia].
        assert (Eq : q !! i = Some (p + m * y)).
        { unfold q, ladd, lscale. apply lookup_zip_with_Some. exists p, (m * y). split; [reflexivity|]. split; [exact Ep|].
          change (map (Rmult m) full) with (Rmult m <$> full). rewrite list_lookup_fmap, Ey. reflexivity. }
        rewrite Eq. cbn [fmap option_fmap option_map]. f_equal.
        assert (Hpa : position_at h a = Some p).
        { pose proof (inv_posns h js Hinv) as E. apply (f_equal (fun l => l !! i)) in E.
          change (map (position_at h) (c_movable arm)) with (position_at h <$> c_movable arm) in E. change (map Some (posns js)) with (Some <$> posns js) in E.
          rewrite !list_lookup_fmap, Ha, Ep in E. cbn in E. congruence. }
        unfold position_at in Hpa. destruct (h !! a) as [n|] eqn:Hn; [|discriminate]. cbn in Hpa. apply Some_inj in Hpa.
        rewrite (Hpos i a n Ha Hn), Ey, Hpa. f_equal. cbn [sadd smul RScalar].
        (* inside the limits *)
        destruct (q0 !! i) as [p0|] eqn:Ep0.
        2:{ apply lookup_ge_None in Ep0. unfold q0 in Ep0. rewrite nmov_posns, <- (others_nmov _ _ Ho) in Ep0. lia. }
        assert (Hent : Rabs ((p + m * y) - p0) <= r).
        { eapply Rle_trans; [apply (norm_entry (diff q q0) i)|lra]. unfold diff. apply lookup_zip_with_Some. exists (p + m * y), p0. auto. }
        assert (Hpa0 : position_at h0 a = Some p0).
        { assert (Hinv0 : inv h0 js0) by (split; [apply frozen_refl|exact Hjs0]).
          pose proof (inv_posns h0 js0 Hinv0) as E. apply (f_equal (fun l => l !! i)) in E.
          change (map (position_at h0) (c_movable arm)) with (position_at h0 <$> c_movable arm) in E. change (map Some (posns js0)) with (Some <$> posns js0) in E.
          fold q0 in E. rewrite !list_lookup_fmap, Ha, Ep0 in E. cbn in E. congruence. }
        unfold position_at in Hpa0. destruct (h0 !! a) as [n0|] eqn:Hn0; [|discriminate]. cbn in Hpa0. apply Some_inj in Hpa0.
        destruct (frozen_at h0 h a n0 Hf Hn0) as (n2 & Hn2 & E). assert (n2 = n) as -> by congruence. apply bare_eq in E as (_ & _ & _ & El & _).
        destruct (j_limits (n_joint n)) as [lim|] eqn:Elim; [|reflexivity].
        rewrite Forall_forall in Hroom. destruct (Hroom a (elem_of_list_lookup_2 _ _ _ Ha) n0 lim Hn0 (eq_sym El)) as [B1 B2]. rewrite Hpa0 in B1, B2.
        assert (Hent2 : - r <= p + m * y - p0 <= r) by (split; [pose proof (Rle_abs (- (p + m * y - p0))); rewrite Rabs_Ropp in *; lra|pose proof (Rle_abs (p + m * y - p0)); lra]).
        unfold limited, clamp, sgt, slt. cbn. unfold Rltb. destruct (Rlt_dec _ _); [lra|]. destruct (Rlt_dec _ _); [lra|reflexivity]. }
      clear -E. revert E. generalize q. induction (posns js') as [|y ys IH]; intros [|z zs] E; try discriminate; [reflexivity|]. injection E as -> E. f_equal. apply IH, E. }
    assert (Hg : gaps js js' = lscale m full) by (rewrite gaps_posns, Hq by exact Ho'; apply diff_ladd; rewrite lscale_length; congruence).
    assert (Ew' : w' = end_at iso1 js').
    { assert (Hr2 : run t (end_transform arm) (quiet h' nx) = Done (end_at iso1 js') (quiet h' nx)).
      { unfold end_transform, end_at. apply run_end_fold. rewrite En. apply joints_locals. exact Hjs'. }
      rewrite Hw' in Hr2. congruence. }
    subst w'. exists h', js'. split; [exact Hinv'|]. split; [exact Hrun|]. split; [exact Hw'|]. split; [rewrite Hq; exact Hnq|].
    pose proof (core_step js js' target c m L full (unit_others _ _ Hu0 Ho) Ho' Hg ltac:(congruence) ltac:(lra) HL HspanJ Htgt Hrx Hry Hfull) as Hcore.
    eapply Rle_trans; [exact Hcore|]. apply Rplus_le_compat_l. rewrite (Rmult_assoc (3 * L)). apply Rmult_le_compat_l; [lra|].
    pose proof (asum_sqr full) as Hsq. rewrite Hlf in Hsq. fold N in Hsq. rewrite <- norm_sqr in Hsq.
    replace (m * asum full * (m * asum full)) with (m * m * (asum full * asum full)) by ring.
    set (A := K * norm (err js)) in *. replace (N * (m * A * (m * A))) with (m * m * (N * (A * A))) by ring.
    apply Rmult_le_compat_l; [nra|]. eapply Rle_trans; [exact Hsq|]. apply Rmult_le_compat_l; [apply pos_INR|]. pose proof (norm_nonneg full). nra.
  Qed.

  (** ** the loop *)
  Hypothesis Hwell : forall js, Forall2 at_other_position js0 js -> norm (diff (posns js) q0) <= r ->
    solves_well la (c_dof arm) (count (flags c)) (length idx) (reduced (flags c) idx (colsof (tr (end_at iso1 js)) iso1 js)) K.
  Let e0 := norm (err js0).
  Hypothesis Hsmall : 6 * L * N * m * (K * K) * e0 <= 1.
  Hypothesis Hball : 2 * (K * e0) <= r.
  Let rho := 1 - m / 2.
  Lemma conv_loop orig n : forall h js i k last, inv h js ->
    norm (err js) <= rho ^ i * e0 -> norm (diff (posns js) q0) <= 2 * (K * e0) * (1 - rho ^ i) ->
    (1 <= k <= n)%nat -> rho ^ (i + k) * e0 < allowable_target_distance sv -> rho ^ (i + k) * e0 < allowable_target_angle sv ->
    exists h' js', run t (ik_loop ovf la sv arm target (flags c) idx orig n last) (quiet h nx) = Done (Ok tt) (quiet h' nx) /\
      inv h' js' /\ norm (diff (posns js') q0) <= 2 * (K * e0).
  Proof.
    assert (Hrho : 0 < rho < 1) by (unfold rho; lra).
    assert (He0 : 0 <= e0) by apply norm_nonneg. assert (HKe0 : 0 <= K * e0) by (apply Rmult_le_pos; assumption).
    induction n as [|n IH]; intros h js i k last Hinv He Hd Hk Hdist Hang; [lia|]. cbn [ik_loop].
    assert (Hpi : 0 < rho ^ i <= 1).
    { split; [apply pow_lt; lra|]. rewrite <- (pow1 i). apply pow_incr. lra. }
    assert (HKe : K * norm (err js) <= K * (rho ^ i * e0)) by (apply Rmult_le_compat_l; assumption).
    assert (Hstepd : norm (diff (posns js) q0) + m * (K * norm (err js)) <= 2 * (K * e0) * (1 - rho ^ S i)).
    { change (rho ^ S i) with (rho * rho ^ i). assert (m * (K * norm (err js)) <= m * (K * (rho ^ i * e0))) by (apply Rmult_le_compat_l; lra).
      replace (2 * (K * e0) * (1 - rho * rho ^ i)) with (2 * (K * e0) * (1 - rho ^ i) + m * (K * (rho ^ i * e0))) by (unfold rho; field). lra. }
    assert (Hps : 0 < rho ^ S i <= 1).
    { split; [apply pow_lt; lra|]. rewrite <- (pow1 (S i)). apply pow_incr. lra. }
    assert (Hstepr : norm (diff (posns js) q0) + m * (K * norm (err js)) <= r) by nra.
    assert (Hballj : norm (diff (posns js) q0) <= r).
    { assert (0 <= m * (K * norm (err js))); [|lra]. apply Rmult_le_pos; [lra|]. apply Rmult_le_pos; [exact HK|apply norm_nonneg]. }
    destruct (heap_step_at h js Hinv (Hwell js (inv_others h js Hinv) Hballj) Hstepr) as (h' & js' & Hinv' & Hrun & Hw' & Hd' & He').
    assert (He2 : norm (err js') <= rho ^ S i * e0).
    { eapply Rle_trans; [exact He'|]. set (E := norm (err js)) in *. assert (HE : 0 <= E) by apply norm_nonneg.
      assert (HEe0 : E <= e0) by nra.
      assert (Hq : 3 * L * N * (m * (K * E) * (m * (K * E))) <= m / 2 * E).
      { replace (3 * L * N * (m * (K * E) * (m * (K * E)))) with ((6 * L * N * m * (K * K) * E) * (m / 2 * E)) by field.
        assert (Hc : 6 * L * N * m * (K * K) * E <= 1).
        { eapply Rle_trans; [|exact Hsmall]. apply Rmult_le_compat_l; [|exact HEe0].
          assert (0 <= N) by apply pos_INR. assert (0 <= K * K) by nra. repeat apply Rmult_le_pos; lra. }
        assert (0 <= m / 2 * E) by nra. nra. }
      change (rho ^ S i) with (rho * rho ^ i). replace (rho * rho ^ i * e0) with (rho * (rho ^ i * e0)) by ring.
      apply Rle_trans with (rho * E); [unfold rho; lra|]. apply Rmult_le_compat_l; lra. }
    rewrite run_bind, Hrun. cbn [obind].
    destruct (reached sv (target_diff_to_len_rot_diff (err js') (flags c))) eqn:Hre.
    - assert (Hlast : norm (diff (posns js') q0) <= 2 * (K * e0)) by nra.
      pose proof Hinv' as [Hf' Hjs']. assert (Hc' : chain_of h' (rev l) arm) by (eapply frozen_chain; eauto).
      destruct (run_positions t h' nx arm _ Hc') as (ps & Hps' & Hlps & Epos). rewrite run_bind, Hps'. cbn [obind].
      assert (Hlive' : all_live h' (c_movable arm)) by (eapply movable_live; exact Hc').
      rewrite run_bind, run_clamped by exact Hlive'. cbn [obind run].
      set (h2 := upd_all clampF h' (zip (c_movable arm) ps)).
      assert (Hf2 : frozen h' h2) by apply upd_clamp_frozen.
      assert (Hlive2 : all_live h2 (rev l)).
      { eapply frozen_live; [exact Hf2|]. eapply frozen_live; [exact Hf'|]. apply all_live_rev; eapply path_all_live; eauto. }
      destruct (joints_exist h2 (rev l) Hlive2) as [js2 Hjs2].
      exists h2, js2. assert (Hinv2 : inv h2 js2) by (split; [eapply frozen_trans; eauto|exact Hjs2]).
      split; [reflexivity|]. split; [exact Hinv2|].
      assert (posns js2 = posns js') as ->; [|exact Hlast].
      assert (E : map Some (posns js2) = map Some (posns js')).
      { rewrite (inv_posns h2 js2 Hinv2), (inv_posns h' js' Hinv'). apply map_ext_in. intros a Ha. apply elem_of_list_In, elem_of_list_lookup in Ha as [j Ha].
        destruct (positions_at h' _ ps j a Epos Ha) as (p & Hp' & Hpa).
        unfold position_at in Hpa. destruct (h' !! a) as [n'|] eqn:Hn'; [|discriminate]. cbn in Hpa. apply Some_inj in Hpa.
        assert (Hty : movable (n_joint n')) by (unfold movable; eapply movable_type; [exact Hc'|eapply elem_of_list_lookup_2; exact Ha|exact Hn']).
        unfold h2. rewrite (position_upd_clamp h' (c_movable arm) ps j a p n' arm_nodup Ha Hp' Hn' Hty).
        unfold position_at. rewrite Hn'. cbn [fmap option_fmap option_map]. f_equal. rewrite <- Hpa.
        (* inside the limits *)
        assert (Epj : posns js' !! j = Some (j_position (n_joint n'))).
        { pose proof (inv_posns h' js' Hinv') as E. apply (f_equal (fun l => l !! j)) in E.
          change (map (position_at h') (c_movable arm)) with (position_at h' <$> c_movable arm) in E. change (map Some (posns js')) with (Some <$> posns js') in E.
          rewrite !list_lookup_fmap, Ha in E. unfold position_at in E. cbn [fmap option_fmap option_map] in E. rewrite Hn' in E. cbn in E.
          destruct (posns js' !! j); cbn in E; congruence. }
        assert (Hinv0 : inv h0 js0) by (split; [apply frozen_refl|exact Hjs0]).
        destruct (frozen_at h' h0 a n' (frozen_sym _ _ Hf') Hn') as (n0 & Hn0 & En0). apply bare_eq in En0 as (_ & _ & _ & El & _).
        assert (Ep0 : q0 !! j = Some (j_position (n_joint n0))).
        { pose proof (inv_posns h0 js0 Hinv0) as E. apply (f_equal (fun l => l !! j)) in E. fold q0 in E.
          change (map (position_at h0) (c_movable arm)) with (position_at h0 <$> c_movable arm) in E. change (map Some q0) with (Some <$> q0) in E.
          rewrite !list_lookup_fmap, Ha in E. unfold position_at in E. cbn [fmap option_fmap option_map] in E. rewrite Hn0 in E. cbn in E.
          destruct (q0 !! j); cbn in E; congruence. }
        assert (Hent : Rabs (j_position (n_joint n') - j_position (n_joint n0)) <= r).
        { eapply Rle_trans; [apply (norm_entry (diff (posns js') q0) j)|lra]. unfold diff. apply lookup_zip_with_Some. eauto. }
        destruct (j_limits (n_joint n')) as [lim|] eqn:Elim; [|reflexivity].
        rewrite Forall_forall in Hroom. destruct (Hroom a (elem_of_list_lookup_2 _ _ _ Ha) n0 lim Hn0 El) as [B1 B2].
        pose proof (Rle_abs (j_position (n_joint n') - j_position (n_joint n0))). pose proof (Rle_abs (- (j_position (n_joint n') - j_position (n_joint n0)))).
        rewrite Rabs_Ropp in *.
        unfold clamp_to, clamp, sgt, slt. cbn. unfold Rltb. repeat match goal with |- context [Rlt_dec ?x ?y] => destruct (Rlt_dec x y); [lra|] end. reflexivity. }
      clear -E. revert E. generalize (posns js'). induction (posns js2) as [|y ys IH]; intros [|z zs] E; try discriminate; [reflexivity|]. injection E as -> E. f_equal. apply IH, E.
    - destruct k as [|[|k]]; [lia| |].
      + exfalso. replace (i + 1)%nat with (S i) in * by lia.
        pose proof (scaled_errors 1 c target (end_at iso1 js')) as E1.
        assert (H1 : forall k, lscale 1 k = k) by (intros k; unfold lscale; rewrite (map_ext _ (fun x => x)) by (intros; ring); apply map_id).
        rewrite H1 in E1. change (flagged (flags c) (calc_pose_diff target (end_at iso1 js'))) with (err js') in E1. rewrite E1 in Hre.
        unfold reached in Hre. cbn [fst snd] in Hre. rewrite !vnorm_times, Rabs_R1, !Rmult_1_l in Hre.
        destruct (error_lens c target (end_at iso1 js')) as [L1 L2]. fold (err js') in L1, L2.
        unfold slt in Hre. cbn in Hre. unfold Rltb in Hre.
        repeat match type of Hre with context [Rlt_dec ?a ?b] => destruct (Rlt_dec a b) as [_|Hn]; [|apply Hn; lra] end. discriminate.
      + destruct (IH h' js' (S i) (S k) (Some (target_diff_to_len_rot_diff (err js') (flags c))) Hinv' He2) as (h2 & js2 & H1 & H2 & H3); try lra; try lia.
        * replace (S i + S k)%nat with (i + S (S k))%nat by lia. exact Hdist.
        * replace (S i + S k)%nat with (i + S (S k))%nat by lia. exact Hang.
        * exists h2, js2. auto.
  Qed.
End Conv.

(** ** the Jacobian at other positions *)
Lemma others_same js0 js js' : Forall2 at_other_position js0 js -> Forall2 at_other_position js0 js' -> posns js = posns js' ->
  Forall2 (fun j j' => j_type j' = j_type j /\ local_transform j' = local_transform j) js js'.
Proof.
  intros H. revert js'. induction H as [|j0 j js0 js [Et Eo] H IH]; intros js' H' E; inversion H' as [|? j' ? js2 [Et' Eo'] H2]; subst; [constructor|].
  cbn [posns] in E. rewrite Et, Et' in E. constructor.
  - split; [congruence|]. unfold local_transform. rewrite Et, Et', Eo, Eo'. destruct (j_type j0); [reflexivity| |]; injection E as -> _; reflexivity.
  - apply IH; [exact H2|]. destruct (j_type j0); [exact E| |]; injection E as _ E; exact E.
Qed.
Lemma some_inj_list {A} (xs ys : list A) : map Some xs = map Some ys -> xs = ys.
Proof. revert ys. induction xs as [|y xs IH]; intros [|z zs] E; try discriminate; [reflexivity|]. injection E as -> E. f_equal. apply IH, E. Qed.
Lemma jacobian_elsewhere t (h : gmap nat (node R)) nx arm e l js0 js : path_up h e l -> chain_of h (rev l) arm -> joints_at h (rev l) js0 ->
  Forall2 at_other_position js0 js ->
  exists h', run t (set_joint_positions_unchecked arm (posns js) ;;; jacobian arm) (quiet h nx) = Done (Mat 6 (colsof (tr (end_at iso1 js)) iso1 js)) (quiet h' nx).
Proof.
  intros Hp Hch Hjs Ho. pose proof Hch as (En & Hm & Hd).
  assert (Hlive : all_live h (rev l)) by (apply all_live_rev; eapply path_all_live; eauto).
  assert (Hin : forall a, a ∈ c_movable arm -> a ∈ rev l /\ node_movable h a = true).
  { intros a Ha. rewrite Hm in Ha. apply elem_of_list_In, filter_In in Ha as [Ha Hmv]. split; [apply elem_of_list_In, Ha|exact Hmv]. }
  assert (Hnd : NoDup (c_movable arm)).
  { rewrite Hm. apply NoDup_ListNoDup, List.NoDup_filter, NoDup_rev, NoDup_ListNoDup. eapply path_up_nodup; eauto. }
  assert (Hlq : length (posns js) = length (c_movable arm)).
  { rewrite nmov_posns, (others_nmov _ _ Ho), (nmov_filter h (rev l) js0 Hjs), Hm. reflexivity. }
  destruct (set_unchecked_all_lemma t h nx arm (posns js)) as (h1 & Hr & Hmv & Hoth); [exact Hnd| |].
  { intros a Ha. apply Hlive, Hin, Ha. }
  rewrite Hlq, firstn_all in Hoth.
  assert (Hfr : frozen h h1).
  { apply (moved_frozen h h1 (c_movable arm)); [exact Hoth|]. intros a Ha. apply elem_of_list_lookup in Ha as [i Ha].
    destruct (posns js !! i) as [p|] eqn:Ep; [exists p; eapply Hmv; eauto|]. apply lookup_ge_None in Ep. apply lookup_lt_Some in Ha. lia. }
  assert (Hlive1 : all_live h1 (rev l)) by (exact (frozen_live _ _ _ Hfr Hlive)).
  destruct (joints_exist h1 (rev l) Hlive1) as [js' Hjs'].
  assert (Ho' : Forall2 at_other_position js0 js') by (exact (frozen_others _ _ _ _ _ Hfr Hjs Hjs')).
  assert (Hp1 : path_up h1 e l) by (eapply same_parents_path; [apply frozen_parents; exact Hfr|exact Hp]).
  assert (Hch1 : chain_of h1 (rev l) arm) by (eapply frozen_chain; eauto). pose proof Hch1 as (_ & Hm1 & _).
  assert (Epos : posns js = posns js').
  { apply some_inj_list. rewrite (posns_filter h1 (rev l) js' Hjs'), <- Hm1. apply list_eq. intros i.
    change (map (position_at h1) (c_movable arm)) with (position_at h1 <$> c_movable arm). change (map Some (posns js)) with (Some <$> posns js).
    rewrite !list_lookup_fmap. destruct (c_movable arm !! i) as [a|] eqn:Ha.
    - destruct (posns js !! i) as [p|] eqn:Ep; [|apply lookup_ge_None in Ep; apply lookup_lt_Some in Ha; lia].
      destruct (Hmv i a p Ha Ep) as (n & n' & Hn & Hn' & (Hpp & _) & _). cbn. unfold position_at. rewrite Hn'. cbn. congruence.
    - apply lookup_ge_None in Ha. assert (posns js !! i = None) as -> by (apply lookup_ge_None; lia). reflexivity. }
  pose proof (others_same js0 js js' Ho Ho' Epos) as Hsame.
  destruct (serial_jacobian t h1 nx arm e l js' Hp1 Hch1 Hjs') as (h2 & HJ). exists h2. rewrite run_bind, Hr. cbn [obind]. rewrite HJ.
  rewrite (end_at_ext js js' Hsame), (colsof_ext _ js js' Hsame). reflexivity.
Qed.

(** ** the whole call *)
Lemma conv_solve t ovf (h : gmap nat (node R)) nx arm e l target (c : constraints) (la : linalg R) (sv : solver R) js idx K L r k :
  path_up h e l -> chain_of h (rev l) arm -> joints_at h (rev l) js -> Forall unit_joint js -> proper target ->
  rotation_x c = rotation_y c -> rotation_y c = rotation_z c -> nullspace_function sv = None ->
  NoDup (ignored_joint_names c) -> Forall2 (first_named h (c_movable arm)) (ignored_joint_names c) idx ->
  (count (flags c) + length idx <= c_dof arm)%nat ->
  0 < jacobian_multiplier sv <= 1 -> 0 <= K -> 1 <= L -> total (map span js) + INR (c_dof arm) * r <= L ->
  Forall (roomy h r) (c_movable arm) ->
  (forall js', Forall2 at_other_position js js' -> norm (diff (posns js') (posns js)) <= r ->
    solves_well la (c_dof arm) (count (flags c)) (length idx) (reduced (flags c) idx (colsof (tr (end_at iso1 js')) iso1 js')) K) ->
  let e0 := norm (flagged (flags c) (pose_error target (end_at iso1 js))) in
  6 * L * INR (c_dof arm) * jacobian_multiplier sv * (K * K) * e0 <= 1 -> 2 * (K * e0) <= r ->
  (1 <= k <= num_max_try sv)%nat ->
  (1 - jacobian_multiplier sv / 2) ^ k * e0 < allowable_target_distance sv ->
  (1 - jacobian_multiplier sv / 2) ^ k * e0 < allowable_target_angle sv ->
  exists h' js', run t (solve_with_constraints ovf la sv arm target c) (quiet h nx) = Done (Ok tt) (quiet h' nx) /\
    frozen h h' /\ joints_at h' (rev l) js' /\ norm (diff (posns js') (posns js)) <= 2 * (K * e0).
Proof.
  intros Hp Hc Hjs Hu Htgt Hrx Hry Hns Hndn Hidx Hcnt Hm HK HL Hspan Hroom Hwell e0 Hsmall Hball Hk Hdist Hang.
  pose proof (Forall2_length _ _ _ Hidx) as Hlen. pose proof (indices_nodup _ _ _ _ Hndn Hidx) as Hndi. pose proof Hc as (_ & Hmv & Hdof).
  assert (EJ : forall cols, reduced (flags c) (sort_unstable idx) cols = reduced (flags c) idx cols) by (intros cols; apply reduced_ext; intros j; apply sort_elem).
  assert (Hbound : Forall (fun j => (j < c_dof arm)%nat) (sort_unstable idx)).
  { apply Forall_forall. intros j Hj. apply (proj1 (sort_elem _ _)) in Hj. rewrite Hdof, <- Hmv.
    apply elem_of_list_lookup in Hj as [i Hi]. destruct (Forall2_lookup_r _ _ _ _ _ Hidx Hi) as (nm & _ & Hfn).
    destruct Hfn as (a & Ha & _). eapply lookup_lt_Some; exact Ha. }
  unfold solve_with_constraints.
  destruct (run_positions t h nx arm _ Hc) as (orig & Horig & _ & _). rewrite run_bind, Horig. cbn [obind].
  assert (Hi : exists h' js', run t (solve_with_constraints_internal ovf la sv arm target c) (quiet h nx) = Done (Ok tt) (quiet h' nx) /\
    frozen h h' /\ joints_at h' (rev l) js' /\ norm (diff (posns js') (posns js)) <= 2 * (K * e0)).
  { unfold solve_with_constraints_internal. rewrite run_bind, Horig. cbn [obind].
    change (define_operational_space c) with (flags c). change (count_true (flags c)) with (count (flags c)).
    rewrite run_bind. unfold dof. rewrite run_usize_sub by lia. cbn [obind]. rewrite decide_False by lia.
    destruct (run_ignored_indices t h nx arm (ignored_joint_names c)) as (ri & Hri & Hidx'); [eapply movable_live; eauto|].
    rewrite run_bind, Hri. cbn [obind]. destruct ri as [idx'|err].
    - assert (idx' = idx) as ->.
      { clear -Hidx Hidx'. revert idx Hidx. induction Hidx' as [|nm i names idx' H1 H IH]; intros idx Hidx; inversion Hidx; subst; [reflexivity|].
        f_equal; [eapply first_named_fun; eauto|apply IH; assumption]. }
      destruct (conv_loop t ovf h nx arm e l target c (sort_unstable idx) la sv js K L r Hp Hc Hjs Hu Htgt Hrx Hry Hns
        (sort_strict _ Hndi) Hbound Hm HK HL Hspan Hroom) with (orig := orig) (n := num_max_try sv) (h := h) (js := js) (i := 0%nat) (k := k) (last := @None (vec3 R * vec3 R))
        as (h' & js' & H1 & [H2 H3] & H4); try assumption.
      + intros js' Ho Hn. rewrite sort_length, EJ. apply Hwell; assumption.
      + split; [apply frozen_refl|exact Hjs].
      + cbn. lra.
      + assert (E : forall a, norm (diff a a) = 0).
        { intros a. unfold norm. assert (dot (diff a a) (diff a a) = 0) as ->; [|apply sqrt_0]. induction a as [|x a IH]; [reflexivity|].
          change (diff (x :: a) (x :: a)) with ((x - x) :: diff a a). cbn [dot]. rewrite IH. ring. }
        rewrite E. cbn. lra.
      + exists h', js'. auto.
    - exfalso. destruct Hidx' as (l1 & nm & l2 & E & _ & Hno & _).
      assert (Hin : nm ∈ ignored_joint_names c) by (rewrite E; set_solver).
      apply elem_of_list_lookup in Hin as [i Hi]. destruct (Forall2_lookup_l _ _ _ _ _ Hidx Hi) as (j & _ & Hfn).
      destruct Hfn as (a & Ha & Hna & _). apply (Hno a); [eapply elem_of_list_lookup_2; exact Ha|exact Hna]. }
  destruct Hi as (h' & js' & Hi & H2 & H3 & H4). exists h', js'. split; [|auto]. rewrite run_bind, Hi. reflexivity.
Qed.
