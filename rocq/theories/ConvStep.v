(** * The error after one iteration *)
From Coq Require Import String NArith Reals Lra Psatz Nsatz Sorting.Sorted.
From stdpp Require Import gmap.
From Verif Require ReachProofs.
From Verif Require Import Scalar ScalarR Geometry Joint Link Prog NodeM ChainM FuncsM IkM RunLemmas
  SpecJoint SpecNode RangeProofs JointProofs NodeProofs SpecGraph GraphProofs SpecChain ChainProofs
  SpecFK FKProofs VelocityProofs IkLookup SpecIk IkProofs IkProofs2 JacProofs SpecGeom RGeom GeomProofs JacReal PoseDiff
  SpecStep StepProofs LinAlgR LinArm LinIk TrajProofs TrajStep SpecReach SpecLin SvdProofs SpecConv ConvGeom ConvRot ConvList.
Local Open Scope R_scope.

(** the velocity of the end in the two forms *)
Lemma end_move W js : proper W -> Forall unit_joint js -> tr (end_at W js) = move W (tip js).
Proof.
  intros HW Hu. rewrite end_at_split, iso_mul_tr_eq by assumption. unfold end_at. rewrite ReachProofs.tip_tr by exact Hu.
  unfold move. generalize (turn (rt W) (tip js)), (tr W). intros [] []. gv; ring.
Qed.
Lemma twist_local js : Forall unit_joint js -> forall W ds, proper W ->
  twist (tr (end_at W js)) W js ds = (turn (rt W) (dtip js ds), turn (rt W) (drot js ds)).
Proof.
  induction 1 as [|j js Hj Hu IH]; intros W ds HW.
  { cbn [twist dtip drot]. assert (turn (rt W) (V3 0 0 0) = V3 0 0 0) as ->; [|reflexivity]. unfold turn. gv; ring. }
  assert (Hl : proper (local_transform j)) by (apply proper_local, Hj).
  assert (Hw : proper (iso_mul W (local_transform j))) by (apply proper_mul; assumption).
  assert (Hrt : forall v, turn (rt (iso_mul W (local_transform j))) v = turn (rt W) (turn (rt (local_transform j)) v))
    by (intros v; cbn [iso_mul rt]; apply turn_mul; [exact HW|exact Hl]).
  cbn [twist dtip drot]. rewrite end_at_cons.
  assert (E0 : forall ds', twist (tr (end_at (iso_mul W (local_transform j)) js)) (iso_mul W (local_transform j)) js ds' =
    (turn (rt W) (turn (rt (local_transform j)) (dtip js ds')), turn (rt W) (turn (rt (local_transform j)) (drot js ds'))))
    by (intros ds'; rewrite IH by exact Hw; rewrite !Hrt; reflexivity).
  destruct (j_type j) as [|a|a]; [apply E0| |]; (destruct ds as [|d ds]; [apply E0|]); rewrite E0, <- ?Hrt.
  - rewrite end_move by assumption. unfold move. rewrite ?turn_plus, ?turn_times.
    f_equal. f_equal. f_equal. rewrite <- cross_turn by exact Hw. f_equal.
    generalize (turn (rt (iso_mul W (local_transform j))) (tip js)), (tr (iso_mul W (local_transform j))). intros [] []. gv; ring.
  - rewrite ?turn_plus, ?turn_times. reflexivity.
Qed.
Lemma twist_1 js ds : Forall unit_joint js -> twist (tr (end_at iso1 js)) iso1 js ds = (dtip js ds, drot js ds).
Proof. intros Hu. rewrite twist_local by (try exact Hu; apply proper_1). cbn [iso1 rt]. rewrite !turn_q1. reflexivity. Qed.
Lemma dtip_lscale m js : forall ds, dtip js (lscale m ds) = times m (dtip js ds).
Proof.
  induction js as [|j js IH]; intros ds; [cbn; gv; ring|]. cbn [dtip].
  destruct (j_type j) as [|a|a]; [rewrite IH, turn_times; reflexivity| |]; (destruct ds as [|d ds];
    [rewrite <- turn_times, <- IH; reflexivity|]); cbn [lscale map]; change (map _ ds) with (lscale m ds); rewrite IH, <- turn_times; f_equal.
  - generalize (cross a (tip js)), (dtip js ds). intros [] []. gv; ring.
  - generalize (dtip js ds). destruct a. intros []. gv; ring.
Qed.
Lemma drot_lscale m js : forall ds, drot js (lscale m ds) = times m (drot js ds).
Proof.
  induction js as [|j js IH]; intros ds; [cbn; gv; ring|]. cbn [drot].
  destruct (j_type j) as [|a|a]; [rewrite IH, turn_times; reflexivity| |]; (destruct ds as [|d ds];
    [rewrite <- turn_times, <- IH; reflexivity|]); cbn [lscale map]; change (map _ ds) with (lscale m ds); rewrite IH, <- turn_times; f_equal.
  generalize (drot js ds). destruct a. intros []. gv; ring.
Qed.

(** ** the error as one list, and as two vectors *)
Lemma error_dot c target w :
  dot (flagged (flags c) (pose_error target w)) (flagged (flags c) (pose_error target w)) =
  len (position_error c target w) * len (position_error c target w) + len (rotation_error c target w) * len (rotation_error c target w).
Proof.
  rewrite !len_sqr. destruct c as [[] [] [] [] [] [] names]; unfold position_error, rotation_error, keep, inner; cbn; ring.
Qed.
Lemma error_lens c target w :
  len (position_error c target w) <= norm (flagged (flags c) (pose_error target w)) /\
  len (rotation_error c target w) <= norm (flagged (flags c) (pose_error target w)).
Proof.
  pose proof (error_dot c target w) as E. set (d := flagged _ _) in *. rewrite <- norm_sqr in E.
  pose proof (norm_nonneg d). pose proof (len_nonneg (position_error c target w)). pose proof (len_nonneg (rotation_error c target w)). split; nra.
Qed.
Lemma two_norms a b a' b' u c1 c2 N N' : 0 <= a -> 0 <= b -> 0 <= a' -> 0 <= b' -> 0 <= u -> 0 <= c1 -> 0 <= c2 -> 0 <= N -> 0 <= N' ->
  N * N = a * a + b * b -> N' * N' = a' * a' + b' * b' -> a' <= u * a + c1 -> b' <= u * b + c2 -> N' <= u * N + (c1 + c2).
Proof.
  intros Ha Hb Ha' Hb' Hu H1 H2 HN HN' E E' L1 L2.
  assert (HaN : a <= N) by nra. assert (HbN : b <= N) by nra.
  assert (N' * N' <= (u * N + (c1 + c2)) * (u * N + (c1 + c2))).
  { rewrite E'. assert (a' * a' <= (u * a + c1) * (u * a + c1)) by nra. assert (b' * b' <= (u * b + c2) * (u * b + c2)) by nra.
    assert (u * c1 * a <= u * c1 * N) by (apply Rmult_le_compat_l; nra). assert (u * c2 * b <= u * c2 * N) by (apply Rmult_le_compat_l; nra).
    assert (Ha2 : u * u * (a * a) + u * u * (b * b) = u * u * (N * N)) by (rewrite E; ring).
    assert (0 <= u * c1 * N) by (apply Rmult_le_pos; nra). assert (0 <= u * c2 * N) by (apply Rmult_le_pos; nra). assert (0 <= c1 * c2) by nra. nra. }
  destruct (Rle_dec N' (u * N + (c1 + c2))) as [|Hn]; [assumption|]. assert (0 <= u * N) by nra. nra.
Qed.

(** ** one Newton step of an arm *)
Section Core.
  Variables (js js' : list (joint R)) (target : iso R) (c : constraints) (m L : R) (full : list R).
  Hypothesis Hu : Forall unit_joint js.
  Hypothesis Ho : Forall2 at_other_position js js'.
  Hypothesis Hg : gaps js js' = lscale m full.
  Hypothesis Hlf : length full = nmov js.
  Hypothesis Hm : 0 <= m <= 1.
  Hypothesis HL : 1 <= L.
  Hypothesis Hspan : total (map span js) <= L.
  Hypothesis Htgt : proper target.
  Hypothesis Hrx : rotation_x c = rotation_y c.
  Hypothesis Hry : rotation_y c = rotation_z c.
  Let w := end_at iso1 js. Let w' := end_at iso1 js'.
  Hypothesis Hfull : flagged (flags c) (combine 6 (colsof (tr w) iso1 js) full) = flagged (flags c) (pose_error target w).
  Let S := m * asum full.
  Lemma core_S : asum (gaps js js') = S /\ 0 <= S.
  Proof.
    assert (asum (gaps js js') = S) as E by (rewrite Hg, asum_lscale, Rabs_pos_eq by lra; reflexivity).
    split; [exact E|]. rewrite <- E. apply asum_nonneg.
  Qed.
  Lemma core_unit' : Forall unit_joint js'.
  Proof. clear -Hu Ho. induction Ho as [|j j' js js' Hj H IH]; [constructor|]. apply Forall_cons in Hu as [Hj1 Hj2]. constructor; [eapply ReachProofs.unit_other; eauto|auto]. Qed.
  Lemma core_entry i : flags c !! i = Some true ->
    [vx (dtip js full); vy (dtip js full); vz (dtip js full); vx (drot js full); vy (drot js full); vz (drot js full)] !! i = pose_error target w !! i.
  Proof.
    pose proof Hfull as Hf. unfold w in Hf at 1. rewrite combine_twist, twist_1 in Hf by assumption.
    intros Hi. refine (flagged_same (flags c) _ _ _ _ Hf i Hi); reflexivity.
  Qed.
  Lemma core_pos : len (position_error c target w') <= (1 - m) * len (position_error c target w) + L / 2 * (S * S).
  Proof.
    destruct core_S as [ES HS]. pose proof (tip_curve L HL js js' Hu Ho Hspan) as Hc. rewrite ES, Hg, dtip_lscale in Hc.
    set (rho := minus _ _) in Hc.
    set (K := V3 (keep (position_x c) (vx rho)) (keep (position_y c) (vy rho)) (keep (position_z c) (vz rho))).
    assert (HK : len K <= len rho).
    { apply ReachProofs.len_le_of_sqr; [apply len_nonneg|]. rewrite len_sqr. unfold K, inner. cbn [vx vy vz]. change (@szero R RScalar) with 0.
      pose proof (Rle_0_sqr (vx rho)). pose proof (Rle_0_sqr (vy rho)). pose proof (Rle_0_sqr (vz rho)). unfold Rsqr, keep in *.
      change (@szero R RScalar) with 0. destruct (position_x c), (position_y c), (position_z c); lra. }
    assert (E : position_error c target w' = plus (times (1 - m) (position_error c target w)) (times (-1) K)).
    { pose proof (core_entry 0) as E1. pose proof (core_entry 1) as E2. pose proof (core_entry 2) as E3. cbn in E1, E2, E3.
      assert (Ew : tr w = tip js) by (unfold w; rewrite end_move by (try apply proper_1; exact Hu); apply ReachProofs.move_1).
      assert (Ew' : tr w' = tip js') by (unfold w'; rewrite end_move by (try apply proper_1; apply core_unit'); apply ReachProofs.move_1).
      unfold position_error, K, rho. rewrite Ew, Ew' in *. unfold plus, times, minus. cbn [vx vy vz]. unfold keep. change (@szero R RScalar) with 0.
      apply V3_eq; cbn [vx vy vz].
      - destruct (position_x c); [|ring]. specialize (E1 eq_refl). apply Some_inj in E1. rewrite E1. cbn. ring.
      - destruct (position_y c); [|ring]. specialize (E2 eq_refl). apply Some_inj in E2. rewrite E2. cbn. ring.
      - destruct (position_z c); [|ring]. specialize (E3 eq_refl). apply Some_inj in E3. rewrite E3. cbn. ring. }
    rewrite E. eapply Rle_trans; [apply ReachProofs.len_plus|]. rewrite !ReachProofs.len_times.
    rewrite (Rabs_pos_eq (1 - m)), (Rabs_left (-1)) by lra. lra.
  Qed.
  Lemma core_rot : len (rotation_error c target w') <= (1 - m) * len (rotation_error c target w) + 5 / 2 * (S * S).
  Proof.
    destruct core_S as [ES HS]. destruct (rotation_x c) eqn:Erx.
    - set (e := qscaled_axis (qmul (rt target) (qconj (rt w)))).
      assert (Ee : forall v, rotation_error c target v = qscaled_axis (qmul (rt target) (qconj (rt v)))).
      { intros v. unfold rotation_error. rewrite <- Hry, <- Hrx, Erx. cbn [keep]. generalize (qscaled_axis (qmul (rt target) (qconj (rt v)))). intros []. reflexivity. }
      rewrite !Ee.
      assert (Eo : drot js full = e).
      { pose proof (core_entry 3) as E1. pose proof (core_entry 4) as E2. pose proof (core_entry 5) as E3. cbn in E1, E2, E3.
        rewrite <- Hry, <- Hrx, Erx in *. specialize (E1 eq_refl). specialize (E2 eq_refl). specialize (E3 eq_refl).
        apply Some_inj in E1, E2, E3. apply V3_eq; assumption. }
      apply rotation_step; [exact Htgt|apply proper_end_at; [apply proper_1|exact Hu]|apply proper_end_at; [apply proper_1|apply core_unit']|exact Hm|exact HS| |].
      + fold e. rewrite <- Eo. unfold S. apply Rmult_le_compat_l; [lra|]. apply drot_len, Hu.
      + intros v. fold e. rewrite <- Eo, <- drot_lscale, <- Hg.
        pose proof (facing_curve js js' v Hu Ho) as Hf. rewrite ES in Hf.
        unfold w, w', end_at. rewrite !ReachProofs.facing_rt by (exact Hu || apply core_unit'). exact Hf.
    - assert (E0 : forall v, rotation_error c target v = V3 0 0 0).
      { intros v. unfold rotation_error. rewrite <- Hry, <- Hrx, Erx. reflexivity. }
      rewrite !E0, ReachProofs.len_0. nra.
  Qed.
  Lemma core_step : norm (flagged (flags c) (pose_error target w')) <=
    (1 - m) * norm (flagged (flags c) (pose_error target w)) + 3 * L * (S * S).
  Proof.
    pose proof core_pos as H1. pose proof core_rot as H2. destruct core_S as [_ HS].
    assert (H3 : norm (flagged (flags c) (pose_error target w')) <= (1 - m) * norm (flagged (flags c) (pose_error target w)) + (L / 2 * (S * S) + 5 / 2 * (S * S))).
    { eapply two_norms with (a := len (position_error c target w)) (b := len (rotation_error c target w))
        (a' := len (position_error c target w')) (b' := len (rotation_error c target w')); try apply len_nonneg; try apply norm_nonneg; try assumption; try nra.
      - rewrite norm_sqr. apply error_dot.
      - rewrite norm_sqr. apply error_dot. }
    nra.
  Qed.
End Core.
