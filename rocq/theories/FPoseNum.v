(** * The numbers and the tests of a float iteration towards a full pose *)
From Coq Require Import String Reals ZArith Lra Lia Psatz Sorting.Sorted Floats.SpecFloat.
From Flocq Require Import Core IEEE754.BinarySingleNaN.
From stdpp Require Import gmap.
From Verif Require ReachProofs.
From Verif Require Import Scalar ScalarR ScalarF Geometry Joint Link Prog NodeM ChainM FuncsM IkM LuM RunLemmas
  SpecNode SpecGraph SpecChain GraphProofs SpecFK FKProofs SpecGeom RGeom GeomProofs JacReal SpecReach IkProofs IkProofs2 SpecIk StepProofs ChainProofs
  SpecStep SpecLin SpecValues SpecFloatErr FloatErr FloatBack SpecAcc AccProofs AccProofs2 SpecJacAcc AccJac SpecSolved SolvedProofs SolvedProofs2
  LinAlgR LinArm TrajProofs SpecLuAcc LuAcc PropLu PropLuAcc PropSolved ConvGeom ConvRot ConvList ConvReg ConvStep ConvIk SpecConvAcc FConvJac FConvCore FConvStep FConvOne PoseFwd FPoseCore.
Local Open Scope R_scope.

(** ** the numbers *)
Section Numbers.
  Variables (u mu th Lr Q lam m E eps nu : R).
  Hypothesis Hu : 0 < u <= / 2048.
  Hypothesis Hmu : 0 < mu <= 2 * u.
  Hypothesis Hth : 1536 * u <= th.
  Hypothesis HL : 1 <= Lr.
  Hypothesis HQ : 1 <= Q.
  Hypothesis Hlam : 0 < lam <= 1.
  Hypothesis Hm : 0 < m <= 1.
  Hypothesis Heps : 512 * (th * Lr) <= eps.
  Hypothesis Hnu : nu = eps * Q.
  Hypothesis Hsmall : 65536 * Lr * nu <= m * (lam * lam).
  Hypothesis HE0 : 0 <= E.
  Hypothesis HE : 256 * Lr * E <= lam * lam.
  Lemma pum_basic : 0 < eps /\ eps <= nu /\ 65536 * nu <= lam * lam /\ lam * lam <= lam /\ 256 * E <= lam * lam /\ 512 * th <= eps /\ mu <= eps /\ 65536 * Lr * nu <= lam * lam /\ 786432 * (u * Lr) <= eps.
  Proof.
    assert (0 < th * Lr) by (apply Rmult_lt_0_compat; lra). assert (th * 1 <= th * Lr) by (apply Rmult_le_compat_l; lra).
    assert (E1 : 0 < eps) by lra. assert (eps * 1 <= eps * Q) by (apply Rmult_le_compat_l; lra). assert (E2 : eps <= nu) by lra.
    assert (0 < lam * lam) by (apply Rmult_lt_0_compat; lra). assert (m * (lam * lam) <= 1 * (lam * lam)) by (apply Rmult_le_compat_r; lra).
    assert (lam * lam <= 1 * lam) by (apply Rmult_le_compat_r; lra). assert (1 * nu <= Lr * nu) by (apply Rmult_le_compat_r; lra).
    assert (1 * E <= Lr * E) by (apply Rmult_le_compat_r; lra). assert (1536 * u * Lr <= th * Lr) by (apply Rmult_le_compat_r; lra). repeat split; lra.
  Qed.
  Lemma pum_lam : 30 * 729 * u * (Lr + eps) + eps <= lam.
  Proof.
    destruct pum_basic as (B1 & B2 & B3 & B4 & B5 & B6 & B7 & B8 & B9). assert (u * (Lr + eps) <= u * (2 * Lr)) by (apply Rmult_le_compat_l; lra). lra.
  Qed.
  Lemma pum_x P X rho : 1 <= P <= 729 -> 0 <= X -> rho = 6 * P * u * (E + 3 * eps + (Lr + eps) * (X + mu)) -> lam * X <= E + 3 * eps + (rho + eps * X) ->
    lam * X <= 2 * (E + 5 * eps) /\ X <= 1 /\ 0 <= rho <= eps.
  Proof.
    intros HP HX Er Hx. destruct pum_basic as (B1 & B2 & B3 & B4 & B5 & B6 & B7 & B8 & B9).
    assert (A1 : (Lr + eps) * (X + mu) <= 2 * Lr * (X + 1)) by (apply Rmult_le_compat; lra).
    assert (A0 : 0 <= (Lr + eps) * (X + mu)) by (apply Rmult_le_pos; lra).
    assert (A2 : E + 3 * eps + (Lr + eps) * (X + mu) <= Lr * (3 + 2 * X)) by (replace (Lr * (3 + 2 * X)) with (Lr + 2 * Lr * (X + 1)) by ring; lra).
    assert (A3 : 6 * P * u * (E + 3 * eps + (Lr + eps) * (X + mu)) <= 4374 * u * (Lr * (3 + 2 * X))).
    { apply Rmult_le_compat; [|lra| |exact A2].
      - assert (0 <= P * u) by (apply Rmult_le_pos; lra). lra.
      - assert (P * u <= 729 * u) by (apply Rmult_le_compat_r; lra). lra. }
    assert (A4 : 786432 * (u * Lr) * (3 + 2 * X) <= eps * (3 + 2 * X)) by (apply Rmult_le_compat_r; lra).
    assert (R0 : 0 <= rho).
    { rewrite Er. assert (0 <= P * u) by (apply Rmult_le_pos; lra). apply Rmult_le_pos; [lra|]. lra. }
    assert (A6 : 0 <= eps * (3 + 2 * X)) by (apply Rmult_le_pos; lra).
    assert (A5 : rho <= eps * (3 + 2 * X) / 28) by lra.
    assert (eps * X <= lam / 2048 * X) by (apply Rmult_le_compat_r; lra). assert (0 <= lam * X) by (apply Rmult_le_pos; lra).
    assert (X1 : lam * X <= 2 * (E + 5 * eps)) by lra.
    assert (X2 : X <= 1). { apply Rmult_le_reg_l with lam; lra. }
    split; [exact X1|]. split; [exact X2|]. split; [exact R0|]. assert (eps * X <= eps * 1) by (apply Rmult_le_compat_l; lra). lra.
  Qed.
  Lemma pum_kap X k : 0 <= X <= 1 -> k <= 3 * u * X + 6 * (u * Q + 2 * mu) -> k <= nu /\ 4 * (Lr * k) <= nu.
  Proof.
    intros HX Hk. destruct pum_basic as (B1 & B2 & B3 & B4 & B5 & B6 & B7 & B8 & B9).
    assert (u * 1 <= u * Q) by (apply Rmult_le_compat_l; lra). assert (u * X <= u * 1) by (apply Rmult_le_compat_l; lra).
    assert (K1 : k <= 33 * (u * Q)) by lra. assert (K2 : Lr * k <= Lr * (33 * (u * Q))) by (apply Rmult_le_compat_l; lra).
    assert (K3 : 786432 * (u * Lr) * Q <= eps * Q) by (apply Rmult_le_compat_r; lra). rewrite <- Hnu in K3.
    assert (0 <= u * Q) by (apply Rmult_le_pos; lra). assert (1 * (u * Q) <= Lr * (u * Q)) by (apply Rmult_le_compat_r; lra). lra.
  Qed.
  Lemma pum_step X k dl S E' : 0 <= X -> 0 <= k <= nu -> 4 * (Lr * k) <= nu -> lam * X <= 2 * (E + 5 * eps) -> S = m * X + k -> dl <= 5 * eps ->
    E' <= (1 - m) * E + (10 * m * dl + 4 * Lr * k + 5 * Lr * (S * S)) -> E' <= (1 - m / 2) * E + 60 * nu.
  Proof.
    intros HX Hk HLk Hx ES Hdl HE'. destruct pum_basic as (B1 & B2 & B3 & B4 & B5 & B6 & B7 & B8 & B9).
    assert (A1 : S * S <= 2 * (m * m * (X * X)) + 2 * (nu * nu)).
    { assert (S * S <= (m * X + nu) * (m * X + nu)).
      { assert (0 <= m * X) by (apply Rmult_le_pos; lra). rewrite ES. apply Rmult_le_compat; lra. }
      pose proof (Rle_0_sqr (m * X - nu)) as Sq. unfold Rsqr in Sq. nra. }
    assert (A2 : lam * lam * (X * X) <= 8 * (E * E) + 200 * (eps * eps)).
    { assert (lam * X * (lam * X) <= 2 * (E + 5 * eps) * (2 * (E + 5 * eps))) by (apply Rmult_le_compat; try lra; apply Rmult_le_pos; lra).
      pose proof (Rle_0_sqr (E - 5 * eps)) as Sq. unfold Rsqr in Sq. nra. }
    assert (LL : 0 < lam * lam) by (apply Rmult_lt_0_compat; lra).
    assert (A3 : Lr * (m * m) * (X * X) <= m / 32 * E + eps / 100).
    { apply Rmult_le_reg_l with (lam * lam); [exact LL|].
      replace (lam * lam * (Lr * (m * m) * (X * X))) with (Lr * (m * m) * (lam * lam * (X * X))) by ring.
      assert (0 <= m * m) by (apply Rmult_le_pos; lra). assert (0 <= Lr * (m * m)) by (apply Rmult_le_pos; lra).
      apply Rle_trans with (Lr * (m * m) * (8 * (E * E) + 200 * (eps * eps))); [apply Rmult_le_compat_l; assumption|].
      replace (Lr * (m * m) * (8 * (E * E) + 200 * (eps * eps))) with (m * m * E / 32 * (256 * Lr * E) + m * m * (200 / 65536 * eps) * (65536 * Lr * eps)) by field.
      assert (M2 : m * m <= m * 1) by (apply Rmult_le_compat_l; lra).
      assert (m * m * E / 32 * (256 * Lr * E) <= m * 1 * E / 32 * (lam * lam)).
      { apply Rmult_le_compat; [| |apply Rmult_le_compat_r; [lra|apply Rmult_le_compat_r; lra]|exact HE].
        - assert (0 <= m * m * E) by (apply Rmult_le_pos; lra). lra.
        - assert (0 <= Lr * E) by (apply Rmult_le_pos; lra). lra. }
      assert (Lr * eps <= Lr * nu) by (apply Rmult_le_compat_l; lra). assert (0 <= Lr * eps) by (apply Rmult_le_pos; lra).
      assert (m * m * (200 / 65536 * eps) * (65536 * Lr * eps) <= 1 * (eps / 100) * (lam * lam)).
      { apply Rmult_le_compat; [apply Rmult_le_pos; lra|lra| |lra].
        apply Rmult_le_compat; lra. }
      lra. }
    assert (A4 : Lr * (nu * nu) <= nu / 10).
    { replace (Lr * (nu * nu)) with (Lr * nu * nu) by ring. replace (nu / 10) with (/ 10 * nu) by field. apply Rmult_le_compat_r; lra. }
    assert (A5 : 5 * Lr * (S * S) <= 10 * (Lr * (m * m) * (X * X)) + 10 * (Lr * (nu * nu))).
    { apply Rle_trans with (5 * Lr * (2 * (m * m * (X * X)) + 2 * (nu * nu))); [apply Rmult_le_compat_l; lra|]. right. field. }
    assert (0 <= m * E) by (apply Rmult_le_pos; lra).
    assert (10 * m * dl <= 50 * eps).
    { destruct (Rle_or_lt 0 dl); [|assert (m * dl <= 0); [|lra]]; [assert (m * dl <= 1 * dl) by (apply Rmult_le_compat_r; lra); lra|].
      assert (0 <= m * - dl) by (apply Rmult_le_pos; lra). lra. }
    lra.
  Qed.
End Numbers.

Section One.
  Context (prec emax : Z) (Hp : Prec_gt_0 prec) (Hm : Prec_lt_emax prec emax) (L : libm) (Hprec : (11 <= prec)%Z).
  Notation FS := (FScalar prec emax L).
  Notation val := (val prec emax).
  Notation vval := (vval prec emax).
  Notation qval := (qval prec emax).
  Notation u := (unit_roundoff prec).
  Notation mu := (tiny emax).
  Notation BIG := (bpow radix2 (emax - 2)).

  (** the constrained difference between the target and a float pose near [W] *)
  Lemma pose_err_val c (target w : iso spec_float) Tg rr rq W beta eq da eps : let E := norm (flagged (flags c) (pose_error Tg W)) in
    fully_oriented c -> vval (tr target) (tr Tg) -> near_quat prec emax beta (rt target) (rt Tg) -> vval (tr w) rr -> qval (rt w) rq ->
    dist rr (tr W) <= eps -> qdist rq (rt W) <= eq -> unit_quat (rt W) -> 0 <= da <= 1 -> atan2_within prec emax da L ->
    u <= eps -> 128 * (2 * beta + eq + 50 * u + da + faint prec emax) <= eps -> 0 < eps <= 1 -> E <= 1 ->
    exists d, list_val prec emax (flagged (flags c) (@calc_pose_diff _ FS target w)) d /\ length d = count (flags c) /\
      all_le (3 * eps) (diff d (flagged (flags c) (pose_error Tg W))) /\
      (let pr := @target_diff_to_len_rot_diff _ FS (flagged (flags c) (@calc_pose_diff _ FS target w)) (flags c) in
       exists dp dr, vval (fst pr) dp /\ vval (snd pr) dr /\ len dp <= E + 6 * eps /\ len dr <= E + 6 * eps).
  Proof.
    intros E Hc HT (UT & tq & Vtq & Dtq) Hrr Hrq Hd Heq UW Hda Hat Hue Hk He HE.
    pose proof (error_lens c Tg W) as [LP LR]. fold E in LP, LR.
    assert (Er : rotation_error c Tg W = qscaled_axis (qmul (rt Tg) (qconj (rt W)))).
    { destruct Hc as (Ra & Rb & Rc). unfold rotation_error. rewrite Ra, Rb, Rc. cbn [keep]. generalize (qscaled_axis (qmul (rt Tg) (qconj (rt W)))). intros []. reflexivity. }
    rewrite Er in LR. set (re := qscaled_axis (qmul (rt Tg) (qconj (rt W)))) in *.
    set (posc := Constraints (position_x c) (position_y c) (position_z c) false false false []).
    assert (Ep : position_error c Tg W = only_constrained posc (tr Tg) (tr W)) by (unfold position_error, only_constrained, posc, keep; cbn; destruct (position_x c), (position_y c), (position_z c); reflexivity).
    rewrite Ep in LP.
    assert (UP : unit_quat (qmul (rt Tg) (qconj (rt W)))) by (apply unit_qmul; [exact UT|apply unit_qconj, UW]).
    assert (Hw : / 2 <= Rabs (qw (qmul (rt Tg) (qconj (rt W))))).
    { rewrite <- (cos_ang _ UP). change (ang (qmul (rt Tg) (qconj (rt W)))) with (len re). replace (/ 2) with (cos (PI / 3)) by (rewrite cos_PI3; field).
      pose proof PI2_1. pose proof (len_nonneg re). left. apply cos_decreasing_1; lra. }
    assert (b0 : 0 <= beta) by (eapply Rle_trans; [apply sqrt_pos|exact Dtq]). assert (e0 : 0 <= eq) by (eapply Rle_trans; [apply sqrt_pos|exact Heq]).
    pose proof (u_le prec Hprec) as U. assert (F0 : 0 <= faint prec emax) by apply sqrt_pos.
    destruct (rotation_fwd prec emax Hp Hm L Hprec (rt target) (rt w) tq rq (rt Tg) (rt W) beta eq da Vtq Hrq UT UW Dtq Heq ltac:(lra) Hw Hda Hat) as (v & Hv & Hvk).
    fold re in Hvk. cbv zeta in Hvk. set (k := 128 * (2 * beta + eq + 50 * u + da + faint prec emax)) in *. destruct Hvk as (K1 & K2 & K3).
    destruct (err_val prec emax Hp Hm L Hprec posc target w (tr Tg) rr (tr W) eps E (conj eq_refl (conj eq_refl eq_refl)) HT Hrr Hd Hue He LP HE)
      as (d & Hd1 & Hd2 & _ & D1 & D2 & D3). cbv zeta in D1, D2, D3.
    set (ep := only_constrained posc (tr Tg) (tr W)) in *.
    assert (Hld : len d <= E + 6 * eps).
    { replace d with (plus ep (minus d ep)) by (destruct d, ep; unfold plus, minus; cbn; f_equal; ring).
      eapply Rle_trans; [apply ReachProofs.len_plus|]. replace (6 * eps) with (2 * (3 * eps)) by ring. apply Rplus_le_compat; [exact LP|]. apply len_comps; [exact D1|exact D2|exact D3]. }
    assert (Hlv : len v <= E + 6 * eps).
    { replace v with (plus re (minus v re)) by (destruct v, re; unfold plus, minus; cbn; f_equal; ring).
      eapply Rle_trans; [apply ReachProofs.len_plus|]. replace (6 * eps) with (2 * (3 * eps)) by ring. apply Rplus_le_compat; [exact LR|]. apply len_comps; cbn [vx vy vz minus]; lra. }
    exists (flagged (flags c) [vx d; vy d; vz d; vx v; vy v; vz v]).
    revert Hd1 Hd2. unfold calc_pose_diff. cbn [vx vy vz vsub]. cbn [ssub FScalar].
    set (xa := SFsub prec emax (vx (tr target)) _). set (xb := SFsub prec emax (vy (tr target)) _). set (xc := SFsub prec emax (vz (tr target)) _).
    set (w3 := @qscaled_axis _ FS _) in *. destruct Hv as (V1 & V2 & V3'). intros Hd1 Hd2.
    assert (D1' : position_x c = true -> Rabs (vx d - (vx (tr Tg) - vx (tr W))) <= 3 * eps) by (intros Z; unfold ep, only_constrained, posc in D1; cbn [vx position_x] in D1; rewrite Z in D1; exact D1).
    assert (D2' : position_y c = true -> Rabs (vy d - (vy (tr Tg) - vy (tr W))) <= 3 * eps) by (intros Z; unfold ep, only_constrained, posc in D2; cbn [vy position_y] in D2; rewrite Z in D2; exact D2).
    assert (D3' : position_z c = true -> Rabs (vz d - (vz (tr Tg) - vz (tr W))) <= 3 * eps) by (intros Z; unfold ep, only_constrained, posc in D3; cbn [vz position_z] in D3; rewrite Z in D3; exact D3).
    assert (K1' : Rabs (vx v - vx re) <= 3 * eps) by lra. assert (K2' : Rabs (vy v - vy re) <= 3 * eps) by lra. assert (K3' : Rabs (vz v - vz re) <= 3 * eps) by lra.
    destruct Hc as (Ra & Rb & Rc). clear D1 D2 D3 K1 K2 K3. clearbody xa xb xc w3 k ep E.
    unfold pose_error. fold re. unfold flags, posc in *. cbn [position_x position_y position_z rotation_x rotation_y rotation_z] in *. rewrite Ra, Rb, Rc.
    split; [|split; [|split]].
    - unfold list_val in *. clear Hd2. destruct (position_x c), (position_y c), (position_z c); cbn [flagged] in *; repeat (match goal with H : Forall2 _ (_ :: _) (_ :: _) |- _ => apply Forall2_cons in H as [? H] end);
        repeat (apply Forall2_cons; split; [assumption|]); apply Forall2_nil; exact I.
    - rewrite flagged_length by reflexivity. reflexivity.
    - rewrite flagged_diff. unfold all_le. cbn [diff zip_with].
      destruct (position_x c), (position_y c), (position_z c); cbn [flagged]; repeat (apply Forall_cons; split; [auto|]); apply Forall_nil; exact I.
    - exists d, v. split; [|split; [|split; assumption]].
      + revert Hd2. unfold target_diff_to_len_rot_diff. destruct (position_x c), (position_y c), (position_z c); cbn [flagged take firstn spread fst snd to_v3]; intros Hd2; exact Hd2.
      + unfold target_diff_to_len_rot_diff, SpecAcc.vval. destruct (position_x c), (position_y c), (position_z c); cbn [flagged take firstn spread fst snd to_v3 vx vy vz skipn]; auto.
  Qed.
  (** the test whether the target is reached *)
  Lemma norm_test (e : vec3 spec_float) d E tol tau : vval e d -> len d <= E -> E <= 8 -> val tol tau -> (1 + 8 * u) * E + faint prec emax < tau -> SFltb (@vnorm _ FS e) tol = true.
  Proof.
    intros Hv Hd HE Ht Hlt. destruct (norm_fwd prec emax Hp Hm L Hprec _ d Hv ltac:(lra)) as [n Hn]. apply (gt_fwd prec emax _ _ n tau Hn Ht).
    pose proof Hv as (Vx & Vy & Vz). apply val_valid in Vx, Vy, Vz.
    destruct (norm_back prec emax Hp Hm L Hprec _ n Vx Vy Vz Hn) as (r & Hr & N0 & _ & Nn).
    assert (r = d) as ->.
    { destruct Hv as (A1 & A2 & A3), Hr as (B1 & B2 & B3). destruct r, d. cbn in *. rewrite (val_fun _ _ _ _ _ B1 A1), (val_fun _ _ _ _ _ B2 A2), (val_fun _ _ _ _ _ B3 A3). reflexivity. }
    destruct (f_facts prec emax Hm Hprec) as (F0 & _ & _). pose proof (faint_f prec emax Hm Hprec) as FN. set (f := R_sqrt.sqrt (u * mu)) in *.
    pose proof (u_le prec Hprec) as U. pose proof (len_nonneg d) as D0.
    assert (0 <= faint prec emax) by apply sqrt_pos. assert (faint prec emax * u <= faint prec emax * / 2048) by (apply Rmult_le_compat_l; lra).
    assert (C3 : (1 + u) ^ 3 <= 1 + 8 * u) by nra. assert (0 <= (1 + u) ^ 3) by (apply pow_le; lra).
    assert ((1 + u) ^ 3 * len d <= (1 + 8 * u) * E) by (apply Rmult_le_compat; lra). lra.
  Qed.
  Lemma reached_pose (sv : solver spec_float) pr dp dr E tau ang : vval (fst pr) dp -> vval (snd pr) dr -> len dp <= E -> len dr <= E -> E <= 8 ->
    val (allowable_target_distance sv) tau -> val (allowable_target_angle sv) ang -> (1 + 8 * u) * E + faint prec emax < tau -> (1 + 8 * u) * E + faint prec emax < ang ->
    @reached _ FS sv pr = true.
  Proof.
    intros Hv Hs Hd Hr HE Ht Hg H1 H2. unfold reached. apply andb_true_intro. cbn [slt FScalar]. split; [eapply norm_test; eassumption|eapply (norm_test _ dr); eassumption].
  Qed.
End One.
