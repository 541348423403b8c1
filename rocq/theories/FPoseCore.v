(** * A perturbed step of the solver towards a full pose *)
From Coq Require Import String NArith Reals Lra Lia Psatz Sorting.Sorted.
From stdpp Require Import gmap.
From Verif Require ReachProofs.
From Verif Require Import Scalar ScalarR Geometry Joint Link Prog NodeM ChainM FuncsM IkM RunLemmas SpecNode SpecGraph SpecChain
  SpecGeom RGeom GeomProofs JacReal PoseDiff SpecReach SpecIk SpecSolved SpecConvAcc SpecStep StepProofs LinAlgR LinArm LinIk TrajProofs SpecLin SpecLuAcc LuAcc
  ConvGeom ConvRot ConvList ConvStep ConvIk ConvReg AccProofs SvdProofs PropLu PropLuAcc FConvCore.
Local Open Scope R_scope.

(** one step of the rotation, up to [K] *)
Lemma rotation_step_near T Q Q' (m S K : R) : unit_quat T -> unit_quat Q -> unit_quat Q' -> 0 <= m <= 1 -> 0 <= S -> 0 <= K ->
  let e := qscaled_axis (qmul T (qconj Q)) in
  m * len e <= S ->
  (forall v, len (minus (minus (turn Q' v) (turn Q v)) (cross (times m e) (turn Q v))) <= K * len v) ->
  len (qscaled_axis (qmul T (qconj Q'))) <= (1 - m) * len e + 5 / 2 * (/ 2 * (S * S) + K).
Proof.
  intros HT HQ HQ' Hm HS HK e Hme Hv.
  assert (HU : unit_quat (qmul T (qconj Q))) by (apply unit_qmul; [|apply unit_qconj]; assumption).
  assert (Hax : exists a th, unit_axis a /\ 0 <= th <= PI /\ e = times th a /\ len e = th /\ forall x, turn (qmul T (qconj Q)) x = rotate a th x).
  { destruct (scaled_axis_cases _ HU) as [[Hv0 E]|(a & th & Ha & [Ht Hp] & E & Hx)].
    - exists (V3 1 0 0), 0. split; [unfold unit_axis; cbn; ring|]. split; [pose proof PI_RGT_0; lra|]. unfold e. rewrite E.
      split; [gv; ring|]. split; [apply ReachProofs.len_0|]. intros x. rewrite rotate_0. apply scaled_axis_zero; assumption.
    - exists a, th. split; [exact Ha|]. split; [lra|]. split; [exact E|]. split; [|exact Hx].
      unfold e. rewrite E, ReachProofs.len_times, (ReachProofs.len_unit a Ha), Rabs_pos_eq by lra. ring. }
  destruct Hax as (a & th & Ha & Hth & Ee & Hlen & Hx). clearbody e.
  set (D := qaxis_angle a (m * th)). assert (HD : unit_quat D) by (apply unit_axis_angle, Ha).
  set (E1 := qmul (qmul T (qconj Q)) (qconj D)). set (E2 := qmul D (qmul Q (qconj Q'))).
  assert (HE1 : unit_quat E1) by (apply unit_qmul; [exact HU|apply unit_qconj, HD]).
  assert (HE2 : unit_quat E2) by (apply unit_qmul; [exact HD|apply unit_qmul; [exact HQ|apply unit_qconj, HQ']]).
  assert (E : qmul T (qconj Q') = qmul E1 E2).
  { unfold E1, E2. rewrite <- !qmul_assoc. f_equal. rewrite (qmul_assoc (qconj D)), qmul_conj_l, qmul_1_l by exact HD.
    rewrite (qmul_assoc (qconj Q)), qmul_conj_l, qmul_1_l by exact HQ. reflexivity. }
  rewrite E. change (ang (qmul E1 E2) <= (1 - m) * len e + 5 / 2 * (/ 2 * (S * S) + K)). rewrite Hlen in *.
  eapply Rle_trans; [apply ang_mul; assumption|]. apply Rplus_le_compat.
  - apply (ang_rotate E1 a); [exact HE1|exact Ha|split; nra|]. intros x. unfold E1. rewrite turn_mul, Hx by (exact HU || apply unit_qconj, HD).
    replace ((1 - m) * th) with (th + - (m * th)) by ring. rewrite rotate_add by exact Ha. f_equal.
    rewrite <- (rotate_0 a (turn (qconj D) x)). replace 0 with (- (m * th) + m * th) by ring. rewrite rotate_add by exact Ha. f_equal.
    rewrite <- turn_axis_angle by exact Ha. fold D. rewrite <- turn_mul by (first [exact HD|apply unit_qconj, HD]).
    rewrite qmul_conj_r by exact HD. apply turn_q1.
  - apply ang_chord; [exact HE2|nra|]. intros x. set (z := turn (qconj Q') x).
    assert (Ez : x = turn Q' z).
    { unfold z. symmetry. rewrite <- turn_mul by (first [exact HQ'|apply unit_qconj, HQ']). rewrite qmul_conj_r by exact HQ'. apply turn_q1. }
    assert (Hz : len z = len x) by (apply len_turn, unit_qconj, HQ').
    unfold E2. rewrite turn_mul by (first [exact HD|apply unit_qmul; [exact HQ|apply unit_qconj, HQ']]).
    rewrite turn_mul by (first [exact HQ|apply unit_qconj, HQ']). fold z. rewrite <- Hz. rewrite Ez at 1. unfold D. rewrite turn_axis_angle by exact Ha.
    specialize (Hv z). set (f := turn Q z) in *. assert (Hf : len f = len z) by (apply len_turn, HQ).
    pose proof (rotate_second a (m * th) f Ha) as H2.
    assert (Ec : cross (times m e) f = times (m * th) (cross a f)) by (rewrite Ee; destruct a, f; gv; ring). rewrite Ec in Hv.
    set (g := turn Q' z) in *. set (c := times (m * th) (cross a f)) in *. set (k := rotate a (m * th) f) in *.
    assert (Eg : minus k g = minus (minus (minus k f) c) (minus (minus g f) c)) by (destruct k, g, f, c; gv; ring).
    rewrite Eg. pose proof (ReachProofs.len_minus_tri (minus (minus k f) c) (V3 0 0 0) (minus (minus g f) c)) as H3.
    rewrite (ReachProofs.len_minus_sym (V3 0 0 0)) in H3.
    assert (H0 : forall y, minus y (V3 0 0 0) = y) by (intros []; gv; ring). rewrite !H0 in H3.
    pose proof (len_nonneg z). rewrite Hf in H2. set (p := m * th) in *. assert (0 <= p) by (unfold p; nra).
    assert (p * p / 2 * len z <= / 2 * (S * S) * len z) by (apply Rmult_le_compat_r; nra). lra.
Qed.
Lemma drot_ladd js : forall a b, length a = nmov js -> length b = nmov js -> drot js (ladd a b) = plus (drot js a) (drot js b).
Proof.
  induction js as [|j js IH]; intros a b La Lb; cbn [drot nmov] in *; [apply V3_eq; cbn; ring|].
  destruct (j_type j) as [|ax|ax].
  - rewrite IH by assumption. apply turn_plus.
  - destruct a as [|x a], b as [|y b]; try discriminate. injection La as La. injection Lb as Lb. cbn [ladd zip_with]. fold (ladd a b). rewrite IH by assumption.
    rewrite <- turn_plus. f_equal. apply V3_eq; cbn; ring.
  - destruct a as [|x a], b as [|y b]; try discriminate. injection La as La. injection Lb as Lb. cbn [ladd zip_with]. fold (ladd a b). rewrite IH by assumption.
    rewrite <- turn_plus. f_equal.
Qed.
Lemma flagged_all e ops l : all_le e l -> all_le e (flagged ops l).
Proof. intros H. revert ops. induction H as [|x l Hx H IH]; intros [|[] ops]; cbn; try constructor; try assumption; apply IH. Qed.
Lemma six_le e (a b c d f g : R) : Rabs a <= e -> Rabs b <= e -> Rabs c <= e -> Rabs d <= e -> Rabs f <= e -> Rabs g <= e -> all_le e [a; b; c; d; f; g].
Proof. intros. unfold all_le. repeat (apply Forall_cons; split; [assumption|]). apply Forall_nil. exact I. Qed.
Lemma count_six c : (count (flags c) <= 6)%nat.
Proof. unfold flags, count. destruct (position_x c), (position_y c), (position_z c), (rotation_x c), (rotation_y c), (rotation_z c); vm_compute; repeat constructor. Qed.
Lemma pose_entries c js Lr : 1 <= Lr -> Forall unit_joint js -> total (map span js) <= Lr -> entries_le Lr (jac c js).
Proof.
  intros HL Hu Ht. unfold entries_le. apply Forall_lookup. intros k col Hk. pose proof (lookup_lt_Some _ _ _ Hk) as Lk. rewrite jac_cols in Lk.
  destruct (unit_lists (nmov js) k Lk) as (x & Lx & Nx & Hx).
  assert (E : act (jac c js) x = col).
  { unfold act. rewrite (Hx (m_cols (jac c js)) (m_rows (jac c js))); [|apply jac_cols|].
    - apply nth_lookup_Some with (d := []) in Hk. exact Hk.
    - unfold jac, reduced. cbn [m_cols m_rows]. unfold without. rewrite without_from_none by set_solver. apply Forall_map. eapply Forall_impl; [apply colsof_six|].
      cbv beta. intros y Hy. apply flagged_length. rewrite Hy. reflexivity. }
  rewrite <- E, jac_act by assumption. apply flagged_all.
  pose proof (dtip_len Lr HL js Hu Ht x) as Hl. rewrite asum_norm1, Nx, Rmult_1_r in Hl. pose proof (drot_len js Hu x) as Hr. rewrite asum_norm1, Nx in Hr.
  pose proof (comp_len (dtip js x)) as (C1 & C2 & C3). pose proof (comp_len (drot js x)) as (D1 & D2 & D3). apply six_le; lra.
Qed.
Lemma all_le_shift e f a b : length a = length b -> all_le e a -> all_le f (diff a b) -> all_le (e + f) b.
Proof.
  revert b. induction a as [|x a IH]; intros [|y b] E H1 H2; try discriminate; [constructor|]. injection E as E.
  apply Forall_cons in H1 as [A1 A2]. apply Forall_cons in H2 as [B1 B2]. constructor; [|eapply IH; eauto].
  replace y with (x + - (x - y)) by ring. eapply Rle_trans; [apply Rabs_triang|]. rewrite Rabs_Ropp. lra.
Qed.
Lemma pose_near c js js' Lr r lam : 1 <= Lr -> Forall unit_joint js -> Forall2 at_other_position js js' -> total (map span js) <= Lr ->
  norm1 (diff (posns js') (posns js)) <= r -> Lr * r <= lam -> expands (2 * lam) (jac c js) -> expands lam (jac c js').
Proof.
  intros HL Hu Ho Ht Hr Hlr Hex x e Lx He Hx. pose proof (others_nmov _ _ Ho) as En. rewrite jac_cols, En in Lx. pose proof (norm1_pos x) as Nx.
  assert (Hu' : Forall unit_joint js') by (exact (unit_others _ _ Hu Ho)).
  rewrite jac_act in Hx by (try exact Hu'; congruence).
  pose proof (dtip_lip Lr HL js js' Hu Ho Ht x) as Hl. pose proof (drot_lip js js' Hu Ho x) as Hl'. rewrite !asum_norm1, gaps_posns in Hl, Hl' by exact Ho.
  set (g := norm1 (diff (posns js') (posns js))) in *. assert (g0 : 0 <= g) by apply norm1_pos.
  assert (G : Lr * norm1 x * g <= lam * norm1 x).
  { assert (0 <= Lr * norm1 x) by (apply Rmult_le_pos; lra). assert (Lr * norm1 x * g <= Lr * norm1 x * r) by (apply Rmult_le_compat_l; lra).
    replace (Lr * norm1 x * r) with (Lr * r * norm1 x) in * by ring. assert (Lr * r * norm1 x <= lam * norm1 x) by (apply Rmult_le_compat_r; lra). lra. }
  assert (G1 : norm1 x * g <= Lr * norm1 x * g).
  { assert (0 <= norm1 x * g) by (apply Rmult_le_pos; lra). replace (Lr * norm1 x * g) with (Lr * (norm1 x * g)) by ring. assert (1 * (norm1 x * g) <= Lr * (norm1 x * g)) by (apply Rmult_le_compat_r; lra). lra. }
  assert (G0 : 0 <= Lr * norm1 x * g) by (apply Rmult_le_pos; [apply Rmult_le_pos; lra|lra]).
  assert (H : 2 * lam * norm1 x <= e + lam * norm1 x); [|lra]. apply Hex; [rewrite jac_cols; exact Lx|lra|].
  rewrite jac_act by assumption. eapply all_le_shift; [|exact Hx|].
  - rewrite !flagged_length by reflexivity. reflexivity.
  - rewrite flagged_diff. cbn [diff zip_with]. apply flagged_all.
    pose proof (comp_len (minus (dtip js' x) (dtip js x))) as (C1 & C2 & C3). pose proof (comp_len (minus (drot js' x) (drot js x))) as (D1 & D2 & D3).
    cbn [minus vx vy vz] in C1, C2, C3, D1, D2, D3. apply six_le; lra.
Qed.

(** ** the step *)
Section Core.
  Variables (js js' : list (joint R)) (target : iso R) (c : constraints) (m Lr dl : R) (x kap : list R).
  Hypothesis Hc : fully_oriented c.
  Hypothesis Hu : Forall unit_joint js.
  Hypothesis Ho : Forall2 at_other_position js js'.
  Hypothesis Lx : length x = nmov js.
  Hypothesis Lk : length kap = nmov js.
  Hypothesis Hg : diff (posns js') (posns js) = ladd (lscale m x) kap.
  Hypothesis Hm : 0 <= m <= 1.
  Hypothesis HL : 1 <= Lr.
  Hypothesis Hspan : total (map span js) <= Lr.
  Hypothesis Hdl : 0 <= dl <= / 4.
  Hypothesis Htgt : proper target.
  Let w := end_at iso1 js. Let w' := end_at iso1 js'.
  Hypothesis Hres : all_le dl (diff (act (jac c js) x) (flagged (flags c) (pose_error target w))).
  Let S := m * norm1 x + norm1 kap.
  Let posc := Constraints (position_x c) (position_y c) (position_z c) false false false [].
  Lemma pose_unit' : Forall unit_joint js'.
  Proof. exact (unit_others _ _ Hu Ho). Qed.
  Lemma pose_tip : tr w = tip js.
  Proof. unfold w. rewrite end_move by (try apply proper_1; exact Hu). apply ReachProofs.move_1. Qed.
  Lemma pose_tip' : tr w' = tip js'.
  Proof. unfold w'. rewrite end_move by (try apply proper_1; exact pose_unit'). apply ReachProofs.move_1. Qed.
  Lemma pose_only v : position_error c target v = only_constrained posc (tr target) (tr v).
  Proof. unfold position_error, only_constrained, posc, keep. cbn. destruct (position_x c), (position_y c), (position_z c); reflexivity. Qed.
  Lemma pose_parts :
    all_le dl (diff (act (jac posc js) x) (flagged (flags posc) [vx (tr target) - vx (tip js); vy (tr target) - vy (tip js); vz (tr target) - vz (tip js); 0; 0; 0])) /\
    let e := qscaled_axis (qmul (rt target) (qconj (rt w))) in
    Rabs (vx (drot js x) - vx e) <= dl /\ Rabs (vy (drot js x) - vy e) <= dl /\ Rabs (vz (drot js x) - vz e) <= dl.
  Proof.
    pose proof Hres as H. rewrite jac_act in H |- * by assumption. rewrite flagged_diff in H |- *. unfold pose_error in H. rewrite pose_tip in H. cbn [diff zip_with] in *.
    destruct Hc as (Ra & Rb & Rc). unfold flags, posc in *. cbn [position_x position_y position_z rotation_x rotation_y rotation_z]. rewrite Ra, Rb, Rc in H. unfold all_le in *.
    destruct (position_x c), (position_y c), (position_z c); cbn [flagged] in *; rewrite ?Forall_cons, ?Forall_nil in *; tauto.
  Qed.
  Lemma pose_pos : len (position_error c target w') <= (1 - m) * len (position_error c target w) + 2 * m * dl + Lr * norm1 kap + Lr / 2 * (S * S).
  Proof.
    destruct pose_parts as [Hp _]. rewrite !pose_only, pose_tip, pose_tip'.
    exact (fcore_step js js' (tr target) posc m Lr dl x kap (conj eq_refl (conj eq_refl eq_refl)) Hu Ho Lx Lk Hg Hm HL Hspan (proj1 Hdl) Hp).
  Qed.
  Lemma pose_rot : len (rotation_error c target w') <= (1 - m) * len (rotation_error c target w) + (4 * (S * S) + 8 * m * dl + 3 * norm1 kap).
  Proof.
    destruct pose_parts as [_ (R1 & R2 & R3)].
    set (e := qscaled_axis (qmul (rt target) (qconj (rt w)))) in *.
    assert (Ee : forall v, rotation_error c target v = qscaled_axis (qmul (rt target) (qconj (rt v)))).
    { destruct Hc as (Ra & Rb & Rc). intros v. unfold rotation_error. rewrite Ra, Rb, Rc. cbn [keep]. generalize (qscaled_axis (qmul (rt target) (qconj (rt v)))). intros []. reflexivity. }
    rewrite !Ee. fold e.
    set (D := minus (drot js x) e). assert (HD : len D <= 2 * dl) by (apply len_comps; assumption).
    pose proof (norm1_pos x) as X0. pose proof (norm1_pos kap) as K0. assert (S0 : 0 <= S) by (unfold S; assert (0 <= m * norm1 x) by (apply Rmult_le_pos; lra); lra).
    pose proof (fcore_moved js js' m x kap Lx Lk Hg Hm) as Hmv. fold S in Hmv. pose proof (norm1_pos (diff (posns js') (posns js))) as M0.
    pose proof (drot_len js Hu x) as Hx1. rewrite asum_norm1 in Hx1. pose proof (drot_len js Hu kap) as Hk1. rewrite asum_norm1 in Hk1.
    assert (md : 0 <= m * dl) by (apply Rmult_le_pos; lra).
    assert (He : len e <= norm1 x + 2 * dl).
    { replace e with (plus (drot js x) (times (-1) D)) by (unfold D; destruct (drot js x), e; unfold plus, times, minus; apply V3_eq; cbn; ring).
      eapply Rle_trans; [apply ReachProofs.len_plus|]. rewrite ReachProofs.len_times, (Rabs_left (-1)) by lra. lra. }
    assert (H1 : m * len e <= S + 2 * (m * dl)) by (apply Rle_trans with (m * (norm1 x + 2 * dl)); [apply Rmult_le_compat_l; lra|unfold S; lra]).
    assert (H2 : forall v, len (minus (minus (turn (rt w') v) (turn (rt w) v)) (cross (times m e) (turn (rt w) v))) <= (/ 2 * (S * S) + 2 * (m * dl) + norm1 kap) * len v).
    { intros v. pose proof (facing_curve js js' v Hu Ho) as Hf. rewrite gaps_posns in Hf by exact Ho. rewrite asum_norm1 in Hf.
      rewrite Hg in Hf at 1. rewrite drot_ladd, drot_lscale in Hf by (rewrite ?lscale_length; assumption).
      assert (Ef : turn (rt w) v = ReachProofs.facing js v) by (unfold w, end_at; rewrite ReachProofs.facing_rt by exact Hu; reflexivity).
      assert (Ef' : turn (rt w') v = ReachProofs.facing js' v) by (unfold w', end_at; rewrite ReachProofs.facing_rt by exact pose_unit'; reflexivity).
      rewrite Ef'. assert (Lf : len (turn (rt w) v) = len v) by (apply len_turn; apply proper_end_at; [apply proper_1|exact Hu]). rewrite Ef in *.
      set (f := ReachProofs.facing js v) in *. set (f' := ReachProofs.facing js' v) in *.
      set (G := plus (times m D) (drot js kap)).
      assert (HG : len G <= 2 * (m * dl) + norm1 kap).
      { unfold G. eapply Rle_trans; [apply ReachProofs.len_plus|]. rewrite ReachProofs.len_times, (Rabs_pos_eq m) by lra. assert (m * len D <= m * (2 * dl)) by (apply Rmult_le_compat_l; lra). lra. }
      assert (E : minus (minus f' f) (cross (times m e) f) = plus (minus (minus f' f) (cross (plus (times m (drot js x)) (drot js kap)) f)) (cross G f)).
      { unfold G, D. destruct f', f, (drot js x), (drot js kap), e. unfold plus, times, minus, cross. apply V3_eq; cbn; ring. }
      rewrite E. eapply Rle_trans; [apply ReachProofs.len_plus|]. pose proof (AccProofs.len_cross G f) as Hcr. rewrite Lf in Hcr. pose proof (len_nonneg v) as V0.
      assert (len G * len v <= (2 * (m * dl) + norm1 kap) * len v) by (apply Rmult_le_compat_r; lra).
      assert (/ 2 * (norm1 (diff (posns js') (posns js)) * norm1 (diff (posns js') (posns js))) * len v <= / 2 * (S * S) * len v).
      { apply Rmult_le_compat_r; [exact V0|]. apply Rmult_le_compat_l; [lra|]. apply Rmult_le_compat; lra. }
      lra. }
    assert (SS : 0 <= S * S) by (apply Rmult_le_pos; lra).
    pose proof (rotation_step_near (rt target) (rt w) (rt w') m (S + 2 * (m * dl)) (/ 2 * (S * S) + 2 * (m * dl) + norm1 kap) Htgt
      (proper_end_at iso1 js proper_1 Hu) (proper_end_at iso1 js' proper_1 pose_unit') Hm ltac:(lra) ltac:(lra) H1 H2) as H3. fold e in H3. cbv zeta in H3.
    assert (Q : (S + 2 * (m * dl)) * (S + 2 * (m * dl)) <= 2 * (S * S) + 2 * (m * dl)).
    { pose proof (Rle_0_sqr (S - 2 * (m * dl))) as Z. unfold Rsqr in Z. assert (m * dl <= 1 * / 4) by (apply Rmult_le_compat; lra).
      assert (m * dl * (m * dl) <= / 4 * (m * dl)) by (apply Rmult_le_compat_r; lra). lra. }
    lra.
  Qed.
  Lemma pose_step : norm (flagged (flags c) (pose_error target w')) <=
    (1 - m) * norm (flagged (flags c) (pose_error target w)) + (10 * m * dl + 4 * Lr * norm1 kap + 5 * Lr * (S * S)).
  Proof.
    pose proof pose_pos as H1. pose proof pose_rot as H2. pose proof (norm1_pos kap) as K0. assert (SS : 0 <= S * S) by apply Rle_0_sqr. assert (md : 0 <= m * dl) by (apply Rmult_le_pos; lra).
    assert (LK : 1 * norm1 kap <= Lr * norm1 kap) by (apply Rmult_le_compat_r; lra). assert (LS : 1 * (S * S) <= Lr * (S * S)) by (apply Rmult_le_compat_r; lra).
    eapply Rle_trans; [eapply two_norms with (N := norm (flagged (flags c) (pose_error target w))) (a := len (position_error c target w)) (b := len (rotation_error c target w))
        (a' := len (position_error c target w')) (b' := len (rotation_error c target w')) (u := 1 - m)
        (c1 := 2 * m * dl + Lr * norm1 kap + Lr / 2 * (S * S)) (c2 := 4 * (S * S) + 8 * m * dl + 3 * norm1 kap); try apply len_nonneg; try apply norm_nonneg; try lra|].
    - rewrite norm_sqr. apply error_dot.
    - rewrite norm_sqr. apply error_dot.
    - lra.
  Qed.
End Core.
