(** * C81: the pose error the solver computes in floating point *)
From Coq Require Import String Reals ZArith Lra Lia Psatz Floats.SpecFloat.
From Flocq Require Import Core IEEE754.BinarySingleNaN.
From stdpp Require Import gmap.
From Verif Require Import Scalar ScalarR ScalarF Geometry Joint Link Prog NodeM ChainM IkM SpecValues SpecFloatErr FloatErr FloatBack
  SpecGeom RGeom SpecStep SpecReach SpecAcc AccProofs AccProofs2 PropAcc SpecSolved SolvedProofs SolvedProofs2 SpecLin SpecLuAcc PropSolved PoseFwd.
From Verif Require ReachProofs.
From Verif Require Import ConvRot.
Local Open Scope R_scope.

(** C81: let two finite float poses stand for ideal ones, with the same translations and with
    rotations [a] and [e] away, and let the ideal rotations be at most a third of a turn apart.
    Then the error that [calc_pose_diff] computes has six finite entries.  The three for the
    translation are rounded once.  The three for the rotation are near the true rotation
    vector, also where it is small or zero, and whatever the signs of the quaternions. *)
Theorem C81_pose_error prec emax (Hp : Prec_gt_0 prec) (Hm : Prec_lt_emax prec emax) (L : libm) a e d (target x : iso spec_float) (T W : iso R) :
  let F := FScalar prec emax L in let u := unit_roundoff prec in
  (11 <= prec)%Z -> 0 <= d <= 1 -> atan2_within prec emax d L ->
  vval prec emax (tr target) (tr T) -> vval prec emax (tr x) (tr W) -> near_quat prec emax a (rt target) (rt T) -> near_quat prec emax e (rt x) (rt W) ->
  dist (tr T) (tr W) <= bpow radix2 (emax - 1) -> angle_between (rt T) (rt W) <= 2 * PI / 3 -> 2 * a + e + 34 * u <= / 8 ->
  let g := pose_error T W in
  exists v, list_val prec emax (calc_pose_diff (Sc := F) target x) v /\ length v = 6%nat /\
    Forall2 (fun r s => Rabs (r - s) <= u * Rabs s) (take 3 v) (take 3 g) /\
    all_le (128 * (2 * a + e + 50 * u + d + faint prec emax)) (diff (drop 3 v) (drop 3 g)).
Proof.
  intros F u Hprec Hd Hat HT HW (Up & tq & Vt & Da) (Uw & rq & Vr & De) Hl Hang HE g.
  destruct (angle_facts (rt T) (rt W) Up Uw) as (b & Eb & Hb & Cb & _). rewrite Eb in Hang.
  assert (Hw : / 2 <= Rabs (qw (qmul (rt T) (qconj (rt W))))).
  { rewrite <- Cb. replace (/ 2) with (cos (PI / 3)) by (rewrite cos_PI3; field). pose proof PI_RGT_0. destruct (Req_dec b (PI / 3)) as [-> |]; [lra|]. left. apply cos_decreasing_1; lra. }
  destruct (rotation_fwd prec emax Hp Hm L Hprec (rt target) (rt x) tq rq (rt T) (rt W) a e d Vt Vr Up Uw Da De HE Hw Hd Hat) as (r & (R1 & R2 & R3) & E1 & E2 & E3).
  destruct (translation_fwd prec emax Hp Hm L (tr target) (tr x) (tr T) (tr W) HT HW Hl) as (v & (V1 & V2 & V3') & G1 & G2 & G3).
  exists [vx v; vy v; vz v; vx r; vy r; vz r]. split; [|split; [reflexivity|split]].
  - unfold calc_pose_diff, list_val. repeat (constructor; [assumption|]). constructor.
  - unfold g, pose_error. cbn [take]. repeat (constructor; [assumption|]). constructor.
  - unfold g, pose_error. cbn [drop]. unfold diff, all_le. cbn [zip_with]. repeat (constructor; [assumption|]). constructor.
Qed.
Print Assumptions C81_pose_error.
(** in f64, with rotations and [atan2] accurate to four roundings: better than [2^-39] *)
Corollary C81_f64 (L : libm) (target x : iso spec_float) (T W : iso R) :
  let F := F64 L in let al := / 2 ^ 51 in
  atan2_within 53 1024 al L ->
  vval 53 1024 (tr target) (tr T) -> vval 53 1024 (tr x) (tr W) -> near_quat 53 1024 al (rt target) (rt T) -> near_quat 53 1024 al (rt x) (rt W) ->
  dist (tr T) (tr W) <= 2 ^ 1023 -> angle_between (rt T) (rt W) <= 2 * PI / 3 ->
  exists v, list_val 53 1024 (calc_pose_diff (Sc := F) target x) v /\ length v = 6%nat /\
    Forall2 (fun r s => Rabs (r - s) <= / 2 ^ 53 * Rabs s) (take 3 v) (take 3 (pose_error T W)) /\
    all_le (/ 2 ^ 39) (diff (drop 3 v) (drop 3 (pose_error T W))).
Proof.
  intros F al Hat HT HW Ht Hw Hl Hang.
  assert (Eu : unit_roundoff 53 = / 2 ^ 53) by (unfold unit_roundoff; rewrite <- two_pow_inv; reflexivity).
  assert (I : forall k j, / 2 ^ (k + j) = / 2 ^ k * / 2 ^ j) by (intros k j; rewrite pow_add, Rinv_mult; reflexivity).
  pose proof (I 51%nat 2%nat) as I1. pose proof (I 39%nat 12%nat) as I2. cbn [Nat.add] in I1, I2. replace (/ 2 ^ 2) with (/ 4) in I1 by (f_equal; ring). replace (/ 2 ^ 12) with (/ 4096) in I2 by (f_equal; ring).
  assert (P : 0 < / 2 ^ 51 <= / 2 ^ 10).
  { split; [apply Rinv_0_lt_compat, pow_lt; lra|]. apply Rinv_le_contravar; [apply pow_lt; lra|apply Rle_pow; [lra|lia]]. }
  replace (/ 2 ^ 10) with (/ 1024) in P by (f_equal; ring).
  destruct (C81_pose_error 53 1024 f64_ok f64_lt L al al al target x T W) as (v & H1 & H2 & H3 & H4); fold al in P, I1, I2; try assumption; rewrite ?Eu, ?I1; try lia; try lra.
  { change (1024 - 1)%Z with (Z.of_nat 1023). rewrite two_pow. exact Hl. }
  exists v. split; [exact H1|]. split; [exact H2|]. rewrite Eu, I1 in H3. split; [exact H3|].
  eapply Forall_impl; [exact H4|]. cbv beta. intros y Hy. eapply Rle_trans; [exact Hy|]. rewrite Eu, I1.
  pose proof (faint_le 53 1024 (Z.of_nat 51) ltac:(lia)) as Fa. rewrite two_pow_inv in Fa. fold al in Fa. lra.
Qed.
Print Assumptions C81_f64.

(** a target at (2, 1, 0), turned about z by the angle with cosine 0.28 (about 74
    degrees), seen from the origin; 0.6 and 0.8 are not floats *)
Definition three5 : spec_float := S754_finite false 5404319552844595 (-53).
Definition four5 : spec_float := S754_finite false 7205759403792794 (-53).
Example C81_case : exists v, list_val 53 1024 (calc_pose_diff (Sc := F64 LA) (Iso (V3 (z64 2) (z64 1) (z64 0)) (Qt (z64 0) (z64 0) three5 four5)) (@iso1 _ (F64 LA))) v /\
  length v = 6%nat /\ (forall z, v !! 5%nat = Some z -> Rabs (z - 2 * atan (3 / 4)) <= / 2 ^ 39).
Proof.
  destruct f_ok as (V0 & V1 & V2 & _). change f with z64 in V0, V1, V2.
  assert (E51 : / 2 ^ 51 = 4 * unit_roundoff 53) by (rewrite <- two_pow_inv; unfold unit_roundoff; change 4 with (bpow radix2 2); rewrite <- bpow_plus; reflexivity).
  assert (U : unit_roundoff 53 = / 9007199254740992) by reflexivity.
  set (p := Qt 0 0 (3 / 5) (4 / 5)). assert (Up : unit_quat p) by (unfold unit_quat, p; cbn; field).
  destruct (C81_f64 LA (Iso (V3 (z64 2) (z64 1) (z64 0)) (Qt (z64 0) (z64 0) three5 four5)) (@iso1 _ (F64 LA)) (Iso (V3 2 1 0) p) iso1) as (v & H1 & H2 & H3 & H4).
  - rewrite E51. intros x y r q R0 Hpp Hy Hx. destruct (better_atan2_ok 53 1024 f64_ok f64_lt ltac:(lia) x y r q R0 Hpp Hy Hx) as (a & Ha & Ea). exists a. split; [exact Ha|]. pose proof (u_small 53 ltac:(lia)). lra.
  - split; [|split]; assumption.
  - split; [|split]; exact V0.
  - split; [exact Up|]. exists (Qt 0 0 (5404319552844595 / 9007199254740992) (7205759403792794 / 9007199254740992)). split.
    + split; [exact V0|]. split; [exact V0|]. split; (split; [reflexivity|]); cbn [sf_value three5 four5 cond_Zopp qk qw]; do 2 f_equal; change (bpow radix2 (-53)) with (/ 9007199254740992); field.
    + unfold qdist, p. cbn [rt qi qj qk qw]. rewrite E51, U. apply Rle_trans with (R_sqrt.sqrt (/ 9007199254740992 * / 9007199254740992)); [|rewrite sqrt_square; lra].
      apply sqrt_le_1_alt. lra.
  - apply near_id. rewrite E51. pose proof (u_small 53 ltac:(lia)). lra.
  - apply Rle_trans with 4.
    + unfold dist, len, inner, minus. cbn [tr iso1 vx vy vz]. apply Rle_trans with (R_sqrt.sqrt (4 * 4)); [|rewrite sqrt_square; lra]. apply sqrt_le_1_alt.
      change (@szero R RScalar) with 0. cbn. lra.
    + replace 4 with (2 ^ 2) by ring. apply Rle_pow; [lra|lia].
  - change (angle_between p q1 <= 2 * PI / 3). destruct (angle_facts p q1 Up unit_q1) as (b & -> & Hb & Cb & _). cbn in Cb. rewrite Rabs_pos_eq in Cb by lra.
    assert (b <= PI / 3); [|lra]. destruct (Rle_or_lt b (PI / 3)) as [|Hn]; [assumption|]. pose proof PI_RGT_0.
    assert (cos b < cos (PI / 3)) by (apply cos_decreasing_1; lra). rewrite cos_PI3 in *. lra.
  - exists v. split; [exact H1|]. split; [exact H2|]. intros z Hz. destruct v as [|v1 [|v2 [|v3 [|v4 [|v5 [|v6 [|]]]]]]]; try discriminate. injection Hz as ->.
    cbn [drop pose_error diff zip_with rt iso1] in H4. apply Forall_cons in H4 as [_ H4]. apply Forall_cons in H4 as [_ H4]. apply Forall_cons in H4 as [H4 _].
    assert (E : vz (qscaled_axis (qmul p (qconj q1))) = 2 * atan (3 / 4)); [|rewrite <- E; exact H4]. clear.
    set (P := qmul p (qconj q1)). assert (EP : P = p) by (unfold P, p; unfold qmul, qconj, q1; cbn; f_equal; ring). rewrite EP.
    assert (Lv : len (qvec p) = 3 / 5).
    { unfold len, inner, p, qvec. cbn [qi qj qk vx vy vz]. replace (0 * 0 + 0 * 0 + 3 / 5 * (3 / 5)) with (3 / 5 * (3 / 5)) by ring. apply sqrt_square. lra. }
    assert (Up : unit_quat p) by (unfold unit_quat, p; cbn; field).
    destruct (scaled_axis_form p Up) as [_ Hf]. rewrite Hf by lra. rewrite Lv.
    assert (Ef : facing_vec p = V3 0 0 (3 / 5)).
    { unfold facing_vec, sge, p. cbn [sle RScalar qw]. unfold Rleb. destruct (Rle_dec 0 (4 / 5)); [reflexivity|lra]. }
    rewrite Ef. cbn [times vz]. pose proof (cos_ang p Up) as C. pose proof (qvec_sin p Up) as S. rewrite Lv in S. cbn [p qw] in C. rewrite Rabs_pos_eq in C by lra.
    destruct (ang_range p Up) as [A1 A2].
    assert (E : ang p / 2 = atan (3 / 4)); [|rewrite <- E; field]. rewrite <- (atan_tan (ang p / 2)); [unfold tan; rewrite C, <- S; f_equal; field|].
    pose proof PI_RGT_0. destruct (Req_dec (ang p / 2) (PI / 2)) as [E|]; [rewrite E, cos_PI2 in C; lra|lra].
Qed.
