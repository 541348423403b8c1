(** * C37: the angle that [atan2] names over the reals *)
From Coq Require Import Reals Lra.
From Verif Require Import Scalar ScalarR.
Local Open Scope R_scope.

(** C37: off the origin [satan2 y x] is the angle, in (-pi, pi], of the point (x, y). *)
Theorem C37_atan2 (x y : R) : x <> 0 \/ y <> 0 ->
  let r := R_sqrt.sqrt (x * x + y * y) in
  r * cos (satan2 y x) = x /\ r * sin (satan2 y x) = y /\ - PI < satan2 y x <= PI.
Proof.
  intros Hne r. cbn [satan2 RScalar]. unfold Ratan2. pose proof PI_RGT_0 as HPI.
  assert (Hr : forall k, 0 < k -> R_sqrt.sqrt (x * x + y * y) = k * R_sqrt.sqrt ((x / k) * (x / k) + (y / k) * (y / k))).
  { intros k Hk. rewrite <- (R_sqrt.sqrt_square k) at 1 by lra. rewrite <- R_sqrt.sqrt_mult by nra. f_equal. field. lra. }
  assert (Hpos : forall k z, k <> 0 -> r = Rabs k * R_sqrt.sqrt (1 + z * z) -> r * cos (atan z) = Rabs k /\ r * sin (atan z) = Rabs k * z).
  { intros k z Hk ->. assert (0 < R_sqrt.sqrt (1 + z * z)) by (apply R_sqrt.sqrt_lt_R0; nra). rewrite cos_atan, sin_atan. unfold Rsqr. split; field; lra. }
  assert (Hx : x <> 0 -> r = Rabs x * R_sqrt.sqrt (1 + (y / x) * (y / x))).
  { intros Hx. unfold r. rewrite (Hr (Rabs x) (Rabs_pos_lt _ Hx)). f_equal. f_equal.
    assert (E : Rabs x * Rabs x = x * x) by (rewrite <- Rabs_mult; apply Rabs_pos_eq; nra).
    unfold Rdiv. replace (x * / Rabs x * (x * / Rabs x) + y * / Rabs x * (y * / Rabs x)) with ((x * x + y * y) * / (Rabs x * Rabs x)) by (field; apply Rabs_no_R0; exact Hx).
    rewrite E. field. exact Hx. }
  destruct (Rlt_dec 0 x) as [H0|H0]; [|destruct (Rlt_dec x 0) as [H1|H1]].
  - destruct (Hpos x (y / x) ltac:(lra) (Hx ltac:(lra))) as [E1 E2]. rewrite Rabs_pos_eq in E1, E2 by lra. pose proof (atan_bound (y / x)).
    split; [exact E1|]. split; [rewrite E2; field; lra|lra].
  - destruct (Hpos x (y / x) ltac:(lra) (Hx ltac:(lra))) as [E1 E2]. rewrite Rabs_left in E1, E2 by lra. pose proof (atan_bound (y / x)) as Hb.
    assert (E2' : r * sin (atan (y / x)) = - y) by (rewrite E2; field; lra).
    destruct (Rle_dec 0 y) as [Hy|Hy].
    + rewrite neg_cos, neg_sin. split; [lra|]. split; [lra|]. split; [lra|].
      enough (atan (y / x) <= 0) by lra. rewrite <- atan_0. assert (Hq : y / x <= 0). { unfold Rdiv. pose proof (Rinv_lt_0_compat x H1). nra. }
      destruct Hq as [Hq| ->]; [left; apply atan_increasing; exact Hq|lra].
    + replace (atan (y / x) - PI) with (- (PI - atan (y / x))) by ring. rewrite cos_neg, sin_neg. rewrite sin_PI_x. replace (PI - atan (y / x)) with (- atan (y / x) + PI) by ring.
      rewrite neg_cos, cos_neg. split; [lra|]. split; [lra|]. 
      assert (Hq : 0 < y / x). { unfold Rdiv. pose proof (Rinv_lt_0_compat x H1). nra. } apply atan_increasing in Hq. rewrite atan_0 in Hq. lra.
  - assert (x = 0) by lra. subst x. assert (Er : r = Rabs y). { unfold r. replace (0 * 0 + y * y) with (Rsqr y) by (unfold Rsqr; ring). apply sqrt_Rsqr_abs. }
    destruct (Rlt_dec 0 y) as [Hy|Hy]; [|destruct (Rlt_dec y 0) as [Hy'|Hy']].
    + rewrite cos_PI2, sin_PI2, Er, Rabs_pos_eq by lra. lra.
    + rewrite cos_neg, sin_neg, cos_PI2, sin_PI2, Er, Rabs_left by lra. lra.
    + exfalso. lra.
Qed.
Print Assumptions C37_atan2.
Example C37_atan2_case : satan2 (-1) (-1) = - (3 * (PI / 4)).
Proof.
  cbn [satan2 RScalar]. unfold Ratan2. destruct (Rlt_dec 0 (-1)); [lra|]. destruct (Rlt_dec (-1) 0); [|lra]. destruct (Rle_dec 0 (-1)); [lra|].
  replace (-1 / -1) with 1 by field. rewrite atan_1. field.
Qed.
