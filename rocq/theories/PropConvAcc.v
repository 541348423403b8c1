(** * C77: the solver converges in floating point *)
From Coq Require Import String Reals ZArith Lra Lia Psatz Sorting.Sorted Floats.SpecFloat.
From Flocq Require Import Core IEEE754.BinarySingleNaN.
From stdpp Require Import gmap.
From Verif Require ReachProofs.
From Verif Require Import Scalar ScalarR ScalarF Geometry Joint Link Prog NodeM ChainM FuncsM IkM LuM RunLemmas
  SpecJoint SpecNode SpecGraph SpecChain GraphProofs SpecFK FKProofs SpecGeom RGeom GeomProofs JacReal SpecReach IkProofs IkProofs2 SpecIk StepProofs ChainProofs
  SpecStep SpecLin SpecValues SpecFloatErr FloatErr FloatBack SpecAcc AccProofs AccProofs2 PropAcc SpecJacAcc AccJac PropJacAcc PropStep SpecSolved SolvedProofs SolvedProofs2
  LinAlgR LinArm LinIk TrajProofs ConvReg SpecLuAcc LuAcc PropLu PropLuAcc PropSolved ConvGeom ConvStep ConvIk PropConv SpecConvAcc FConvJac FConvCore FConvStep FConvOne FConvLoop.
Local Open Scope R_scope.

(** C77: let the float arm stand for an ideal serial arm as in C60, let the constraints be on
    positions only, with as many joints as constrained coordinates, let the Jacobian of the
    ideal arm be far from singular at the start, and let every joint be [r] away from its
    limits.  [nu] bounds the rounding errors of one iteration.  If the ideal end starts close
    enough to the target, and the tolerance is above the rounding errors, then the float solver
    with the LU solve answers [Ok] within [k] iterations, and no joint has moved by more than
    [r]. *)
Theorem C77_converges prec emax (Hp : Prec_gt_0 prec) (Hm : Prec_lt_emax prec emax) (L : libm) al d
    (t : nat) ovf la (sv : solver spec_float) (hf : gmap nat (node spec_float)) (hr : gmap nat (node R)) nx arm e l js
    target (c : constraints) cr s' w q tg m tau ang lam Lr r Q nu k :
  let F := FScalar prec emax L in
  let u := unit_roundoff prec in let BIG := bpow radix2 (emax - 2) in
  (11 <= prec)%Z -> 0 <= al -> 0 <= d -> libm_within prec emax d L -> stand_for prec emax al hf hr ->
  path_up hr e l -> chain_of hr (rev l) arm -> joints_of hr (rev l) js ->
  position_only c -> ignored_joint_names c = [] -> count (flags c) = c_dof arm ->
  (forall m b, lu_solve la m b = na_lu_solve m b) ->
  vval prec emax (tr target) tg -> val prec emax (jacobian_multiplier sv) m ->
  val prec emax (allowable_target_distance sv) tau -> val prec emax (allowable_target_angle sv) ang ->
  0 < m <= 1 -> 0 < ang -> (1 <= k <= num_max_try sv)%nat ->
  run t (end_transform arm) (quiet hr nx) = Done w (quiet hr nx) ->
  run t (joint_positions arm) (quiet hr nx) = Done q (quiet hr nx) ->
  run t (jacobian arm) (quiet hr nx) = Done (Mat 6 cr) s' ->
  expands (2 * lam) (reduced (flags c) [] cr) -> 0 < lam <= 1 ->
  1 <= Lr -> reach emax js + r <= Lr -> 0 <= r -> Lr * r <= lam ->
  1 <= Q <= BIG -> Forall (fun p => Rabs p + 1 <= Q) q -> Forall (room prec emax hf r) (c_movable arm) ->
  3 * (growth prec al d ^ (16 * S (length js)) - 1) * Lr * Q <= nu ->
  2048 * Lr * nu <= m * (lam * lam) -> 2097152 * Lr <= BIG * (lam * lam) ->
  let e0 := len (only_constrained c tg (tr w)) in
  64 * (e0 + INR k * nu) <= r * lam ->
  (1 + 8 * u) * ((1 - m / 2) ^ k * e0 + 32 * nu / m) + faint prec emax < tau ->
  exists h' qf q',
    run t (solve_with_constraints (Sc := F) ovf la sv arm target c) (quiet hf nx) = Done (Ok tt) (quiet h' nx) /\
    run t (joint_positions arm) (quiet h' nx) = Done qf (quiet h' nx) /\
    list_val prec emax qf q' /\ length q' = length q /\ norm1 (diff q' q) <= r.
Proof.
  intros F u BIG Hprec Hal Hd HL Hst Hpath Hch Hjs Hc Hign Hcnt Hla Htg Hmul Htau Hang Hm1 Hang0 Hk Hw Hq HJ Hex Hlam HLr Hreach Hr Hrl HQ HQ0 Hroom Hnu Hsmall Hbig e0 Hball Htol.
  destruct (stand_joints prec emax al hf hr Hst _ _ Hjs) as (xs & Hxs & Hs). pose proof (stands_unit _ _ _ _ _ Hs) as Hu.
  assert (Hja : joints_at hr (rev l) js) by exact Hjs.
  pose proof (start_positions t hr nx arm l js q _ Hch Hja Hq) as ->.
  pose proof (start_end t hr nx arm l js w Hch Hja Hw) as Ew.
  assert (Ej : reduced (flags c) [] cr = jac c js).
  { destruct (serial_jacobian t hr nx arm e l js Hpath Hch Hja) as (h1 & HJ1). rewrite HJ in HJ1. injection HJ1 as -> _. reflexivity. }
  rewrite Ej in Hex.
  assert (Et : tr w = ReachProofs.tip js) by (subst w; apply ReachProofs.tip_tr, Hu).
  set (nu0 := 3 * (growth prec al d ^ (16 * S (length js)) - 1) * Lr * Q) in *.
  assert (Hs0 : 2048 * Lr * nu0 <= m * (lam * lam)) by (assert (2048 * Lr * nu0 <= 2048 * Lr * nu) by (apply Rmult_le_compat_l; lra); lra).
  assert (Hb0 : 64 * (len (only_constrained c tg (ReachProofs.tip js)) + INR k * nu0) <= r * lam).
  { rewrite <- Et. fold e0. assert (INR k * nu0 <= INR k * nu) by (apply Rmult_le_compat_l; [apply pos_INR|exact Hnu]). lra. }
  assert (U : 0 < u) by apply bpow_gt_0.
  assert (Ht0 : (1 + 8 * u) * ((1 - m / 2) ^ k * len (only_constrained c tg (ReachProofs.tip js)) + 32 * nu0 / m) + faint prec emax < tau).
  { rewrite <- Et. fold e0. eapply Rle_lt_trans; [|exact Htol]. apply Rplus_le_compat_r, Rmult_le_compat_l; [lra|]. apply Rplus_le_compat_l. unfold Rdiv. apply Rmult_le_compat_r; [left; apply Rinv_0_lt_compat; lra|lra]. }
  destruct (fconv_solve prec emax Hp Hm L Hprec al d Hal Hd HL t ovf hf nx arm e l target c la sv xs js tg m Lr r Q lam
    (stand_path prec emax al hf hr Hst _ _ Hpath) (stand_chain prec emax al hf hr Hst _ _ Hch) Hxs Hs Hc Hcnt Hla Htg Hmul Hm1 HLr Hreach Hlam Hr Hrl HQ HQ0 Hroom Hex Hs0 Hbig
    k tau ang Hb0 Htau Hang Hang0 Ht0 Hign Hk) as (h' & xs' & js' & H1 & (Hf' & Hx' & Hs' & Ho') & H3).
  assert (Hc' : chain_of h' (rev l) arm) by (eapply frozen_chain; [exact Hf'|apply (stand_chain prec emax al hf hr Hst), Hch]).
  destruct (run_positions t h' nx arm _ Hc') as (qf & Hqf & _ & Epos).
  exists h', qf, (posns js'). split; [exact H1|]. split; [exact Hqf|]. split; [|split; [rewrite !nmov_posns; apply others_nmov, Ho'|exact H3]].
  pose proof (movable_vals prec emax al h' (rev l) xs' js' Hx' Hs') as Hv. destruct Hc' as (_ & Hmv & _).
  destruct (positions_list h' _ _ Hv) as (qf' & G1 & G2). replace qf with qf'; [exact G2|].
  apply some_inj_list. rewrite Epos, Hmv. clear -G1. induction G1 as [|a x l' q' (n & Hn & <-) H IH]; [reflexivity|]. cbn [map]. rewrite IH.
  unfold position_at. rewrite Hn. reflexivity.
Qed.
Print Assumptions C77_converges.

(** C77 in numbers, for [f64]: data of the arm, sine and cosine accurate to four roundings
    ([2^-51]); an iteration then errs by at most [2^-39] for each joint, per unit of length and
    of joint position. *)
Corollary C77_f64 (L : libm) (t : nat) ovf la (sv : solver spec_float) (hf : gmap nat (node spec_float)) (hr : gmap nat (node R)) nx arm e l js
    target (c : constraints) cr s' w q tg m tau ang lam Lr r Q k :
  let F := FScalar 53 1024 L in let al := bpow radix2 (-51) in
  libm_within 53 1024 al L -> stand_for 53 1024 al hf hr ->
  path_up hr e l -> chain_of hr (rev l) arm -> joints_of hr (rev l) js ->
  position_only c -> ignored_joint_names c = [] -> count (flags c) = c_dof arm ->
  (forall m b, lu_solve la m b = na_lu_solve m b) ->
  vval 53 1024 (tr target) tg -> val 53 1024 (jacobian_multiplier sv) m ->
  val 53 1024 (allowable_target_distance sv) tau -> val 53 1024 (allowable_target_angle sv) ang ->
  0 < m <= 1 -> 0 < ang -> (1 <= k <= num_max_try sv)%nat ->
  run t (end_transform arm) (quiet hr nx) = Done w (quiet hr nx) ->
  run t (joint_positions arm) (quiet hr nx) = Done q (quiet hr nx) ->
  run t (jacobian arm) (quiet hr nx) = Done (Mat 6 cr) s' ->
  expands (2 * lam) (reduced (flags c) [] cr) -> 0 < lam <= 1 ->
  1 <= Lr <= bpow radix2 880 -> total (map span js) + r + / 1000000000 <= Lr -> 0 <= r -> Lr * r <= lam ->
  1 <= Q -> Forall (fun p => Rabs p + 1 <= Q) q -> Forall (room 53 1024 hf r) (c_movable arm) ->
  let nu := INR (S (length js)) * Lr * Q * bpow radix2 (-39) in
  2048 * Lr * nu <= m * (lam * lam) ->
  let e0 := len (only_constrained c tg (tr w)) in
  64 * (e0 + INR k * nu) <= r * lam ->
  (1 - m / 2) ^ k * e0 + 33 * nu / m < tau ->
  exists h' qf q',
    run t (solve_with_constraints (Sc := F) ovf la sv arm target c) (quiet hf nx) = Done (Ok tt) (quiet h' nx) /\
    run t (joint_positions arm) (quiet h' nx) = Done qf (quiet h' nx) /\
    list_val 53 1024 qf q' /\ length q' = length q /\ norm1 (diff q' q) <= r.
Proof.
  intros F al HL Hst Hpath Hch Hjs Hc Hign Hcnt Hla Htg Hmul Htau Hang Hm1 Hang0 Hk Hw Hq HJ Hex Hlam HLr Hreach Hr Hrl HQ HQ0 Hroom nu Hsmall e0 Hball Htol.
  pose proof u53 as U. pose proof tiny64 as T.
  assert (Eal : al = 4 * unit_roundoff 53) by (unfold al, unit_roundoff; change 4 with (bpow radix2 2); rewrite <- bpow_plus; reflexivity).
  assert (E39 : bpow radix2 (-39) = / 549755813888) by reflexivity.
  set (n := INR (S (length js))) in *. assert (N1 : 1 <= n) by (unfold n; rewrite S_INR; pose proof (pos_INR (length js)); lra).
  assert (LQ : 1 <= Lr * Q) by (replace 1 with (1 * 1) by ring; apply Rmult_le_compat; lra).
  assert (Enu : nu = n * (Lr * Q) * / 549755813888) by (unfold nu; rewrite E39; ring).
  assert (Nn : n * / 549755813888 <= nu).
  { rewrite Enu. apply Rmult_le_compat_r; [lra|]. assert (n * 1 <= n * (Lr * Q)) by (apply Rmult_le_compat_l; lra). lra. }
  assert (ml : 0 < m * (lam * lam) <= 1).
  { assert (L2 : 0 < lam * lam <= 1) by (split; [apply Rmult_lt_0_compat; lra|replace 1 with (1 * 1) by ring; apply Rmult_le_compat; lra]).
    split; [apply Rmult_lt_0_compat; lra|replace 1 with (1 * 1) by ring; apply Rmult_le_compat; lra]. }
  assert (nu0 : 0 < nu) by lra.
  assert (Hn2 : 2048 * nu <= 1) by (assert (1 * nu <= Lr * nu) by (apply Rmult_le_compat_r; lra); lra).
  assert (Q2 : Lr * Q * / 549755813888 <= nu).
  { rewrite Enu. apply Rmult_le_compat_r; [lra|]. assert (1 * (Lr * Q) <= n * (Lr * Q)) by (apply Rmult_le_compat_r; lra). lra. }
  assert (Qb : Q <= bpow radix2 1022).
  { assert (1 * Q <= Lr * Q) by (apply Rmult_le_compat_r; lra). apply Rle_trans with (bpow radix2 39); [change (bpow radix2 39) with 549755813888; lra|apply bpow_le; lia]. }
  assert (L13 : bpow radix2 (-120) <= lam * lam).
  { assert (lam * lam * 1 >= m * (lam * lam)) by (assert (0 <= lam * lam) by (apply Rmult_le_pos; lra); assert (m * (lam * lam) <= 1 * (lam * lam)) by (apply Rmult_le_compat_r; lra); lra).
    assert (bpow radix2 (-39) <= nu) by (rewrite E39; assert (1 * / 549755813888 <= n * / 549755813888) by (apply Rmult_le_compat_r; lra); lra).
    assert (bpow radix2 (-120) <= bpow radix2 (-39)) by (apply bpow_le; lia). assert (1 * nu <= Lr * nu) by (apply Rmult_le_compat_r; lra). lra. }
  apply (C77_converges 53 1024 f64_ok f64_lt L al al t ovf la sv hf hr nx arm e l js target c cr s' w q tg m tau ang lam Lr r Q nu k); try assumption; try lra; try lia.
  - assert (T2 : tiny 1024 <= / 19342813113834066795298816) by (change (/ 19342813113834066795298816) with (bpow radix2 (-84)); unfold tiny; apply bpow_le; lia).
    assert (n <= 549755813888) by (clear -Nn Hn2; lra).
    unfold reach, lost. assert (E : n = INR (length js) + 1) by (unfold n; apply S_INR). pose proof (pos_INR (length js)) as P.
    assert (INR (length js) * (32 * tiny 1024) <= 549755813888 * (32 * / 19342813113834066795298816)) by (clear -P E H T T2; apply Rmult_le_compat; [exact P|lra|lra|apply Rmult_le_compat_l; [lra|exact T2]]). lra.
  - split; [exact HQ|exact Qb].
  - rewrite Eal. pose proof (growth_small 53 ltac:(lia)) as [G0 G1]. set (G := growth 53 (4 * unit_roundoff 53) (4 * unit_roundoff 53)) in *. rewrite U in *.
    assert (EN : INR (16 * S (length js)) = 16 * n) by (rewrite mult_INR; replace (INR 16) with 16 by (cbn; ring); reflexivity).
    assert (P : G ^ (16 * S (length js)) <= 1 + 4096 * n * / 9007199254740992).
    { eapply Rle_trans; [apply (pow_incr _ (1 + 128 * / 9007199254740992)); lra|]. eapply Rle_trans; [apply pow_bound; [lra|]|]; rewrite EN; lra. }
    replace (3 * (G ^ (16 * S (length js)) - 1) * Lr * Q) with (3 * (G ^ (16 * S (length js)) - 1) * (Lr * Q)) by ring.
    apply Rle_trans with (3 * (4096 * n * / 9007199254740992) * (Lr * Q)); [apply Rmult_le_compat_r; lra|]. rewrite Enu.
    assert (0 <= n * (Lr * Q)) by (apply Rmult_le_pos; lra). lra.
  - assert (B : bpow radix2 (1024 - 2) = bpow radix2 902 * bpow radix2 120) by (rewrite <- bpow_plus; reflexivity).
    assert (E : bpow radix2 (-120) * bpow radix2 120 = 1) by (rewrite <- bpow_plus; reflexivity).
    assert (1 <= lam * lam * bpow radix2 120) by (rewrite <- E; apply Rmult_le_compat_r; [apply bpow_ge_0|exact L13]).
    assert (L2 : 2097152 * Lr <= bpow radix2 902).
    { apply Rle_trans with (bpow radix2 21 * bpow radix2 880); [change (bpow radix2 21) with 2097152; apply Rmult_le_compat_l; lra|]. rewrite <- bpow_plus. apply bpow_le. lia. }
    rewrite B. replace (bpow radix2 902 * bpow radix2 120 * (lam * lam)) with (bpow radix2 902 * (lam * lam * bpow radix2 120)) by ring.
    pose proof (bpow_gt_0 radix2 902) as B9. apply Rle_trans with (bpow radix2 902 * 1); [lra|]. apply Rmult_le_compat_l; [lra|assumption].
  - fold e0. rewrite U.
    assert (Fa : faint 53 1024 <= / 1180591620717411303424).
    { unfold faint. rewrite U. replace (/ 1180591620717411303424) with (R_sqrt.sqrt (/ 1180591620717411303424 * / 1180591620717411303424)) by (apply sqrt_square, Rlt_le, Rinv_0_lt_compat; lra).
      apply sqrt_le_1_alt. assert (T3 : tiny 1024 <= bpow radix2 (-193)) by (unfold tiny; apply bpow_le; lia).
      assert (E : bpow radix2 (-193) * 9007199254740992 = / 1180591620717411303424 * / 1180591620717411303424).
      { change 9007199254740992 with (bpow radix2 53). change (/ 1180591620717411303424) with (bpow radix2 (-70)). rewrite <- !bpow_plus. reflexivity. }
      unfold Rdiv. rewrite Rinv_inv, <- E. apply Rmult_le_compat_r; [clear; lra|exact T3]. }
    assert (Hp1 : 0 <= (1 - m / 2) ^ k <= 1).
    { split; [apply pow_le; lra|]. apply Rle_trans with (1 ^ k); [apply pow_incr; lra|rewrite pow1; lra]. }
    assert (E0 : 0 <= e0) by apply len_nonneg. assert (0 <= INR k * nu) by (apply Rmult_le_pos; [apply pos_INR|lra]).
    assert (r * lam <= 1). { assert (1 * r <= Lr * r) by (apply Rmult_le_compat_r; lra). replace 1 with (1 * 1) by ring. apply Rmult_le_compat; lra. }
    assert (A : 0 <= (1 - m / 2) ^ k * e0 <= 1 * e0) by (split; [apply Rmult_le_pos; lra|apply Rmult_le_compat_r; lra]).
    assert (M : nu <= nu / m). { unfold Rdiv. rewrite <- (Rmult_1_r nu) at 1. apply Rmult_le_compat_l; [lra|]. rewrite <- Rinv_1. apply Rinv_le_contravar; lra. }
    unfold Rdiv in *. rewrite Rmult_assoc in Htol |- *. set (nm := nu * / m) in *. lra.
Qed.
Print Assumptions C77_f64.

(** the two slides of C76, from (1, 2), with a target [2^-13] away along x, tolerance [2^-20]
    and multiplier 1/2: twenty iterations suffice *)
Definition half64 : spec_float := S754_finite false 4503599627370496 (-53).
Definition tol64 : spec_float := S754_finite false 4503599627370496 (-72).
Definition shifted64 : spec_float := S754_finite false 4504149383184384 (-52).
Lemma lits : val 53 1024 half64 (/ 2) /\ val 53 1024 tol64 (/ 1048576) /\ val 53 1024 shifted64 (1 + / 8192).
Proof.
  split; [|split]; (split; [reflexivity|]); unfold half64, tol64, shifted64; cbn [sf_value cond_Zopp]; do 2 f_equal.
  - change (bpow radix2 (-53)) with (/ 9007199254740992). field.
  - change (bpow radix2 (-72)) with (/ 4722366482869645213696). field.
  - change (bpow radix2 (-52)) with (/ 4503599627370496). field.
Qed.
Definition aside : iso spec_float := Iso (V3 shifted64 (z64 2) (z64 1)) (@q1 _ (F64 L64)).
Example C77_case (t nx : nat) ovf svd pinv : let F := F64 L64 in
  exists h' qf q',
    run t (solve_with_constraints ovf (Linalg na_lu_solve svd pinv) (Solver tol64 (z64 1) half64 100 None) table_chain aside plane) (quiet xy_float nx) = Done (Ok tt) (quiet h' nx) /\
    run t (joint_positions table_chain) (quiet h' nx) = Done qf (quiet h' nx) /\
    list_val 53 1024 qf q' /\ norm1 (diff q' [1; 2]) <= / 20.
Proof.
  intros F. destruct z64_ok as (V0 & V1 & V2 & _). destruct lits as (W1 & W2 & W3). destruct (xy_run t nx) as [s' HJ]. destruct xy_arm as (Hpath & Hch & _).
  assert (Hjs : joints_of (xy_heap 1 2) (rev [1%nat; 0%nat]) (xy 1 2)) by (repeat (constructor; [eexists; split; reflexivity|]); constructor).
  assert (Ht : total (map span (xy 1 2)) = 4).
  { unfold xy. cbn [map]. rewrite !ReachProofs.total_cons. unfold span, extension, jt. cbn [j_type j_origin j_position tr].
    change (@szero R RScalar) with 0. unfold len, inner. cbn [vx vy vz].
    replace (0 * 0 + 0 * 0 + 1 * 1) with (1 * 1) by ring. replace (0 * 0 + 0 * 0 + 0 * 0) with (0 * 0) by ring.
    rewrite !sqrt_square by lra. rewrite (Rabs_pos_eq 1), (Rabs_pos_eq 2) by lra. cbn. ring. }
  assert (Hu : Forall unit_joint (xy 1 2)).
  { destruct (stand_joints 53 1024 _ _ _ xy_stands _ _ Hjs) as (xs & _ & Hs). exact (stands_unit _ _ _ _ _ Hs). }
  pose proof (ReachProofs.run_end_joints t (xy_heap 1 2) nx table_chain (xy 1 2) Hjs) as Hw.
  destruct (run_positions t (xy_heap 1 2) nx table_chain _ Hch) as (q & Hq & _).
  pose proof (start_positions t (xy_heap 1 2) nx table_chain [1%nat; 0%nat] (xy 1 2) q _ Hch Hjs Hq) as E. change (posns (xy 1 2)) with [1; 2] in E. subst q.
  set (w := product iso1 (map local_transform (xy 1 2))) in *.
  assert (Ew : tr w = V3 1 2 1).
  { unfold w. rewrite ReachProofs.tip_tr by exact Hu. unfold xy, jt. cbn [ReachProofs.tip]. unfold local_transform. cbn [j_type j_origin j_position joint_transform]. gv; ring. }
  assert (E0 : len (only_constrained plane (V3 (1 + / 8192) 2 1) (tr w)) = / 8192).
  { rewrite Ew. unfold len, only_constrained, inner. cbn [plane position_x position_y position_z vx vy vz].
    replace ((1 + / 8192 - 1) * (1 + / 8192 - 1) + (2 - 2) * (2 - 2) + 0 * 0) with (/ 8192 * / 8192) by field. apply sqrt_square. lra. }
  assert (E39 : bpow radix2 (-39) = / 549755813888) by reflexivity.
  assert (En : INR (S (length (xy 1 2))) = 3) by (cbn; ring).
  destruct (C77_f64 L64 t ovf (Linalg (@na_lu_solve _ F) svd pinv) (Solver tol64 (z64 1) half64 100 None) xy_float (xy_heap 1 2) nx table_chain 1%nat [1%nat; 0%nat] (xy 1 2)
    aside plane [[1; 0; 0; 0; 0; 0]; [0; 1; 0; 0; 0; 0]] s' w [1; 2] (V3 (1 + / 8192) 2 1) (/ 2) (/ 1048576) 1 (/ 4) 5 (/ 20) 3 20) as (h' & qf & q' & G1 & G2 & G3 & _ & G5);
    rewrite ?E0, ?En, ?E39; try assumption; try reflexivity; try lra.
  - intros y rr Hy. destruct (good_libm_ok 53 1024 f64_ok f64_lt ltac:(lia) y rr Hy) as [(s & Hs & Es) (k & Hk & Ek)].
    assert (El : bpow radix2 (-51) = 4 * unit_roundoff 53) by (unfold unit_roundoff; change 4 with (bpow radix2 2); rewrite <- bpow_plus; reflexivity).
    pose proof u53 as U. split; [exists s|exists k]; (split; [assumption|rewrite El in *; lra]).
  - replace (bpow radix2 (-51)) with (4 * unit_roundoff 53) by (unfold unit_roundoff; change 4 with (bpow radix2 2); rewrite <- bpow_plus; reflexivity). exact xy_stands.
  - split; [|split]; reflexivity.
  - split; [|split]; assumption.
  - cbn. lia.
  - intros [|x1 [|x2 [|x3 x]]] e E He0 H; try discriminate. cbn in H. apply Forall_cons in H as [H1 H]. apply Forall_cons in H as [H2 _]. cbn [norm1].
    apply Rabs_le_inv in H1, H2. assert (Rabs x1 <= e) by (apply Rabs_le; lra). assert (Rabs x2 <= e) by (apply Rabs_le; lra). lra.
  - split; [lra|]. apply Rle_trans with (bpow radix2 3); [change (bpow radix2 3) with 8; lra|apply bpow_le; lia].
  - rewrite !Forall_cons. rewrite (Rabs_pos_eq 1), (Rabs_pos_eq 2) by lra. split; [lra|]. split; [lra|constructor].
  - apply Forall_forall. intros a Ha n lim Hn Hlim. assert (Ha' : a = 0%nat \/ a = 1%nat) by (clear -Ha; cbn in Ha; set_solver).
    destruct Ha' as [-> | ->]; apply Some_inj in Hn as <-; discriminate.
  - replace (INR 20) with 20 by (cbn; ring). lra.
  - exists h', qf, q'. auto.
Qed.
