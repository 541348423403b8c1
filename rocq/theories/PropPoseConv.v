(** * C82: the solver converges to a full pose in floating point *)
From Coq Require Import String Reals ZArith Lra Lia Psatz Sorting.Sorted Floats.SpecFloat.
From Flocq Require Import Core IEEE754.BinarySingleNaN.
From stdpp Require Import gmap.
From Verif Require ReachProofs.
From Verif Require Import Scalar ScalarR ScalarF Geometry Joint Link Prog NodeM ChainM FuncsM IkM LuM RunLemmas
  SpecJoint SpecNode SpecGraph SpecChain GraphProofs SpecFK FKProofs SpecGeom RGeom GeomProofs JacReal SpecReach IkProofs IkProofs2 SpecIk StepProofs ChainProofs
  SpecStep SpecLin SpecValues SpecFloatErr FloatErr FloatBack SpecAcc AccProofs AccProofs2 PropAcc SpecJacAcc AccJac PropJacAcc PropStep SpecSolved SolvedProofs SolvedProofs2
  LinAlgR LinArm LinIk TrajProofs PropTraj ConvReg SpecLuAcc LuAcc PropLu PropLuAcc PropSolved ConvGeom ConvRot ConvList ConvStep ConvIk PropConv SpecConvAcc FConvJac FConvCore FConvStep FConvOne FConvLoop PropConvAcc
  PoseFwd FPoseCore FPoseNum FPoseLoop.
Local Open Scope R_scope.

(** C82: as C77, for a full pose.  Let the float arm stand for an ideal serial arm as in C60,
    let all rotations be constrained and any of the positions, with as many joints as
    constrained coordinates, let the Jacobian of the ideal arm be far from singular at the
    start, and let every joint be [r] away from its limits.  The float target stands for the
    ideal pose [Tg], its rotation up to [beta].  [nu] bounds the rounding errors of one
    iteration.  If the ideal end starts close enough to the target, and both tolerances are
    above the rounding errors, then the float solver with the LU solve answers [Ok] within [k]
    iterations, and no joint has moved by more than [r]. *)
Theorem C82_converges prec emax (Hp : Prec_gt_0 prec) (Hm : Prec_lt_emax prec emax) (L : libm) al d
    (t : nat) ovf la (sv : solver spec_float) (hf : gmap nat (node spec_float)) (hr : gmap nat (node R)) nx arm e l js
    target (c : constraints) cr s' w q Tg beta da m tau ang lam Lr r Q nu k :
  let F := FScalar prec emax L in
  let u := unit_roundoff prec in let BIG := bpow radix2 (emax - 2) in
  (11 <= prec)%Z -> 0 <= al -> 0 <= d -> libm_within prec emax d L -> 0 <= da <= 1 -> atan2_within prec emax da L -> stand_for prec emax al hf hr ->
  path_up hr e l -> chain_of hr (rev l) arm -> joints_of hr (rev l) js ->
  fully_oriented c -> ignored_joint_names c = [] -> count (flags c) = c_dof arm ->
  (forall m b, lu_solve la m b = na_lu_solve m b) ->
  vval prec emax (tr target) (tr Tg) -> near_quat prec emax beta (rt target) (rt Tg) -> val prec emax (jacobian_multiplier sv) m ->
  val prec emax (allowable_target_distance sv) tau -> val prec emax (allowable_target_angle sv) ang ->
  0 < m <= 1 -> (1 <= k <= num_max_try sv)%nat ->
  run t (end_transform arm) (quiet hr nx) = Done w (quiet hr nx) ->
  run t (joint_positions arm) (quiet hr nx) = Done q (quiet hr nx) ->
  run t (jacobian arm) (quiet hr nx) = Done (Mat 6 cr) s' ->
  expands (2 * lam) (reduced (flags c) [] cr) -> 0 < lam <= 1 ->
  1 <= Lr -> reach emax js + r <= Lr -> 0 <= r -> Lr * r <= lam ->
  1 <= Q <= BIG -> Forall (fun p => Rabs p + 1 <= Q) q -> Forall (room prec emax hf r) (c_movable arm) ->
  512 * ((growth prec al d ^ (16 * S (length js)) - 1) * Lr + beta + da + faint prec emax) * Q <= nu ->
  65536 * Lr * nu <= m * (lam * lam) -> 1073741824 * Lr <= BIG * (lam * lam) ->
  let e0 := norm (flagged (flags c) (pose_error Tg w)) in
  512 * (e0 + INR k * nu) <= r * lam ->
  (1 + 8 * u) * ((1 - m / 2) ^ k * e0 + 128 * nu / m) + faint prec emax < tau ->
  (1 + 8 * u) * ((1 - m / 2) ^ k * e0 + 128 * nu / m) + faint prec emax < ang ->
  exists h' qf q',
    run t (solve_with_constraints (Sc := F) ovf la sv arm target c) (quiet hf nx) = Done (Ok tt) (quiet h' nx) /\
    run t (joint_positions arm) (quiet h' nx) = Done qf (quiet h' nx) /\
    list_val prec emax qf q' /\ length q' = length q /\ norm1 (diff q' q) <= r.
Proof.
  intros F u BIG Hprec Hal Hd HL Hda Hat Hst Hpath Hch Hjs Hc Hign Hcnt Hla Htg Htq Hmul Htau Hang Hm1 Hk Hw Hq HJ Hex Hlam HLr Hreach Hr Hrl HQ HQ0 Hroom Hnu Hsmall Hbig e0 Hball Htol Htola.
  destruct (stand_joints prec emax al hf hr Hst _ _ Hjs) as (xs & Hxs & Hs). pose proof (stands_unit _ _ _ _ _ Hs) as Hu.
  assert (Hja : joints_at hr (rev l) js) by exact Hjs.
  pose proof (start_positions t hr nx arm l js q _ Hch Hja Hq) as ->.
  pose proof (start_end t hr nx arm l js w Hch Hja Hw) as Ew.
  assert (Ej : reduced (flags c) [] cr = jac c js).
  { destruct (serial_jacobian t hr nx arm e l js Hpath Hch Hja) as (h1 & HJ1). rewrite HJ in HJ1. injection HJ1 as -> _. reflexivity. }
  rewrite Ej in Hex.
  set (eps := 512 * ((growth prec al d ^ (16 * S (length js)) - 1) * Lr + beta + da + faint prec emax)) in *.
  assert (Hs0 : 65536 * Lr * (eps * Q) <= m * (lam * lam)) by (assert (65536 * Lr * (eps * Q) <= 65536 * Lr * nu) by (apply Rmult_le_compat_l; lra); lra).
  assert (Hb0 : 512 * (norm (flagged (flags c) (pose_error Tg (end_at iso1 js))) + INR k * (eps * Q)) <= r * lam).
  { rewrite <- Ew. fold e0. assert (INR k * (eps * Q) <= INR k * nu) by (apply Rmult_le_compat_l; [apply pos_INR|exact Hnu]). lra. }
  assert (U : 0 < u) by apply bpow_gt_0.
  assert (Hle : (1 + 8 * u) * ((1 - m / 2) ^ k * norm (flagged (flags c) (pose_error Tg (end_at iso1 js))) + 128 * (eps * Q) / m) + faint prec emax
    <= (1 + 8 * u) * ((1 - m / 2) ^ k * e0 + 128 * nu / m) + faint prec emax).
  { rewrite <- Ew. fold e0. apply Rplus_le_compat_r, Rmult_le_compat_l; [lra|]. apply Rplus_le_compat_l. unfold Rdiv. apply Rmult_le_compat_r; [left; apply Rinv_0_lt_compat; lra|lra]. }
  destruct (pconv_solve prec emax Hp Hm L Hprec al d Hal Hd HL t ovf hf nx arm e l target c la sv xs js Tg beta da eps m Lr r Q lam
    (stand_path prec emax al hf hr Hst _ _ Hpath) (stand_chain prec emax al hf hr Hst _ _ Hch) Hxs Hs Hc Hcnt Hla Htg Htq Hda Hat Hmul Hm1 HLr Hreach Hlam Hr Hrl HQ HQ0 Hroom Hex (Rle_refl eps) Hs0 Hbig
    k tau ang Hb0 Htau Hang (Rle_lt_trans _ _ _ Hle Htol) (Rle_lt_trans _ _ _ Hle Htola) Hign Hk) as (h' & xs' & js' & H1 & (Hf' & Hx' & Hs' & Ho') & H3).
  assert (Hc' : chain_of h' (rev l) arm) by (eapply frozen_chain; [exact Hf'|apply (stand_chain prec emax al hf hr Hst), Hch]).
  destruct (run_positions t h' nx arm _ Hc') as (qf & Hqf & _ & Epos).
  exists h', qf, (posns js'). split; [exact H1|]. split; [exact Hqf|]. split; [|split; [rewrite !nmov_posns; apply others_nmov, Ho'|exact H3]].
  pose proof (movable_vals prec emax al h' (rev l) xs' js' Hx' Hs') as Hv. destruct Hc' as (_ & Hmv & _).
  destruct (positions_list h' _ _ Hv) as (qf' & G1 & G2). replace qf with qf'; [exact G2|].
  apply some_inj_list. rewrite Epos, Hmv. clear -G1. induction G1 as [|a x l' q' (n & Hn & <-) H IH]; [reflexivity|]. cbn [map]. rewrite IH.
  unfold position_at. rewrite Hn. reflexivity.
Qed.
Print Assumptions C82_converges.

(** C82 in numbers, for [f64]: data of the arm and the target, sine, cosine and [atan2] accurate
    to four roundings ([2^-51]); an iteration then errs by at most [2^-31] for each joint, per
    unit of length and of joint position. *)
Corollary C82_f64 (L : libm) (t : nat) ovf la (sv : solver spec_float) (hf : gmap nat (node spec_float)) (hr : gmap nat (node R)) nx arm e l js
    target (c : constraints) cr s' w q Tg m tau ang lam Lr r Q k :
  let F := FScalar 53 1024 L in let al := bpow radix2 (-51) in
  libm_within 53 1024 al L -> atan2_within 53 1024 al L -> stand_for 53 1024 al hf hr ->
  path_up hr e l -> chain_of hr (rev l) arm -> joints_of hr (rev l) js ->
  fully_oriented c -> ignored_joint_names c = [] -> count (flags c) = c_dof arm ->
  (forall m b, lu_solve la m b = na_lu_solve m b) ->
  vval 53 1024 (tr target) (tr Tg) -> near_quat 53 1024 al (rt target) (rt Tg) -> val 53 1024 (jacobian_multiplier sv) m ->
  val 53 1024 (allowable_target_distance sv) tau -> val 53 1024 (allowable_target_angle sv) ang ->
  0 < m <= 1 -> (1 <= k <= num_max_try sv)%nat ->
  run t (end_transform arm) (quiet hr nx) = Done w (quiet hr nx) ->
  run t (joint_positions arm) (quiet hr nx) = Done q (quiet hr nx) ->
  run t (jacobian arm) (quiet hr nx) = Done (Mat 6 cr) s' ->
  expands (2 * lam) (reduced (flags c) [] cr) -> 0 < lam <= 1 ->
  1 <= Lr <= bpow radix2 870 -> total (map span js) + r + / 1000000000 <= Lr -> 0 <= r -> Lr * r <= lam ->
  1 <= Q -> Forall (fun p => Rabs p + 1 <= Q) q -> Forall (room 53 1024 hf r) (c_movable arm) ->
  let nu := INR (S (length js)) * Lr * Q * bpow radix2 (-31) in
  65536 * Lr * nu <= m * (lam * lam) ->
  let e0 := norm (flagged (flags c) (pose_error Tg w)) in
  512 * (e0 + INR k * nu) <= r * lam ->
  (1 - m / 2) ^ k * e0 + 129 * nu / m < tau -> (1 - m / 2) ^ k * e0 + 129 * nu / m < ang ->
  exists h' qf q',
    run t (solve_with_constraints (Sc := F) ovf la sv arm target c) (quiet hf nx) = Done (Ok tt) (quiet h' nx) /\
    run t (joint_positions arm) (quiet h' nx) = Done qf (quiet h' nx) /\
    list_val 53 1024 qf q' /\ length q' = length q /\ norm1 (diff q' q) <= r.
Proof.
  intros F al HL Hat Hst Hpath Hch Hjs Hc Hign Hcnt Hla Htg Htq Hmul Htau Hang Hm1 Hk Hw Hq HJ Hex Hlam HLr Hreach Hr Hrl HQ HQ0 Hroom nu Hsmall e0 Hball Htol Htola.
  pose proof u53 as U. pose proof tiny64 as T.
  assert (Eal : al = 4 * unit_roundoff 53) by (unfold al, unit_roundoff; change 4 with (bpow radix2 2); rewrite <- bpow_plus; reflexivity).
  assert (E31 : bpow radix2 (-31) = / 2147483648) by reflexivity.
  set (n := INR (S (length js))) in *. assert (N1 : 1 <= n) by (unfold n; rewrite S_INR; pose proof (pos_INR (length js)); lra).
  assert (LQ : 1 <= Lr * Q) by (replace 1 with (1 * 1) by ring; apply Rmult_le_compat; lra).
  assert (Enu : nu = n * (Lr * Q) * / 2147483648) by (unfold nu; rewrite E31; ring).
  assert (Nn : n * / 2147483648 <= nu).
  { rewrite Enu. apply Rmult_le_compat_r; [lra|]. assert (n * 1 <= n * (Lr * Q)) by (apply Rmult_le_compat_l; lra). lra. }
  assert (ml : 0 < m * (lam * lam) <= 1).
  { assert (L2 : 0 < lam * lam <= 1) by (split; [apply Rmult_lt_0_compat; lra|replace 1 with (1 * 1) by ring; apply Rmult_le_compat; lra]).
    split; [apply Rmult_lt_0_compat; lra|replace 1 with (1 * 1) by ring; apply Rmult_le_compat; lra]. }
  assert (nu0 : 0 < nu) by lra.
  assert (Hn2 : 65536 * nu <= 1) by (assert (1 * nu <= Lr * nu) by (apply Rmult_le_compat_r; lra); lra).
  assert (Q2 : Lr * Q * / 2147483648 <= nu).
  { rewrite Enu. apply Rmult_le_compat_r; [lra|]. assert (1 * (Lr * Q) <= n * (Lr * Q)) by (apply Rmult_le_compat_r; lra). lra. }
  assert (Qb : Q <= bpow radix2 1022).
  { assert (1 * Q <= Lr * Q) by (apply Rmult_le_compat_r; lra). apply Rle_trans with (bpow radix2 31); [change (bpow radix2 31) with 2147483648; lra|apply bpow_le; lia]. }
  assert (L13 : bpow radix2 (-120) <= lam * lam).
  { assert (lam * lam * 1 >= m * (lam * lam)) by (assert (0 <= lam * lam) by (apply Rmult_le_pos; lra); assert (m * (lam * lam) <= 1 * (lam * lam)) by (apply Rmult_le_compat_r; lra); lra).
    assert (bpow radix2 (-31) <= nu) by (rewrite E31; assert (1 * / 2147483648 <= n * / 2147483648) by (apply Rmult_le_compat_r; lra); lra).
    assert (bpow radix2 (-120) <= bpow radix2 (-31)) by (apply bpow_le; lia). assert (1 * nu <= Lr * nu) by (apply Rmult_le_compat_r; lra). lra. }
  assert (Fa : faint 53 1024 <= / 1180591620717411303424).
  { unfold faint. rewrite U. replace (/ 1180591620717411303424) with (R_sqrt.sqrt (/ 1180591620717411303424 * / 1180591620717411303424)) by (apply sqrt_square, Rlt_le, Rinv_0_lt_compat; lra).
    apply sqrt_le_1_alt. assert (T3 : tiny 1024 <= bpow radix2 (-193)) by (unfold tiny; apply bpow_le; lia).
    assert (E : bpow radix2 (-193) * 9007199254740992 = / 1180591620717411303424 * / 1180591620717411303424).
    { change 9007199254740992 with (bpow radix2 53). change (/ 1180591620717411303424) with (bpow radix2 (-70)). rewrite <- !bpow_plus. reflexivity. }
    unfold Rdiv. rewrite Rinv_inv, <- E. apply Rmult_le_compat_r; [clear; lra|exact T3]. }
  assert (Hp1 : 0 <= (1 - m / 2) ^ k <= 1).
  { split; [apply pow_le; lra|]. apply Rle_trans with (1 ^ k); [apply pow_incr; lra|rewrite pow1; lra]. }
  assert (E0 : 0 <= e0) by apply norm_nonneg. assert (Hkn : 0 <= INR k * nu) by (apply Rmult_le_pos; [apply pos_INR|lra]).
  assert (Hrl1 : r * lam <= 1). { assert (1 * r <= Lr * r) by (apply Rmult_le_compat_r; lra). replace 1 with (1 * 1) by ring. apply Rmult_le_compat; lra. }
  assert (A : 0 <= (1 - m / 2) ^ k * e0 <= 1 * e0) by (split; [apply Rmult_le_pos; lra|apply Rmult_le_compat_r; lra]).
  assert (M : nu <= nu / m). { unfold Rdiv. rewrite <- (Rmult_1_r nu) at 1. apply Rmult_le_compat_l; [lra|]. rewrite <- Rinv_1. apply Rinv_le_contravar; lra. }
  assert (Hle : (1 + 8 * unit_roundoff 53) * ((1 - m / 2) ^ k * e0 + 128 * nu / m) + faint 53 1024 <= (1 - m / 2) ^ k * e0 + 129 * nu / m).
  { rewrite U. unfold Rdiv in *. rewrite !Rmult_assoc. set (nm := nu * / m) in *. lra. }
  apply (C82_converges 53 1024 f64_ok f64_lt L al al t ovf la sv hf hr nx arm e l js target c cr s' w q Tg al al m tau ang lam Lr r Q nu k); try assumption; try lra; try lia.
  - assert (T2 : tiny 1024 <= / 19342813113834066795298816) by (change (/ 19342813113834066795298816) with (bpow radix2 (-84)); unfold tiny; apply bpow_le; lia).
    assert (Hn : n <= 2147483648) by (clear -Nn Hn2; lra).
    unfold reach, lost. assert (E : n = INR (length js) + 1) by (unfold n; apply S_INR). pose proof (pos_INR (length js)) as P.
    assert (INR (length js) * (32 * tiny 1024) <= 2147483648 * (32 * / 19342813113834066795298816)) by (clear -P E Hn T T2; apply Rmult_le_compat; [exact P|lra|lra|apply Rmult_le_compat_l; [lra|exact T2]]). lra.
  - split; [exact HQ|exact Qb].
  - rewrite Eal. pose proof (growth_small 53 ltac:(lia)) as [G0 G1]. set (G := growth 53 (4 * unit_roundoff 53) (4 * unit_roundoff 53)) in *. rewrite U in *.
    assert (EN : INR (16 * S (length js)) = 16 * n) by (rewrite mult_INR; replace (INR 16) with 16 by (cbn; ring); reflexivity).
    assert (P : G ^ (16 * S (length js)) <= 1 + 4096 * n * / 9007199254740992).
    { eapply Rle_trans; [apply (pow_incr _ (1 + 128 * / 9007199254740992)); lra|]. eapply Rle_trans; [apply pow_bound; [lra|]|]; rewrite EN; lra. }
    assert (P2 : (G ^ (16 * S (length js)) - 1) * Lr <= 4096 * n * / 9007199254740992 * Lr) by (apply Rmult_le_compat_r; lra).
    assert (NL : n * 1 <= n * Lr) by (apply Rmult_le_compat_l; lra).
    replace nu with (n * Lr * / 2147483648 * Q) by (rewrite Enu; ring). apply Rmult_le_compat_r; lra.
  - assert (B : bpow radix2 (1024 - 2) = bpow radix2 902 * bpow radix2 120) by (rewrite <- bpow_plus; reflexivity).
    assert (E : bpow radix2 (-120) * bpow radix2 120 = 1) by (rewrite <- bpow_plus; reflexivity).
    assert (1 <= lam * lam * bpow radix2 120) by (rewrite <- E; apply Rmult_le_compat_r; [apply bpow_ge_0|exact L13]).
    assert (L2 : 1073741824 * Lr <= bpow radix2 902).
    { apply Rle_trans with (bpow radix2 30 * bpow radix2 870); [change (bpow radix2 30) with 1073741824; apply Rmult_le_compat_l; lra|]. rewrite <- bpow_plus. apply bpow_le. lia. }
    rewrite B. replace (bpow radix2 902 * bpow radix2 120 * (lam * lam)) with (bpow radix2 902 * (lam * lam * bpow radix2 120)) by ring.
    pose proof (bpow_gt_0 radix2 902) as B9. apply Rle_trans with (bpow radix2 902 * 1); [lra|]. apply Rmult_le_compat_l; [lra|assumption].
  - exact (Rle_lt_trans _ _ _ Hle Htol).
  - exact (Rle_lt_trans _ _ _ Hle Htola).
Qed.
Print Assumptions C82_f64.


(** the arm of C65 and C71, three slides and a wrist of three hinges, in [f64]; the target is
    [2^-20] to the side and turned by about [2^-19] about z *)
Definition faxle (nm : string) (ty : joint_type spec_float) : joint spec_float :=
  Joint nm ty (z64 0) (z64 0) (Some (Range (SFopp (z64 1)) (z64 1))) (@iso1 _ (F64 LA)) None None.
Definition fsix : list (joint spec_float) :=
  [faxle "x" (Linear (V3 (z64 1) (z64 0) (z64 0))); faxle "y" (Linear (V3 (z64 0) (z64 1) (z64 0))); faxle "z" (Linear (V3 (z64 0) (z64 0) (z64 1)));
   faxle "yaw" (Rotational (V3 (z64 0) (z64 0) (z64 1))); faxle "pitch" (Rotational (V3 (z64 0) (z64 1) (z64 0))); faxle "roll" (Rotational (V3 (z64 1) (z64 0) (z64 0)))].
Definition fnode_six (i : nat) (j : joint spec_float) : node spec_float :=
  of_joint j (match i with O => None | S k => Some k end) (if decide (i < 5)%nat then [S i] else []).
Definition frobot6 : gmap nat (node spec_float) := list_to_map (imap (fun i j => (i, fnode_six i j)) fsix).
Definition tiny20 : spec_float := S754_finite false 4503599627370496 (-72).
Definition tiny19 : spec_float := S754_finite false 4503599627370496 (-71).
Definition near1 : spec_float := S754_finite false 9007199254736896 (-53).
Definition bent : iso spec_float := Iso (V3 tiny20 (z64 0) (z64 0)) (Qt (z64 0) (z64 0) tiny20 near1).
Definition bent_ideal : iso R := Iso (V3 (/ 1048576) 0 0) (Qt 0 0 (/ 1048576) (R_sqrt.sqrt (1 - / 1048576 * / 1048576))).
Lemma lits6 : val 53 1024 tiny20 (/ 1048576) /\ val 53 1024 tiny19 (/ 524288) /\ val 53 1024 near1 (1 - / 2199023255552) /\ val 53 1024 (SFopp (z64 1)) (- (1)).
Proof.
  destruct z64_ok as (_ & V1 & _).
  split; [|split; [|split]]; (split; [reflexivity|]); unfold tiny20, tiny19, near1; cbn [sf_value cond_Zopp].
  - do 2 f_equal. change (bpow radix2 (-72)) with (/ 4722366482869645213696). field.
  - do 2 f_equal. change (bpow radix2 (-71)) with (/ 2361183241434822606848). field.
  - do 2 f_equal. change (bpow radix2 (-53)) with (/ 9007199254740992). field.
  - unfold z64. replace (SFofZ 53 1024 1) with (S754_finite false 4503599627370496 (-52)) by reflexivity. cbn [SFopp sf_value negb cond_Zopp]. do 2 f_equal.
    change (bpow radix2 (-52)) with (/ 4503599627370496). rewrite opp_IZR. field.
Qed.
Lemma six_stands d : 0 <= d -> stand_for 53 1024 d frobot6 robot6.
Proof.
  intros Hd. destruct z64_ok as (V0 & V1 & _).
  assert (Hq : near_quat 53 1024 d (@q1 _ (F64 LA)) q1) by (apply near_id, Hd).
  assert (Va : forall x y z (a b c : R), val 53 1024 x a -> val 53 1024 y b -> val 53 1024 z c -> unit_axis (V3 a b c) -> near_axis 53 1024 d (V3 x y z) (V3 a b c)).
  { intros x y z a b c Hx Hy Hz Hu. split; [exact Hu|]. exists (V3 a b c). rewrite dist_self. split; [|exact Hd]. split; [|split]; assumption. }
  assert (Hv : vval 53 1024 (tr (@iso1 _ (F64 LA))) (tr (@iso1 R RScalar))) by (split; [|split]; exact V0).
  intros a. do 6 (destruct a as [|a]; [split; [reflexivity|]; split; [apply Va; try assumption; unfold unit_axis; cbn; ring|]; split; [exact V0|]; split; [exact Hv|exact Hq]|]).
  unfold frobot6, robot6. rewrite !not_elem_of_list_to_map_1; [exact I| |]; change (S (S (S (S (S (S a))))) ∉ [0; 1; 2; 3; 4; 5]%nat); set_unfold; lia.
Qed.
Lemma bent_proper : proper bent_ideal.
Proof.
  unfold proper, unit_quat, bent_ideal. cbn [rt qi qj qk qw]. rewrite sqrt_sqrt by lra. ring.
Qed.
Lemma bent_near d : / 2251799813685248 <= d -> near_quat 53 1024 d (rt bent) (rt bent_ideal).
Proof.
  intros Hd. split; [exact bent_proper|]. destruct z64_ok as (V0 & _). destruct lits6 as (W1 & _ & W3 & _).
  exists (Qt 0 0 (/ 1048576) (1 - / 2199023255552)). split; [split; [exact V0|split; [exact V0|split; [exact W1|exact W3]]]|]. eapply Rle_trans; [|exact Hd].
  unfold qdist, bent_ideal. cbn [rt qi qj qk qw]. set (c := R_sqrt.sqrt (1 - / 1048576 * / 1048576)).
  assert (Ec : c * c = 1 - / 1048576 * / 1048576) by (apply sqrt_sqrt; lra). assert (C0 : 0 <= c) by apply sqrt_pos.
  assert (C1 : 1 - / 2199023255552 - / 2251799813685248 <= c).
  { destruct (Rle_or_lt (1 - / 2199023255552 - / 2251799813685248) c) as [|Hn]; [assumption|exfalso].
    assert (c * c <= (1 - / 2199023255552 - / 2251799813685248) * (1 - / 2199023255552 - / 2251799813685248)) by (apply Rmult_le_compat; lra). lra. }
  assert (C2 : c <= 1 - / 2199023255552).
  { destruct (Rle_or_lt c (1 - / 2199023255552)) as [|Hn]; [assumption|exfalso].
    assert ((1 - / 2199023255552) * (1 - / 2199023255552) <= c * c) by (apply Rmult_le_compat; lra). lra. }
  rewrite <- (sqrt_square (/ 2251799813685248)) by lra. apply sqrt_le_1_alt. set (x := 1 - / 2199023255552 - c). assert (0 <= x <= / 2251799813685248) by (unfold x; lra).
  assert (x * x <= / 2251799813685248 * / 2251799813685248) by (apply Rmult_le_compat; lra). lra.
Qed.
Lemma bent_err : norm (flagged (flags all_six) (pose_error bent_ideal iso1)) <= / 200000.
Proof.
  set (P := qmul (rt bent_ideal) (qconj (rt (@iso1 R RScalar)))).
  assert (EP : P = rt bent_ideal) by (unfold P, bent_ideal; unfold qmul, qconj, iso1, q1; cbn [rt qi qj qk qw]; f_equal; cbn; ring).
  assert (Hl : len (qvec P) = / 1048576).
  { rewrite EP. unfold len, inner, qvec, bent_ideal. cbn [rt qi qj qk vx vy vz]. replace (0 * 0 + 0 * 0 + / 1048576 * / 1048576) with (/ 1048576 * / 1048576) by ring. apply sqrt_square. lra. }
  assert (Hu : unit_quat P) by (rewrite EP; exact bent_proper).
  destruct (ang_range P Hu) as [A1 A2]. pose proof (sin_half_low (ang P / 2) ltac:(lra)) as H2. rewrite <- qvec_sin, Hl in H2 by exact Hu.
  apply norm_le_of_sqr; [lra|]. unfold pose_error. fold P. pose proof (len_sqr (qscaled_axis P)) as E. fold (ang P) in E. unfold inner in E.
  assert (B : ang P * ang P <= 4 * / 1048576 * (4 * / 1048576)) by (apply Rmult_le_compat; lra).
  cbn [flags all_six position_x position_y position_z rotation_x rotation_y rotation_z flagged dot bent_ideal iso1 tr vx vy vz]. unfold flagged, dot. cbn.
  lra.
Qed.
Example C82_case (t nx : nat) ovf svd pinv : let F := F64 LA in
  exists h' qf q',
    run t (solve_with_constraints ovf (Linalg na_lu_solve svd pinv) (Solver tiny19 tiny19 half64 100 None) arm6 bent all_six) (quiet frobot6 nx) = Done (Ok tt) (quiet h' nx) /\
    run t (joint_positions arm6) (quiet h' nx) = Done qf (quiet h' nx) /\
    list_val 53 1024 qf q' /\ norm1 (diff q' [0; 0; 0; 0; 0; 0]) <= / 24.
Proof.
  intros F. destruct z64_ok as (V0 & V1 & _). destruct lits as (W1 & _). destruct lits6 as (T20 & T19 & _ & M1).
  destruct (serial_jacobian t robot6 nx arm6 5%nat [5; 4; 3; 2; 1; 0]%nat six robot6_path six_chain six_joints) as (h1 & HJ). rewrite six_cols in HJ.
  assert (Hw : run t (end_transform arm6) (quiet robot6 nx) = Done iso1 (quiet robot6 nx)).
  { rewrite <- six_end. unfold end_transform, end_at. apply run_end_fold, joints_locals, six_joints. }
  destruct (run_positions t robot6 nx arm6 _ six_chain) as (q0 & Hq & _).
  pose proof (start_positions t robot6 nx arm6 _ six q0 _ six_chain six_joints Hq) as E0. change (posns six) with [0; 0; 0; 0; 0; 0] in E0. subst q0.
  pose proof bent_err as Herr. pose proof (norm_nonneg (flagged (flags all_six) (pose_error bent_ideal iso1))) as Herr0.
  assert (E31 : bpow radix2 (-31) = / 2147483648) by reflexivity.
  assert (E51 : bpow radix2 (-51) = 4 * unit_roundoff 53) by (unfold unit_roundoff; change 4 with (bpow radix2 2); rewrite <- bpow_plus; reflexivity).
  pose proof u53 as U. assert (En : INR (S (length six)) = 7) by (cbn; ring).
  assert (Hs : total (map span six) = 0).
  { assert (Hs : forall nm ty, span (axle nm ty) = 0).
    { intros nm ty. unfold span, extension, axle. cbn [j_origin j_type j_position tr iso1]. change v0 with (V3 0 0 0). rewrite ReachProofs.len_0. destruct ty; rewrite ?Rabs_R0; lra. }
    unfold six. cbn [map]. rewrite !Hs. unfold total. cbn [foldr]. lra. }
  destruct (C82_f64 LA t ovf (Linalg (@na_lu_solve _ F) svd pinv) (Solver tiny19 tiny19 half64 100 None) frobot6 robot6 nx arm6 5%nat [5; 4; 3; 2; 1; 0]%nat six
    bent all_six cols6 (quiet h1 nx) iso1 [0; 0; 0; 0; 0; 0] bent_ideal (/ 2) (/ 524288) (/ 524288) (/ 12) 2 (/ 24) 1 20) as (h' & qf & q' & G1 & G2 & G3 & _ & G5);
    rewrite ?Hs, ?En, ?E31; try assumption; try reflexivity; try lra.
  - rewrite E51. intros y rr Hy. destruct (better_libm_ok 53 1024 f64_ok f64_lt ltac:(lia) y rr Hy) as [(s & Hss & Es) (k & Hk & Ek)].
    split; [exists s|exists k]; (split; [assumption|lra]).
  - rewrite E51. intros x y r q R0 Hpp Hy Hx. destruct (better_atan2_ok 53 1024 f64_ok f64_lt ltac:(lia) x y r q R0 Hpp Hy Hx) as (a & Ha & Ea). exists a. split; [exact Ha|]. lra.
  - apply six_stands. rewrite E51. lra.
  - exact robot6_path.
  - exact six_chain.
  - exact six_joints.
  - split; [|split]; reflexivity.
  - split; [exact T20|]. split; exact V0.
  - apply bent_near. rewrite E51, U. lra.
  - cbn. lia.
  - intros x e Hx He0 H. change (length x = 6%nat) in Hx. do 7 (destruct x as [|? x]; try discriminate Hx). cbn in H. repeat (apply Forall_cons in H as [? H]).
    cbn [norm1]. repeat match goal with G : Rabs _ <= e |- _ => apply Rabs_le_inv in G end.
    repeat match goal with |- context [Rabs ?a] => assert (Rabs a <= e) by (apply Rabs_le; lra); generalize dependent (Rabs a); intros end. lra.
  - split; [lra|]. apply Rle_trans with (bpow radix2 1); [change (bpow radix2 1) with 2; lra|apply bpow_le; lia].
  - repeat (apply Forall_cons; split; [rewrite Rabs_R0; lra|]). apply Forall_nil. exact I.
  - apply Forall_forall. intros a Ha n lim Hn Hlim. exists (-1), 1, 0.
    assert (Hn' : j_limits (n_joint n) = Some (Range (SFopp (z64 1)) (z64 1)) /\ j_position (n_joint n) = z64 0).
    { change (a ∈ [0; 1; 2; 3; 4; 5]%nat) in Ha. clear -Ha Hn. do 6 (destruct a as [|a]; [apply Some_inj in Hn as <-; split; reflexivity|]). exfalso. set_unfold. lia. }
    destruct Hn' as [E1 ->]. rewrite E1 in Hlim. apply Some_inj in Hlim as <-. cbn [rmin rmax]. repeat (split; [assumption|]). lra.
  - replace (INR 20) with 20 by (cbn; ring). lra.
  - exists h', qf, q'. auto.
Qed.
