(** * C72: the Jacobian computed in floating point is accurate *)
From Coq Require Import Reals ZArith Lra Lia Psatz String Floats.SpecFloat.
From Flocq Require Import Core IEEE754.BinarySingleNaN.
From stdpp Require Import gmap.
From Verif Require Import Scalar ScalarR ScalarF Geometry Joint Link Prog NodeM ChainM FuncsM RunLemmas SpecValues SpecFloatErr FloatErr
  SpecNode SpecGraph SpecChain GraphProofs SpecFK SpecGeom RGeom GeomProofs JacReal SpecReach ReachProofs SpecAcc AccProofs AccProofs2 PropAcc
  SpecJacAcc AccJac.
Local Open Scope R_scope.

(** C72: let the float arm stand for an ideal one as in C60.  Then the Jacobian of the float
    arm has finite entries, one column per movable joint, and each column equals that of the
    ideal arm up to the accumulated error. *)
Theorem C72_columns prec emax (Hp : Prec_gt_0 prec) (Hm : Prec_lt_emax prec emax) (L : libm) a d
    (t : nat) (hf : gmap nat (node spec_float)) (hr : gmap nat (node R)) nx arm e l js :
  (11 <= prec)%Z -> 0 <= a -> 0 <= d -> libm_within prec emax d L -> stand_for prec emax a hf hr ->
  path_up hr e l -> chain_of hr (rev l) arm -> joints_of hr (rev l) js -> fits_jacobian prec emax a d js ->
  exists cf cr s s', run t (@jacobian _ (FScalar prec emax L) arm) (quiet hf nx) = Done (Mat 6 cf) s /\
    run t (jacobian arm) (quiet hr nx) = Done (Mat 6 cr) s' /\ length cf = c_dof arm /\ length cr = c_dof arm /\
    forall i x w, cf !! i = Some x -> cr !! i = Some w ->
      exists v o (v0 o0 : vec3 R), column_val prec emax x v o /\ w = [vx v0; vy v0; vz v0; vx o0; vy o0; vz o0] /\
        rates_close prec emax a d js v o v0 o0.
Proof. intros Hprec Ha Hd HL Hs. exact (jacobian_close prec emax Hp Hm L Hprec a d Ha Hd HL hf hr Hs t nx arm e l js). Qed.
Print Assumptions C72_columns.

(** C72: so it is the derivative of the ideal forward kinematics, up to that error: with [fk]
    the ideal pose of the end as a function of the joint's position, the upper half is the
    derivative of the end's position, the lower half the end's turning rate. *)
Theorem C72_derivative prec emax (Hp : Prec_gt_0 prec) (Hm : Prec_lt_emax prec emax) (L : libm) a d
    (t : nat) (hf : gmap nat (node spec_float)) (hr : gmap nat (node R)) nx arm e l js :
  (11 <= prec)%Z -> 0 <= a -> 0 <= d -> libm_within prec emax d L -> stand_for prec emax a hf hr ->
  path_up hr e l -> chain_of hr (rev l) arm -> joints_of hr (rev l) js -> fits_jacobian prec emax a d js ->
  exists cf s, run t (@jacobian _ (FScalar prec emax L) arm) (quiet hf nx) = Done (Mat 6 cf) s /\ length cf = c_dof arm /\
    forall i b n, c_movable arm !! i = Some b -> hr !! b = Some n ->
    exists x v o v0 o0 fk,
      cf !! i = Some x /\ column_val prec emax x v o /\ rates_close prec emax a d js v o v0 o0 /\
      (forall q, exists s, run t (node_set_joint_position_unchecked b q ;;; end_transform arm) (quiet hr nx) = Done (fk q) s) /\
      deriv3 (fun q => tr (fk q)) (j_position (n_joint n)) v0 /\
      forall y, deriv3 (fun q => turn (rt (fk q)) y) (j_position (n_joint n))
                  (cross o0 (turn (rt (fk (j_position (n_joint n)))) y)).
Proof.
  intros Hprec Ha Hd HL Hs Hpath Hch Hjs Hf.
  destruct (C72_columns prec emax Hp Hm L a d t hf hr nx arm e l js) as (cf & cr & s & s' & R1 & R2 & L1 & L2 & HC); try assumption.
  exists cf, s. split; [exact R1|]. split; [exact L1|]. intros i b n Hi Hn.
  destruct (jacobian_derivative_lemma t hr nx arm e l Hpath (proj1 Hch) Hch) as (cr' & h' & R2' & L2' & HD).
  { intros c m _ Hm'. pose proof (Hs c) as Hc. rewrite Hm' in Hc. destruct (hf !! c) as [x|]; [|contradiction].
    destruct Hc as (_ & Ht & _ & _ & Hq & _). split; [|exact Hq]. unfold unit_type. destruct (j_type (n_joint x)), (j_type (n_joint m)); try contradiction; [exact I|apply Ht|apply Ht]. }
  rewrite R2 in R2'. injection R2' as <- _.
  destruct (HD i b n Hi Hn) as (fk & d1 & d2 & d3 & o1 & o2 & o3 & Hfk & _ & Hcr & Hd1 & Hd2).
  destruct (lookup_lt_is_Some_2 cf i) as [x Hx]; [rewrite L1, <- L2; eapply lookup_lt_Some; eauto|].
  destruct (HC i x _ Hx Hcr) as (v & o & v0 & o0 & Hv & E & Hrc). injection E as -> -> -> -> -> ->.
  exists x, v, o, v0, o0, fk. destruct v0, o0. repeat (split; [assumption|]). exact Hd2.
Qed.
Print Assumptions C72_derivative.

(** ** in numbers *)
Lemma jacobian_numbers prec emax (Hp : Prec_gt_0 prec) (Hm : Prec_lt_emax prec emax) js :
  let u := unit_roundoff prec in let n := INR (S (length js)) in
  (11 <= prec)%Z -> 4096 * n * u <= 1 -> total (map span js) <= bpow radix2 (emax - 8) ->
  fits_jacobian prec emax (4 * u) (4 * u) js /\
  forall v o v0 o0, rates_close prec emax (4 * u) (4 * u) js v o v0 o0 ->
    dist v v0 <= 4096 * n * u * (2 * (total (map span js) + 32 * n * tiny emax) + 1) /\ dist o o0 <= 2048 * n * u.
Proof.
  intros u n Hprec Hn Ht. pose proof (u_small prec Hprec) as [U0 U1]. pose proof (mu_small prec emax Hm Hprec) as [M0 M1].
  fold u in U0, U1. pose proof (growth_small prec Hprec) as [G0 G1]. fold u in G0, G1.
  unfold fits_jacobian, rates_close. set (G := growth prec (4 * u) (4 * u)) in *.
  assert (N0 : 0 <= n) by apply pos_INR. assert (N1 : 0 <= n * u) by (apply Rmult_le_pos; lra).
  assert (B : forall k, (k <= 16)%nat -> G ^ (k * S (length js)) <= 1 + 256 * INR k * n * u).
  { intros k Hk. assert (Ek : INR (k * S (length js)) = INR k * n) by (rewrite mult_INR; reflexivity).
    assert (K1 : INR k <= 16) by (replace 16 with (INR 16) by (cbn; ring); apply le_INR, Hk).
    assert (K0 : 0 <= INR k) by apply pos_INR. assert (INR k * (n * u) <= 16 * (n * u)) by (apply Rmult_le_compat_r; lra).
    eapply Rle_trans; [apply (pow_incr _ (1 + 128 * u)); lra|]. eapply Rle_trans; [apply pow_bound; [lra|rewrite Ek; lra]|]. rewrite Ek. lra. }
  pose proof (B 16%nat ltac:(lia)) as B16. pose proof (B 8%nat ltac:(lia)) as B8. clear B.
  replace (INR 16) with 16 in B16 by (cbn; ring). replace (INR 8) with 8 in B8 by (cbn; ring).
  pose proof (pow_ge_1 G (16 * S (length js)) ltac:(lra)) as P16. pose proof (total_pos js) as T0.
  assert (Mu : tiny emax <= 2 * u).
  { unfold tiny, u, unit_roundoff. replace (2 * bpow radix2 (- prec)) with (bpow radix2 (1 + - prec)) by (rewrite bpow_plus; reflexivity). apply bpow_le. red in Hm. lia. }
  assert (N2 : n * tiny emax <= n * (2 * u)) by (apply Rmult_le_compat_l; lra).
  assert (N3 : 0 <= n * tiny emax) by (apply Rmult_le_pos; lra).
  assert (En : INR (length js) <= n) by (unfold n; rewrite S_INR; lra).
  assert (Er : reach emax js <= total (map span js) + 32 * n * tiny emax).
  { unfold reach, lost. assert (INR (length js) * tiny emax <= n * tiny emax) by (apply Rmult_le_compat_r; lra). lra. }
  assert (R0 : 0 <= reach emax js) by (rewrite <- (slack_reach emax js); apply (slack_pos prec emax Hm Hprec)).
  split.
  - assert (G ^ (16 * S (length js)) * (reach emax js + 1) <= 2 * (bpow radix2 (emax - 8) + 2)) by (apply Rmult_le_compat; lra).
    assert (E8 : bpow radix2 emax = 256 * bpow radix2 (emax - 8)).
    { change 256 with (bpow radix2 8). rewrite <- bpow_plus. f_equal. lia. }
    assert (16 <= bpow radix2 (emax - 8)) by (change 16 with (bpow radix2 4); apply bpow_le; red in Hm; lia). lra.
  - intros v o v0 o0 [H1 H2]. split; [|lra]. eapply Rle_trans; [exact H1|]. apply Rmult_le_compat; lra.
Qed.
(** in f64, with axes, rotations, sines and cosines right to 2^-51: each entry's error is at most
    2^-41 per joint, relative to the length of the arm; the turning rate's at most 2^-42 *)
Theorem C72_f64 (L : libm) (t : nat) (hf : gmap nat (node spec_float)) (hr : gmap nat (node R)) nx arm e l js :
  let n := INR (S (length js)) in
  libm_within 53 1024 (/ 2 ^ 51) L -> stand_for 53 1024 (/ 2 ^ 51) hf hr ->
  path_up hr e l -> chain_of hr (rev l) arm -> joints_of hr (rev l) js ->
  n <= 2 ^ 41 -> total (map span js) <= 2 ^ 1000 ->
  exists cf s, run t (@jacobian _ (F64 L) arm) (quiet hf nx) = Done (Mat 6 cf) s /\ length cf = c_dof arm /\
    forall i b n', c_movable arm !! i = Some b -> hr !! b = Some n' ->
    exists x v o v0 o0 fk,
      cf !! i = Some x /\ column_val 53 1024 x v o /\
      dist v v0 <= n * / 2 ^ 41 * (2 * (total (map span js) + n * / 2 ^ 1000) + 1) /\ dist o o0 <= n * / 2 ^ 42 /\
      (forall q, exists s, run t (node_set_joint_position_unchecked b q ;;; end_transform arm) (quiet hr nx) = Done (fk q) s) /\
      deriv3 (fun q => tr (fk q)) (j_position (n_joint n')) v0 /\
      forall y, deriv3 (fun q => turn (rt (fk q)) y) (j_position (n_joint n'))
                  (cross o0 (turn (rt (fk (j_position (n_joint n')))) y)).
Proof.
  intros n HL Hs Hpath Hch Hjs Hn Ht.
  assert (Ep : forall k, bpow radix2 (Z.of_nat k) = 2 ^ k) by (intros k; rewrite bpow_powerRZ; symmetry; apply pow_powerRZ).
  assert (Em : forall k, bpow radix2 (- Z.of_nat k) = / 2 ^ k) by (intros k; rewrite bpow_opp, Ep; reflexivity).
  assert (Eu : 4 * unit_roundoff 53 = / 2 ^ 51).
  { rewrite <- Em. unfold unit_roundoff. change 4 with (bpow radix2 2). rewrite <- bpow_plus. reflexivity. }
  assert (E41 : 4096 * unit_roundoff 53 = / 2 ^ 41).
  { rewrite <- Em. unfold unit_roundoff. change 4096 with (bpow radix2 12). rewrite <- bpow_plus. reflexivity. }
  assert (E42 : 2048 * unit_roundoff 53 = / 2 ^ 42).
  { rewrite <- Em. unfold unit_roundoff. change 2048 with (bpow radix2 11). rewrite <- bpow_plus. reflexivity. }
  rewrite <- Eu in HL, Hs. assert (N0 : 0 <= n) by apply pos_INR.
  destruct (jacobian_numbers 53 1024 f64_ok f64_lt js ltac:(lia)) as [Hf Hnum].
  { fold n. replace (4096 * n * unit_roundoff 53) with (n * (4096 * unit_roundoff 53)) by ring. rewrite E41.
    apply Rle_trans with (2 ^ 41 * / 2 ^ 41); [|lra]. apply Rmult_le_compat_r; [lra|exact Hn]. }
  { eapply Rle_trans; [exact Ht|]. rewrite <- Ep. apply bpow_le. lia. }
  pose proof (u_small 53 ltac:(lia)) as [U0 U1].
  destruct (C72_derivative 53 1024 f64_ok f64_lt L (4 * unit_roundoff 53) (4 * unit_roundoff 53) t hf hr nx arm e l js)
    as (cf & s & R1 & L1 & HC); try assumption; try lra; [lia|].
  exists cf, s. split; [exact R1|]. split; [exact L1|]. intros i b n' Hi Hn'.
  destruct (HC i b n' Hi Hn') as (x & v & o & v0 & o0 & fk & Hx & Hv & Hrc & Hrest).
  exists x, v, o, v0, o0, fk. split; [exact Hx|]. split; [exact Hv|].
  destruct (Hnum v o v0 o0 Hrc) as [D1 D2]. fold n in D1, D2.
  replace (4096 * n * unit_roundoff 53) with (n * / 2 ^ 41) in D1 by (rewrite <- E41; ring).
  replace (2048 * n * unit_roundoff 53) with (n * / 2 ^ 42) in D2 by (rewrite <- E42; ring).
  split; [|split; [exact D2|exact Hrest]]. eapply Rle_trans; [exact D1|].
  apply Rmult_le_compat_l; [apply Rmult_le_pos; lra|]. apply Rplus_le_compat_r, Rmult_le_compat_l; [lra|]. apply Rplus_le_compat_l.
  replace (32 * n * tiny 1024) with (n * (32 * tiny 1024)) by ring. apply Rmult_le_compat_l; [exact N0|].
  rewrite <- Em. unfold tiny. change 32 with (bpow radix2 5). rewrite <- bpow_plus. apply bpow_le. lia.
Qed.
Print Assumptions C72_f64.

(** the turntable of C60: its Jacobian is right to 10^-11 *)
Example C72_case (t nx : nat) : exists cf s,
  run t (@jacobian _ (F64 L64) table_chain) (quiet (@table_heap _ (F64 L64) (z64 1) (z64 2) (z64 3)) nx) = Done (Mat 6 cf) s /\ length cf = 2%nat /\
  forall i b n', c_movable table_chain !! i = Some b -> table_heap 1 2 3 !! b = Some n' ->
    exists x v o v0 o0 fk,
      cf !! i = Some x /\ column_val 53 1024 x v o /\ dist v v0 < / 10000000000 /\ dist o o0 < / 100000000000 /\
      (forall q, exists s, run t (node_set_joint_position_unchecked b q ;;; end_transform table_chain) (quiet (table_heap 1 2 3) nx) = Done (fk q) s) /\
      deriv3 (fun q => tr (fk q)) (j_position (n_joint n')) v0 /\
      forall y, deriv3 (fun q => turn (rt (fk q)) y) (j_position (n_joint n'))
                  (cross o0 (turn (rt (fk (j_position (n_joint n')))) y)).
Proof.
  assert (Ht : total (map span (table 1 2 3)) = 6).
  { unfold table. cbn [map]. rewrite !total_cons. unfold span, extension, jt. cbn [j_type j_origin j_position tr].
    change (@szero R RScalar) with 0. unfold len, inner. cbn [vx vy vz].
    replace (0 * 0 + 0 * 0 + 1 * 1) with (1 * 1) by ring. replace (3 * 3 + 0 * 0 + 0 * 0) with (3 * 3) by ring.
    rewrite !sqrt_square by lra. rewrite (Rabs_pos_eq 2) by lra. cbn. ring. }
  destruct (C72_f64 L64 t (@table_heap _ (F64 L64) (z64 1) (z64 2) (z64 3)) (table_heap 1 2 3) nx table_chain 1%nat [1%nat; 0%nat] (table 1 2 3))
    as (cf & s & R1 & L1 & HC).
  - intros x r Hx. destruct (good_libm_ok 53 1024 f64_ok f64_lt ltac:(lia) x r Hx) as [(s & Hs & Es) (c & Hc & Ec)].
    assert (2 * unit_roundoff 53 <= / 2 ^ 51).
    { change (unit_roundoff 53) with (/ 9007199254740992). lra. }
    split; [exists s|exists c]; (split; [assumption|lra]).
  - intros a. pose proof (table_stands (/ 2 ^ 51) ltac:(lra)) as H. unfold table_heap, table in *.
    apply Forall2_cons in H as [Ha H]. apply Forall2_cons in H as [Hb _].
    destruct a as [|[|a]]; [split; [reflexivity|exact Ha]|split; [reflexivity|exact Hb]|].
    rewrite !lookup_insert_ne, !lookup_empty by lia. exact I.
  - eapply path_step; [|apply path_root].
    + split; [eexists; split; reflexivity|eexists; reflexivity].
    + split; [eexists; reflexivity|]. intros p [(n & Hn & E) _]. apply Some_inj in Hn as <-. discriminate.
  - split; [reflexivity|]. split; reflexivity.
  - repeat (constructor; [eexists; split; reflexivity|]); constructor.
  - cbn. lra.
  - rewrite Ht. apply Rle_trans with (2 ^ 3); [lra|]. apply Rle_pow; [lra|lia].
  - exists cf, s. split; [exact R1|]. split; [exact L1|]. intros i b n' Hi Hn'.
    destruct (HC i b n' Hi Hn') as (x & v & o & v0 & o0 & fk & Hx & Hv & D1 & D2 & Hrest).
    exists x, v, o, v0, o0, fk. split; [exact Hx|]. split; [exact Hv|]. rewrite Ht in D1. cbn [table length INR] in D1, D2.
    assert (/ 2 ^ 1000 <= / 2 ^ 3) by (apply Rinv_le_contravar; [lra|apply Rle_pow; [lra|lia]]).
    split; [|split; [eapply Rle_lt_trans; [exact D2|]; lra|exact Hrest]].
    eapply Rle_lt_trans; [exact D1|].
    apply Rle_lt_trans with ((1 + 1 + 1) * / 2 ^ 41 * (2 * (6 + (1 + 1 + 1) * / 2 ^ 3) + 1)); [|lra].
    apply Rmult_le_compat_l; lra.
Qed.
