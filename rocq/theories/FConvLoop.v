(** * The float solver converges *)
From Coq Require Import String Reals ZArith Lra Lia Psatz Sorting.Sorted Floats.SpecFloat.
From Flocq Require Import Core IEEE754.BinarySingleNaN.
From stdpp Require Import gmap.
From Verif Require ReachProofs.
From Verif Require Import Scalar ScalarR ScalarF Geometry Joint Link Prog NodeM ChainM FuncsM IkM LuM RunLemmas
  SpecJoint SpecNode SpecGraph SpecChain GraphProofs SpecFK FKProofs SpecGeom RGeom GeomProofs JacReal SpecReach IkProofs IkProofs2 SpecIk StepProofs ChainProofs
  SpecStep SpecLin SpecValues SpecFloatErr FloatErr FloatBack SpecAcc AccProofs AccProofs2 SpecJacAcc AccJac SpecSolved SolvedProofs SolvedProofs2
  LinAlgR LinArm LinIk TrajProofs ConvReg SpecLuAcc LuAcc PropLu PropLuAcc PropSolved ConvGeom ConvStep ConvIk SpecConvAcc FConvJac FConvCore FConvStep FConvOne.
Local Open Scope R_scope.

Lemma fparents {T} `{Scalar T} (h h' : gmap nat (node T)) : frozen h h' -> same_parents h h'.
Proof.
  intros Hf a. specialize (Hf a). destruct (h' !! a) as [n'|], (h !! a) as [n|]; cbn in *; try congruence.
  apply Some_inj, bare_eq in Hf. destruct Hf as (_ & _ & _ & _ & _ & Hf & _). congruence.
Qed.
Lemma growth_96 prec a d : 0 <= a -> 0 <= d -> 1 + 96 * unit_roundoff prec <= growth prec a d.
Proof.
  intros Ha Hd. assert (U : 0 <= unit_roundoff prec) by (unfold unit_roundoff; apply bpow_ge_0). unfold growth. set (u := unit_roundoff prec) in *.
  assert (A : 1 <= (1 + a) ^ 2) by (apply pow_R1_Rle; lra). assert (B : 1 <= (1 + d) ^ 2) by (apply pow_R1_Rle; lra).
  assert (D : 1 + 96 * u <= (1 + 32 * u) ^ 3) by (assert (0 <= u * u) by (apply Rmult_le_pos; lra); assert (0 <= u * u * u) by (apply Rmult_le_pos; lra); cbn; lra).
  assert (C : 1 * 1 <= (1 + a) ^ 2 * (1 + d) ^ 2) by (apply Rmult_le_compat; lra).
  replace (1 + 96 * u) with (1 * 1 * (1 + 96 * u)) by ring. apply Rmult_le_compat; lra.
Qed.
Lemma others_trans js0 js js' : Forall2 at_other_position js0 js -> Forall2 at_other_position js js' -> Forall2 at_other_position js0 js'.
Proof.
  intros H. revert js'. induction H as [|j0 j js0 js [Et Eo] H IH]; intros js' H'; inversion H' as [|? j' ? js2 [Et' Eo'] H2]; subst; constructor; [split; congruence|auto].
Qed.

Lemma norm1_ladd m x kap : 0 <= m -> length x = length kap -> norm1 (ladd (lscale m x) kap) <= m * norm1 x + norm1 kap.
Proof.
  intros Hm E. revert kap E. induction x as [|y l IH]; intros [|z k] E; try discriminate; cbn; [lra|]. injection E as E. specialize (IH k E). unfold ladd, lscale in IH.
  pose proof (Rabs_triang (m * y) z) as T. rewrite Rabs_mult, (Rabs_pos_eq m) in T by lra. lra.
Qed.
Lemma positions_list {prec emax} (h : gmap nat (node spec_float)) l q :
  Forall2 (fun a p => exists n, h !! a = Some n /\ val prec emax (j_position (n_joint n)) p) l q ->
  exists qf, Forall2 (fun a x => exists n, h !! a = Some n /\ j_position (n_joint n) = x) l qf /\ Forall2 (val prec emax) qf q.
Proof.
  induction 1 as [|a p l q (n & Hn & Hp) H (qf & H1 & H2)]; [exists []; split; constructor|].
  exists (j_position (n_joint n) :: qf). split; constructor; eauto.
Qed.

Section Loop.
  Context (prec emax : Z) (Hp : Prec_gt_0 prec) (Hm : Prec_lt_emax prec emax) (L : libm) (Hprec : (11 <= prec)%Z).
  Notation FS := (FScalar prec emax L).
  Notation val := (val prec emax).
  Notation vval := (vval prec emax).
  Notation u := (unit_roundoff prec).
  Notation mu := (tiny emax).
  Notation BIG := (bpow radix2 (emax - 2)).
  Context (alpha delta : R) (Ha : 0 <= alpha) (Hd : 0 <= delta) (HL : libm_within prec emax delta L).
  Context (t : nat) (ovf : bool) (h0 : gmap nat (node spec_float)) (nx : nat) (arm : chain) (e : nat) (l : list nat) (target : iso spec_float)
    (c : constraints) (la : linalg spec_float) (sv : solver spec_float) (xs0 : list (joint spec_float)) (js0 : list (joint R)) (tg : vec3 R) (m Lr r Q lam : R).
  Hypothesis Hpath : path_up h0 e l.
  Hypothesis Hch : chain_of h0 (rev l) arm.
  Hypothesis Hxs0 : joints_of h0 (rev l) xs0.
  Hypothesis Hst0 : Forall2 (stands_for prec emax alpha) xs0 js0.
  Hypothesis Hc : position_only c.
  Hypothesis Hcnt : count (flags c) = c_dof arm.
  Hypothesis Hla : forall m b, lu_solve la m b = @na_lu_solve _ FS m b.
  Hypothesis Htg : vval (tr target) tg.
  Hypothesis Hmul : val (jacobian_multiplier sv) m.
  Hypothesis Hm1 : 0 < m <= 1.
  Hypothesis HLr : 1 <= Lr.
  Hypothesis Hreach : reach emax js0 + r <= Lr.
  Hypothesis Hlam : 0 < lam <= 1.
  Hypothesis Hr : 0 <= r.
  Hypothesis Hrl : Lr * r <= lam.
  Hypothesis HQ : 1 <= Q <= BIG.
  Hypothesis HQ0 : Forall (fun p => Rabs p + 1 <= Q) (posns js0).
  Hypothesis Hroom : Forall (room prec emax h0 r) (c_movable arm).
  Hypothesis Hex : expands (2 * lam) (jac c js0).
  Let th := growth prec alpha delta ^ (16 * S (length js0)) - 1.
  Let eps := 3 * th * Lr.
  Let nu := eps * Q.
  Hypothesis Hsmall : 2048 * Lr * nu <= m * (lam * lam).
  Hypothesis Hbig : 2097152 * Lr <= BIG * (lam * lam).
  Let q0 := posns js0.
  Let err js := only_constrained c tg (tip js).

  Definition finv (h : gmap nat (node spec_float)) (xs : list (joint spec_float)) (js : list (joint R)) : Prop :=
    frozen h0 h /\ joints_of h (rev l) xs /\ Forall2 (stands_for prec emax alpha) xs js /\ Forall2 at_other_position js0 js.
  Lemma finv_start : finv h0 xs0 js0.
  Proof. split; [apply frozen_refl|]. split; [exact Hxs0|]. split; [exact Hst0|apply others_refl]. Qed.
  Lemma finv_dof h xs js : finv h xs js -> nmov js = c_dof arm.
  Proof.
    intros (_ & _ & _ & Ho). rewrite (others_nmov _ _ Ho), <- nmov_posns. pose proof (movable_vals prec emax alpha h0 (rev l) xs0 js0 Hxs0 Hst0) as H.
    apply Forall2_length in H. destruct Hch as (_ & _ & Hdof). lia.
  Qed.
  Lemma mu_u : 0 < mu <= 2 * u.
  Proof.
    split; [apply bpow_gt_0|]. unfold tiny, unit_roundoff. replace (2 * bpow radix2 (- prec)) with (bpow radix2 (1 + - prec)) by (rewrite bpow_plus; reflexivity). apply bpow_le. red in Hm. lia.
  Qed.
  Lemma th_ge : 1536 * u <= th.
  Proof.
    pose proof (growth_96 prec alpha delta Ha Hd) as G. pose proof (u_le prec Hprec) as U.
    pose proof (pow_mono (growth prec alpha delta) 16 (16 * S (length js0)) (growth_one prec alpha delta Ha Hd) ltac:(lia)) as P.
    pose proof (poly 16 (96 * u) ltac:(lra)) as B. assert ((1 + 96 * u) ^ 16 <= growth prec alpha delta ^ 16) by (apply pow_incr; lra).
    assert (INR 16 = 16) as E by (cbn; ring). rewrite E in B. unfold th. lra.
  Qed.
  Lemma basic : 0 < eps /\ eps <= nu /\ 2048 * nu <= lam * lam /\ lam * lam <= lam /\ 3 * th <= eps /\ mu <= eps /\ u <= eps /\ 2048 * Lr * nu <= lam * lam.
  Proof.
    pose proof th_ge. pose proof (u_le prec Hprec).
    assert (H2 : 32 * Lr * 0 <= lam * lam) by (assert (0 < lam * lam) by (apply Rmult_lt_0_compat; lra); lra).
    destruct (num_basic u mu th Lr Q lam m 0 eps nu ltac:(lra) mu_u th_ge HLr (proj1 HQ) Hlam Hm1 eq_refl eq_refl Hsmall (Rle_refl 0) H2) as (B1 & B2 & B3 & B4 & B5 & B6 & B7 & B8).
    repeat split; lra.
  Qed.
  Lemma big_lr : 2097152 * Lr <= BIG.
  Proof. destruct basic as (B1 & B2 & B3 & B4 & _). pose proof (bpow_gt_0 radix2 (emax - 2)). assert (BIG * (lam * lam) <= BIG * 1) by (apply Rmult_le_compat_l; lra). lra. Qed.
  Lemma finv_reach h xs js : finv h xs js -> norm1 (diff (posns js) q0) <= r -> length js = length js0 /\ reach emax js <= Lr /\ total (map span js) <= Lr.
  Proof.
    intros (_ & _ & _ & Ho) Hn. pose proof (Forall2_length _ _ _ Ho) as El. pose proof (others_span js0 js Ho) as H1. rewrite gaps_posns, asum_norm1 in H1 by exact Ho.
    fold q0 in H1. unfold reach in *. rewrite <- El. pose proof mu_u. assert (0 <= INR (length js0) * lost emax) by (apply Rmult_le_pos; [apply pos_INR|unfold lost; lra]).
    split; [reflexivity|]. split; lra.
  Qed.
  Lemma finv_fits h xs js : finv h xs js -> norm1 (diff (posns js) q0) <= r -> fits_jacobian prec emax alpha delta js /\ fits prec emax alpha delta js.
  Proof.
    intros Hi Hn. destruct (finv_reach h xs js Hi Hn) as (El & Hrc & _). destruct basic as (B1 & B2 & B3 & B4 & B5 & _). pose proof big_lr as BL.
    assert (R0 : 0 <= reach emax js) by (rewrite <- (slack_reach emax js); apply (slack_pos prec emax Hm Hprec)).
    pose proof (growth_one prec alpha delta Ha Hd) as G1. unfold fits_jacobian, fits. rewrite El.
    assert (G2 : growth prec alpha delta ^ (16 * S (length js0)) <= 2) by (assert (T1 : th <= 1) by lra; unfold th in T1; lra).
    pose proof (pow_mono (growth prec alpha delta) (8 * length js0) (16 * S (length js0)) G1 ltac:(lia)) as G3.
    pose proof (pow_ge_1 (growth prec alpha delta) (8 * length js0) G1) as G4. pose proof (big_two emax) as BT.
    assert (E2 : bpow radix2 emax = 4 * BIG) by (change 4 with (bpow radix2 2); rewrite <- bpow_plus; f_equal; lia). rewrite E2.
    split; (eapply Rle_trans; [apply Rmult_le_compat; [| |apply (Rmult_le_compat_l 60); [lra|first [exact G2|eapply Rle_trans; [exact G3|exact G2]]]|apply (Rplus_le_compat_r 1), Hrc]; lra|lra]).
  Qed.
  Lemma finv_close h xs js : finv h xs js -> norm1 (diff (posns js) q0) <= r ->
    exists rr, vval (tr (@product _ FS (@iso1 _ FS) (map (@local_transform _ FS) xs))) rr /\ dist rr (tip js) <= eps /\ Forall unit_joint js.
  Proof.
    intros Hi Hn. destruct (finv_fits h xs js Hi Hn) as [_ Hf]. destruct (finv_reach h xs js Hi Hn) as (El & Hrc & _). destruct Hi as (_ & _ & Hs & _).
    pose proof (stands_unit _ _ _ _ _ Hs) as Hu.
    destruct (product_close prec emax Hp Hm L Hprec alpha delta Ha Hd HL xs js Hs Hf) as (rr & [Ht _] & _ & Hdist). exists (tr rr). split; [exact Ht|]. split; [|exact Hu].
    rewrite ReachProofs.tip_tr in Hdist by exact Hu. eapply Rle_trans; [exact Hdist|].
    assert (R0 : 0 <= reach emax js) by (rewrite <- (slack_reach emax js); apply (slack_pos prec emax Hm Hprec)).
    pose proof (growth_one prec alpha delta Ha Hd) as G1. rewrite El. pose proof (pow_mono (growth prec alpha delta) (8 * length js0) (16 * S (length js0)) G1 ltac:(lia)) as G3.
    pose proof (pow_ge_1 (growth prec alpha delta) (8 * length js0) G1) as G4. pose proof th_ge as T. pose proof (u_le prec Hprec).
    apply Rle_trans with (th * Lr); [apply Rmult_le_compat; unfold th; lra|]. assert (0 <= th * Lr) by (apply Rmult_le_pos; lra). unfold eps. lra.
  Qed.
  Lemma jac_eps_le h xs js : finv h xs js -> norm1 (diff (posns js) q0) <= r -> jac_eps prec emax alpha delta js <= eps.
  Proof.
    intros Hi Hn. destruct (finv_reach h xs js Hi Hn) as (El & Hrc & _). unfold jac_eps. rewrite El. fold th. pose proof th_ge as T. pose proof (u_le prec Hprec).
    unfold eps. replace (3 * th * Lr) with (th * (3 * Lr)) by ring. apply Rmult_le_compat_l; lra.
  Qed.

  (** ** one iteration *)
  Lemma flag_err js : flagged (flags c) [vx (err js); vy (err js); vz (err js); 0; 0; 0] =
    flagged (flags c) [vx tg - vx (tip js); vy tg - vy (tip js); vz tg - vz (tip js); 0; 0; 0].
  Proof.
    destruct Hc as (Ra & Rb & Rc). unfold err, only_constrained, flags. rewrite Ra, Rb, Rc. cbn [vx vy vz]. destruct (position_x c), (position_y c), (position_z c); reflexivity.
  Qed.
  Lemma all_flag f (x y z : R) : 0 <= f -> Rabs x <= f -> Rabs y <= f -> Rabs z <= f -> all_le f (flagged (flags c) [x; y; z; 0; 0; 0]).
  Proof.
    intros Hf Hx Hy Hz. destruct Hc as (Ra & Rb & Rc). unfold flags, all_le. rewrite Ra, Rb, Rc.
    destruct (position_x c), (position_y c), (position_z c); cbn [flagged]; repeat (apply Forall_cons; split); try assumption; apply Forall_nil; exact I.
  Qed.
  Lemma diff_flag (x y z x' y' z' : R) : diff (flagged (flags c) [x; y; z; 0; 0; 0]) (flagged (flags c) [x'; y'; z'; 0; 0; 0]) = flagged (flags c) [x - x'; y - y'; z - z'; 0; 0; 0].
  Proof.
    destruct Hc as (Ra & Rb & Rc). unfold flags. rewrite Ra, Rb, Rc. destruct (position_x c), (position_y c), (position_z c); reflexivity.
  Qed.
  Lemma flag_length (x y z : R) : length (flagged (flags c) [x; y; z; 0; 0; 0]) = count (flags c).
  Proof. apply flagged_length. reflexivity. Qed.
  Lemma three_pow : 1 <= 3 ^ count (flags c) <= 27.
  Proof.
    pose proof (count_position c Hc) as H. split; [apply pow_R1_Rle; lra|]. replace 27 with (3 ^ 3) by ring. apply Rle_pow; [lra|exact H].
  Qed.
  (** the motion an iteration computes *)
  Lemma fsolve h xs js : finv h xs js -> norm1 (diff (posns js) q0) <= r -> 32 * Lr * len (err js) <= lam * lam ->
    exists xf x, list_val prec emax xf x /\ length x = c_dof arm /\
      step_to (Sc := FS) t h nx arm target (flags c) (jacobian_multiplier sv) xf (run t (@solve_one_loop_with_constraints _ FS ovf la sv arm target (flags c) []) (quiet h nx)) /\
      lam * norm1 x <= 2 * (len (err js) + 5 * eps) /\ norm1 x <= 1 /\
      all_le (5 * eps) (diff (act (jac c js) x) (flagged (flags c) [vx tg - vx (tip js); vy tg - vy (tip js); vz tg - vz (tip js); 0; 0; 0])).
  Proof.
    intros Hi Hn HE. pose proof Hi as (Hf & Hx & Hs & Ho). destruct basic as (B1 & B2 & B3 & B4 & B5 & B6 & B7 & B8).
    destruct (finv_reach h xs js Hi Hn) as (El & Hrc & Hspan). destruct (finv_fits h xs js Hi Hn) as [Hfj _]. destruct (finv_close h xs js Hi Hn) as (rr & Hrr & Hdist & Hu).
    pose proof (finv_dof h xs js Hi) as Hdof. pose proof (jac_eps_le h xs js Hi Hn) as Hje. pose proof (len_nonneg (err js)) as E0. set (E := len (err js)) in *.
    assert (E1 : 32 * E <= lam * lam) by (assert (1 * E <= Lr * E) by (apply Rmult_le_compat_r; lra); lra).
    assert (Hpathh : path_up h e l) by (eapply same_parents_path; [apply fparents; exact Hf|exact Hpath]).
    assert (Hchh : chain_of h (rev l) arm) by (eapply frozen_chain; eauto). pose proof Hchh as (En & Hmv & Hdf).
    assert (Hlive : all_live h (rev l)) by (apply all_live_rev; eapply path_all_live; eauto).
    destruct (float_jacobian prec emax Hp Hm L Hprec alpha delta Ha Hd HL t h nx arm e l xs js Hpathh Hchh Hx Hs Hfj) as (cf & h1 & HJ & Hcols).
    destruct (columns_near prec emax Hm Hprec alpha delta Ha Hd js _ _ Hcols) as (cv & V1 & V2 & V3' & V4).
    set (w := @product _ FS (@iso1 _ FS) (map (@local_transform _ FS) xs)) in *.
    assert (Hw : run t (@end_transform _ FS arm) (quiet h nx) = Done w (quiet h nx)).
    { unfold end_transform. apply run_end_fold. rewrite En. apply (joints_local h (rev l) xs). exact Hx. }
    assert (Hnd : NoDup (c_movable arm)).
    { rewrite Hmv. apply NoDup_ListNoDup, List.NoDup_filter, NoDup_rev, NoDup_ListNoDup. eapply path_up_nodup; eauto. }
    assert (Lcr : length (colsof (tr (end_at iso1 js)) iso1 js) = c_dof arm) by (rewrite colsof_length; exact Hdof).
    assert (Lcv : length cv = c_dof arm) by (rewrite (Forall2_length _ _ _ V2); exact Lcr).
    set (n := count (flags c)) in *.
    set (J1 := reduced (flags c) [] cv).
    assert (S1 : shaped J1 n n).
    { pose proof (reduced_shaped (flags c) [] cv (c_dof arm) eq_refl (SSorted_nil _) (proj2 (Forall_nil _) I) Lcv V3') as H. cbn [length] in H. rewrite Nat.sub_0_r in H. rewrite <- Hcnt in H. exact H. }
    assert (S2 : shaped (jac c js) n n) by (apply jac_shaped; fold n; congruence).
    assert (Hnear : near_cols eps (m_cols J1) (m_cols (jac c js))).
    { unfold near_cols, J1, jac, reduced. cbn [m_cols]. apply Forall2_fmap. eapply Forall2_impl; [apply Forall2_without, V2|]. intros x y Hxy.
      eapply Forall2_impl; [apply Forall2_flagged, Hxy|]. cbv beta. intros a b Hab. lra. }
    assert (Hent : entries_le Lr (jac c js)) by (apply jac_entries; assumption).
    assert (Hexj : expands lam (jac c js)).
    { pose proof (stands_unit _ _ _ _ _ Hst0) as Hu0. apply (jac_near c js0 js Lr r lam Hc HLr Hu0 Ho); [|exact Hn|exact Hrl|exact Hex].
      pose proof mu_u. assert (0 <= INR (length js0) * lost emax) by (apply Rmult_le_pos; [apply pos_INR|unfold lost; lra]). unfold reach in Hreach. lra. }
    destruct (err_val prec emax Hp Hm L Hprec c target w tg rr (tip js) eps E Hc Htg Hrr Hdist ltac:(lra) ltac:(lra) ltac:(apply Rle_refl) ltac:(lra))
      as (d & Hb & _ & _ & Dx & Dy & Dz). fold (err js) in Dx, Dy, Dz.
    set (b := flagged (flags c) [vx d; vy d; vz d; 0; 0; 0]) in *.
    assert (Lb : length b = n) by apply flag_length.
    set (be := flagged (flags c) [vx (err js); vy (err js); vz (err js); 0; 0; 0]).
    assert (Hbe : all_le (3 * eps) (diff b be)) by (unfold b, be; rewrite diff_flag; apply all_flag; lra || assumption).
    assert (HEe : all_le E be) by (destruct (comp_len (err js)) as (C1 & C2 & C3); apply all_flag; assumption).
    assert (HB : all_le (3 * eps + E) b) by (eapply all_le_tri; [|exact Hbe|exact HEe]; unfold be; rewrite Lb, flag_length; reflexivity).
    rewrite Rplus_comm in HB. pose proof three_pow as P3. fold n in P3. pose proof (u_le prec Hprec) as U. pose proof (mu_le prec emax Hm Hprec) as MU. pose proof mu_u as MU2. pose proof big_lr as BL.
    pose proof (bpow_gt_0 radix2 (emax - 2)) as PB.
    assert (N1 : (n <= 3)%nat) by (apply count_position, Hc).
    assert (Hlu : fits_lu prec emax n (Lr + eps) (E + 3 * eps)).
    { split; [lra|]. split; [lra|].
      assert (3 ^ n * (Lr + eps) <= 27 * (2 * Lr)) by (apply Rmult_le_compat; lra). assert (3 ^ n * (E + 3 * eps) <= 27 * 1) by (apply Rmult_le_compat; lra).
      split; [lra|]. split; [lra|]. pose proof (le_INR _ _ N1) as N2. assert (E3 : INR 3 = 3) by (cbn; ring). rewrite E3 in N2. pose proof (pos_INR n). assert (INR n * u <= 3 * / 2048) by (apply Rmult_le_compat; lra). lra. }
    pose proof (num_lam u mu th Lr Q lam m E eps nu ltac:(lra) mu_u th_ge HLr (proj1 HQ) Hlam Hm1 eq_refl eq_refl Hsmall E0 HE) as NL.
    assert (Hl27 : 30 * 3 ^ n * u * (Lr + eps) + eps <= lam).
    { assert (3 ^ n * (u * (Lr + eps)) <= 27 * (u * (Lr + eps))); [|lra]. apply Rmult_le_compat_r; [apply Rmult_le_pos; lra|lra]. }
    assert (Hans : fits_answer emax n (Lr + eps) (E + 3 * eps) (lam - eps)).
    { assert (LL : lam / 2 <= lam - eps) by lra. split; [lra|]. rewrite Rmin_right by lra.
      assert (I1 : / (lam - eps) <= / (lam / 2)) by (apply Rinv_le_contravar; lra). assert (I0 : 0 < / (lam - eps)) by (apply Rinv_0_lt_compat; lra).
      assert (A1 : 3 ^ n * (E + 3 * eps) <= 27 * 1) by (apply Rmult_le_compat; lra). assert (A0 : 0 <= 3 ^ n * (E + 3 * eps)) by (apply Rmult_le_pos; lra).
      assert (I2 : 1 <= / lam) by (rewrite <- Rinv_1; apply Rinv_le_contravar; lra).
      assert (A2 : 24 * (3 ^ n * (E + 3 * eps)) / (lam - eps) + mu <= 1297 * / lam).
      { assert (24 * (3 ^ n * (E + 3 * eps)) / (lam - eps) <= 648 * / (lam / 2)) by (unfold Rdiv; apply Rmult_le_compat; lra).
        replace (648 * / (lam / 2)) with (1296 * / lam) in * by (field; lra). lra. }
      assert (A3 : 0 <= 24 * (3 ^ n * (E + 3 * eps)) / (lam - eps)) by (unfold Rdiv; apply Rmult_le_pos; lra).
      assert (A4 : 3 ^ n * (Lr + eps) <= 27 * (2 * Lr)) by (apply Rmult_le_compat; lra). assert (A5 : 0 <= 3 ^ n * (Lr + eps)) by (apply Rmult_le_pos; lra).
      assert (A6 : 3 ^ n * (Lr + eps) * (24 * (3 ^ n * (E + 3 * eps)) / (lam - eps) + mu) <= 27 * (2 * Lr) * (1297 * / lam)) by (apply Rmult_le_compat; lra).
      assert (A7 : 1 <= Lr * / lam) by (replace 1 with (1 * 1) by ring; apply Rmult_le_compat; lra).
      assert (A8 : 1000000 * (Lr * / lam) <= BIG * (lam / 2)).
      { apply Rmult_le_reg_r with lam; [lra|]. replace (1000000 * (Lr * / lam) * lam) with (1000000 * Lr) by (field; lra). lra. }
      assert (A9 : BIG * (lam / 2) <= BIG * (lam - eps)) by (apply Rmult_le_compat_l; lra). lra. }
    destruct (near_residual prec emax Hp Hm L Hprec n (reduced (flags c) [] cf) J1 (jac c js) eps Lr (E + 3 * eps)
      (flagged (flags c) (@calc_pose_diff _ FS target w)) b lam (reduced_val prec emax (flags c) [] cf cv V1) S1 S2 ltac:(lra) Hnear Hent Hb Lb HB Hlu Hexj Hl27 Hans)
      as (xf & x & Esol & Hxv & Lx & Hres).
    exists xf, x. split; [exact Hxv|]. split; [congruence|]. pose proof (norm1_pos x) as X0.
    split.
    { apply (step_lu (Sc := FS) t ovf la sv h nx arm target (flags c) [] cf h1 w); try assumption.
      - rewrite En; exact Hchh.
      - rewrite En; exact Hlive.
      - reflexivity.
      - constructor.
      - constructor.
      - unfold count_true. change (c_dof arm <= count (flags c) + 0)%nat. lia.
      - rewrite Hla. exact Esol. }
    pose proof (near_len n (jac c js) x S2) as La.
    set (rho := 6 * 3 ^ n * u * (E + 3 * eps + (Lr + eps) * (norm1 x + mu))) in *.
    assert (Hlx : lam * norm1 x <= E + 3 * eps + (rho + eps * norm1 x)).
    { apply Hexj.
      - destruct S2 as (_ & S22 & _). congruence.
      - assert (0 <= (Lr + eps) * (norm1 x + mu)) by (apply Rmult_le_pos; lra). assert (0 <= eps * norm1 x) by (apply Rmult_le_pos; lra).
        assert (0 <= rho) by (unfold rho; apply Rmult_le_pos; [apply Rmult_le_pos; lra|lra]). lra.
      - rewrite Rplus_comm. eapply all_le_tri; [|exact Hres|exact HB]. congruence. }
    destruct (num_x u mu th Lr Q lam m E eps nu ltac:(lra) mu_u th_ge HLr (proj1 HQ) Hlam Hm1 eq_refl eq_refl Hsmall E0 HE (3 ^ n) (norm1 x) rho P3 X0 eq_refl Hlx) as (X1 & X2 & X3).
    split; [exact X1|]. split; [exact X2|]. rewrite <- flag_err. fold be.
    assert (eps * norm1 x <= eps * 1) by (apply Rmult_le_compat_l; lra).
    eapply all_le_weak; [|eapply all_le_tri2; [| |exact Hres|exact Hbe]]; [lra|congruence|]. unfold be. rewrite Lb, flag_length. reflexivity.
  Qed.

  Lemma fstep h xs js : finv h xs js -> let E := len (err js) in let mv := m * (2 * (E + 5 * eps) / lam) + nu in
    norm1 (diff (posns js) q0) + mv <= r -> 32 * Lr * E <= lam * lam ->
    exists h' xs' js', finv h' xs' js' /\
      run t (@solve_one_loop_with_constraints _ FS ovf la sv arm target (flags c) []) (quiet h nx) =
        Done (Ok (flagged (flags c) (@calc_pose_diff _ FS target (@product _ FS (@iso1 _ FS) (map (@local_transform _ FS) xs'))))) (quiet h' nx) /\
      norm1 (diff (posns js') q0) <= norm1 (diff (posns js) q0) + mv /\ len (err js') <= (1 - m / 2) * E + 13 * nu.
  Proof.
    intros Hi E mv Hmvr HE. destruct basic as (B1 & B2 & B3 & B4 & B5 & B6 & B7 & B8). pose proof (len_nonneg (err js)) as E0. fold E in E0.
    assert (Iv : 0 < / lam) by (apply Rinv_0_lt_compat; lra).
    assert (Mv0 : 0 <= m * (2 * (E + 5 * eps) / lam)) by (apply Rmult_le_pos; [lra|]; unfold Rdiv; apply Rmult_le_pos; lra).
    assert (Hn : norm1 (diff (posns js) q0) <= r) by (unfold mv in Hmvr; lra).
    destruct (fsolve h xs js Hi Hn HE) as (xf & x & Hxv & Lx & Hstep & X1 & X2 & Hres). fold E in X1.
    pose proof Hi as (Hf & Hx & Hs & Ho). destruct (finv_reach h xs js Hi Hn) as (El & Hrc & Hspan).
    pose proof (stands_unit _ _ _ _ _ Hs) as Hu. pose proof (finv_dof h xs js Hi) as Hdof. pose proof (finv_dof h0 xs0 js0 finv_start) as Hdof0.
    assert (Hchh : chain_of h (rev l) arm) by (eapply frozen_chain; eauto). pose proof Hchh as (En & Hmv & Hdf).
    destruct Hstep as (h' & w' & Hrun & Hw' & Hf' & Hoff & Hpos).
    pose proof (movable_vals prec emax alpha h (rev l) xs js Hx Hs) as HV. rewrite <- Hmv in HV.
    pose proof (movable_vals prec emax alpha h0 (rev l) xs0 js0 Hxs0 Hst0) as HV0. destruct Hch as (_ & Hmv0 & _). rewrite <- Hmv0 in HV0. fold q0 in HV0.
    destruct (positions_list h (c_movable arm) (posns js) HV) as (qf & Q1 & Q2).
    assert (Lq : length (posns js) = c_dof arm) by (rewrite nmov_posns; exact Hdof).
    assert (Lq0 : length q0 = c_dof arm) by (unfold q0; rewrite nmov_posns; exact Hdof0).
    assert (HQs : Forall (fun p => Rabs p <= Q) (posns js)).
    { assert (R1 : r <= 1) by (assert (1 * r <= Lr * r) by (apply Rmult_le_compat_r; lra); lra).
      apply Forall_lookup. intros i p Ep. destruct (lookup_lt_is_Some_2 q0 i) as [p0 Ep0]; [apply lookup_lt_Some in Ep; lia|].
      pose proof (norm1_entry (diff (posns js) q0) i (p - p0) ltac:(apply lookup_zip_with_Some; eauto)) as N.
      pose proof (proj1 (Forall_lookup _ _) HQ0 i p0 Ep0) as P0. cbv beta in P0. pose proof (Rabs_triang (p - p0) p0) as T. replace (p - p0 + p0) with p in T by ring. lra. }
    destruct (positions_rounded prec emax Hp Hm Hprec (jacobian_multiplier sv) m Q Hmul Hm1 HQ qf (posns js) xf x Q2 Hxv ltac:(congruence) HQs X2) as (q' & kap & K1 & K2 & K3 & K4 & K5).
    pose proof (norm1_pos x) as X0. pose proof (norm1_pos kap) as KP.
    assert (N3 : INR (length (posns js)) <= 3).
    { rewrite Lq, <- Hcnt. pose proof (le_INR _ _ (count_position c Hc)) as H. assert (INR 3 = 3) as E3 by (cbn; ring). lra. }
    pose proof (u_le prec Hprec) as U. pose proof mu_u as MU.
    assert (K6 : norm1 kap <= 3 * u * norm1 x + 3 * (u * Q + 2 * mu)).
    { eapply Rle_trans; [exact K5|]. apply Rplus_le_compat_l. apply Rmult_le_compat_r; [|exact N3]. assert (0 <= u * Q) by (apply Rmult_le_pos; lra). lra. }
    destruct (num_kap u mu th Lr Q lam m E eps nu ltac:(lra) mu_u th_ge HLr (proj1 HQ) Hlam Hm1 eq_refl eq_refl Hsmall E0 HE (norm1 x) (norm1 kap) (conj X0 X2) K6) as [K7 K8].
    assert (X3 : norm1 x <= 2 * (E + 5 * eps) / lam) by (apply Rmult_le_reg_l with lam; [lra|]; replace (lam * (2 * (E + 5 * eps) / lam)) with (2 * (E + 5 * eps)) by (field; lra); exact X1).
    assert (Mx : m * norm1 x <= m * (2 * (E + 5 * eps) / lam)) by (apply Rmult_le_compat_l; lra).
    assert (Hq' : norm1 (diff q' q0) <= norm1 (diff (posns js) q0) + mv).
    { eapply Rle_trans; [apply (diff_tri q' (posns js) q0); congruence|]. rewrite K4. pose proof (norm1_ladd m x kap ltac:(lra) ltac:(congruence)) as H. unfold mv. lra. }
    assert (HV' : Forall2 (fun a p => exists n, h' !! a = Some n /\ val (j_position (n_joint n)) p) (List.filter (node_movable h) (rev l)) q').
    { rewrite <- Hmv. apply Forall2_same_length_lookup_2; [rewrite (Forall2_length _ _ _ HV); congruence|]. intros i a p' Ea Ep'.
      destruct (Forall2_lookup_l _ _ _ _ _ Q1 Ea) as (pf & Epf & n & Hna & Hpn).
      assert (Hy : exists y, xf !! i = Some y). { apply lookup_lt_is_Some_2. rewrite (Forall2_length _ _ _ Hxv). apply lookup_lt_Some in Ep'. lia. }
      destruct Hy as [y Ey]. specialize (Hpos i a n Ea Hna). rewrite Ey in Hpos.
      assert (Hvp : val (SFadd prec emax pf (SFmul prec emax (jacobian_multiplier sv) y)) p').
      { destruct (Forall2_lookup_r _ _ _ _ _ K1 Ep') as (z & Ez & Hz). apply lookup_zip_with_Some in Ez as (a1 & b1 & -> & E1 & E2). congruence. }
      cbn [sadd smul FScalar] in Hpos. rewrite Hpn in Hpos.
      assert (Hlim : @limited _ FS (j_limits (n_joint n)) (SFadd prec emax pf (SFmul prec emax (jacobian_multiplier sv) y)) = SFadd prec emax pf (SFmul prec emax (jacobian_multiplier sv) y)).
      { destruct (j_limits (n_joint n)) as [lim|] eqn:Elim; [|reflexivity]. destruct (Forall2_lookup_l _ _ _ _ _ HV0 Ea) as (p0 & Ep0 & n0 & Hn0 & Vp0).
        destruct (frozen_at h0 h a n0 Hf Hn0) as (n2 & Hn2 & E2). assert (n2 = n) as -> by congruence. apply bare_eq in E2 as (_ & _ & _ & El0 & _).
        destruct (proj1 (Forall_forall _ _) Hroom a (elem_of_list_lookup_2 _ _ _ Ea) n0 lim Hn0 ltac:(congruence)) as (lo & hi & p1 & V1 & V2 & V3' & R1 & R2).
        assert (p1 = p0) as -> by (eapply val_fun; eauto).
        pose proof (norm1_entry (diff q' q0) i (p' - p0) ltac:(apply lookup_zip_with_Some; eauto)) as N.
        unfold limited. apply (clamp_inside prec emax L lim _ p' lo hi Hvp V1 V2). assert (Rabs (p' - p0) <= r) as A by lra. apply Rabs_le_inv in A. lra. }
      rewrite Hlim in Hpos. unfold position_at in Hpos. destruct (h' !! a) as [n'|]; [|discriminate]. cbn in Hpos. injection Hpos as Hpos. exists n'. split; [reflexivity|]. rewrite Hpos. exact Hvp. }
    destruct (moved_stand prec emax alpha h h' (rev l) xs js q' Hx Hs Hf') as (xs' & js' & G1 & G2 & G3 & G4); [|exact HV'|].
    { intros a Ha' Hna. assert (Hnm : a ∉ c_movable arm) by (rewrite Hmv; intros Hin; apply elem_of_list_In, filter_In in Hin as [_ Hin]; congruence).
      specialize (Hoff a Hnm). unfold position_at. destruct (h' !! a) as [n'|], (h !! a) as [n|]; cbn in *; try congruence.
      apply Some_inj, strip_eq in Hoff as (_ & _ & Hpp & _). congruence. }
    assert (Hi' : finv h' xs' js') by (split; [eapply frozen_trans; eauto|]; split; [exact G1|]; split; [exact G2|]; eapply others_trans; eauto).
    exists h', xs', js'. split; [exact Hi'|]. split; [|split].
    - rewrite Hrun. do 3 f_equal.
      assert (Hw2 : run t (@end_transform _ FS arm) (quiet h' nx) = Done (@product _ FS (@iso1 _ FS) (map (@local_transform _ FS) xs')) (quiet h' nx)).
      { unfold end_transform. apply run_end_fold. rewrite En. apply (joints_local h' (rev l) xs'). exact G1. }
      rewrite Hw' in Hw2. congruence.
    - rewrite G4. exact Hq'.
    - pose proof (fcore_step js js' tg c m Lr (5 * eps) x kap Hc Hu G3 ltac:(congruence) ltac:(congruence) ltac:(rewrite G4; exact K4) ltac:(lra) HLr Hspan ltac:(lra) Hres) as HC.
      exact (num_step u mu th Lr Q lam m E eps nu ltac:(lra) mu_u th_ge HLr (proj1 HQ) Hlam Hm1 eq_refl eq_refl Hsmall E0 HE (norm1 x) (norm1 kap) (5 * eps) (m * norm1 x + norm1 kap) _ X0 (conj KP K7) K8 X1 eq_refl (Rle_refl _) HC).
  Qed.

  (** ** the loop *)
  Context (K : nat) (tau ang : R).
  Let e0 := len (err js0).
  Let rho := 1 - m / 2.
  Hypothesis Hball : 64 * (e0 + INR K * nu) <= r * lam.
  Hypothesis Htau : val (allowable_target_distance sv) tau.
  Hypothesis Hang : val (allowable_target_angle sv) ang.
  Hypothesis Hang0 : 0 < ang.
  Hypothesis Htol : (1 + 8 * u) * (rho ^ K * e0 + 32 * nu / m) + faint prec emax < tau.
  Let room_at i := 2 / lam * (2 * e0 * (1 - rho ^ i) + 32 * INR i * nu).
  Lemma rho_pow i : 0 < rho ^ i <= 1.
  Proof. assert (0 < rho < 1) by (unfold rho; lra). split; [apply pow_lt; lra|]. rewrite <- (pow1 i). apply pow_incr. lra. Qed.
  Lemma nu_m : nu <= nu / m /\ 2048 * Lr * (nu / m) <= lam * lam.
  Proof.
    destruct basic as (B1 & B2 & _). assert (I : 1 <= / m) by (rewrite <- Rinv_1; apply Rinv_le_contravar; lra).
    split; [unfold Rdiv; rewrite <- (Rmult_1_r nu) at 1; apply Rmult_le_compat_l; lra|].
    apply Rmult_le_reg_l with m; [lra|]. replace (m * (2048 * Lr * (nu / m))) with (2048 * Lr * nu) by (field; lra). exact Hsmall.
  Qed.
  Lemma room_le i : (i <= K)%nat -> room_at i <= r.
  Proof.
    intros Hi. destruct basic as (B1 & B2 & _). pose proof (rho_pow i) as P. pose proof (len_nonneg (err js0)) as E0. fold e0 in E0.
    apply Rmult_le_reg_l with lam; [lra|]. unfold room_at. replace (lam * (2 / lam * (2 * e0 * (1 - rho ^ i) + 32 * INR i * nu))) with (4 * (e0 * (1 - rho ^ i)) + 64 * (INR i * nu)) by (field; lra).
    apply le_INR in Hi. assert (INR i * nu <= INR K * nu) by (apply Rmult_le_compat_r; lra). assert (e0 * (1 - rho ^ i) <= e0 * 1) by (apply Rmult_le_compat_l; lra).
    assert (0 <= INR K * nu) by (apply Rmult_le_pos; [apply pos_INR|lra]). lra.
  Qed.
  Lemma small_at i E : (i <= K)%nat -> 0 <= E <= rho ^ i * e0 + 26 * nu / m -> 32 * Lr * E <= lam * lam.
  Proof.
    intros Hi [HE0 HE]. destruct nu_m as [N1 N2]. pose proof (rho_pow i) as P. pose proof (len_nonneg (err js0)) as E0. fold e0 in E0. destruct basic as (B1 & B2 & _).
    assert (rho ^ i * e0 <= 1 * e0) by (apply Rmult_le_compat_r; lra).
    assert (HE2 : E <= e0 + 26 * (nu / m)) by (unfold Rdiv in *; lra). clear HE. set (nm := nu / m) in *. clearbody nm.
    assert (Lr * E <= Lr * (e0 + 26 * nm)) by (apply Rmult_le_compat_l; lra).
    assert (0 <= INR K * nu) by (apply Rmult_le_pos; [apply pos_INR|lra]).
    assert (64 * (Lr * e0) <= lam * lam).
    { apply Rle_trans with (Lr * (r * lam)); [|replace (Lr * (r * lam)) with (Lr * r * lam) by ring; apply Rmult_le_compat_r; lra].
      replace (64 * (Lr * e0)) with (Lr * (64 * e0)) by ring. apply Rmult_le_compat_l; lra. }
    assert (0 < lam * lam) by (apply Rmult_lt_0_compat; lra). lra.
  Qed.
  Lemma finv_clamped h xs js ps : finv h xs js -> norm1 (diff (posns js) q0) <= r -> map Some ps = map (position_at h) (c_movable arm) ->
    exists xs2 js2, finv (upd_all (@clampF _ FS) h (zip (c_movable arm) ps)) xs2 js2 /\ posns js2 = posns js.
  Proof.
    intros Hi Hn Hps. pose proof Hi as (Hf & Hx & Hs & Ho). assert (Hchh : chain_of h (rev l) arm) by (eapply frozen_chain; eauto). pose proof Hchh as (En & Hmv & Hdf).
    pose proof Hch as (_ & Hmv0 & _).
    assert (Hnd : NoDup (c_movable arm)).
    { rewrite Hmv0. apply NoDup_ListNoDup, List.NoDup_filter, NoDup_rev, NoDup_ListNoDup. eapply path_up_nodup; eauto. }
    set (h2 := upd_all (@clampF _ FS) h (zip (c_movable arm) ps)).
    assert (Hf2 : frozen h h2) by apply (upd_clamp_frozen (Sc := FS)).
    pose proof (movable_vals prec emax alpha h (rev l) xs js Hx Hs) as HV. rewrite <- Hmv in HV.
    pose proof (movable_vals prec emax alpha h0 (rev l) xs0 js0 Hxs0 Hst0) as HV0. rewrite <- Hmv0 in HV0. fold q0 in HV0.
    destruct (moved_stand prec emax alpha h h2 (rev l) xs js (posns js) Hx Hs Hf2) as (xs' & js' & G1 & G2 & G3 & G4).
    - intros a Ha' Hna. assert (Hnm : a ∉ c_movable arm) by (rewrite Hmv; intros Hin; apply elem_of_list_In, filter_In in Hin as [_ Hin]; congruence).
      pose proof (upd_clamp_offm (Sc := FS) h (c_movable arm) ps a Hnm) as Hoff. fold h2 in Hoff. unfold position_at. destruct (h2 !! a) as [n'|], (h !! a) as [n|]; cbn in *; try congruence.
      apply Some_inj, strip_eq in Hoff as (_ & _ & Hpp & _). congruence.
    - rewrite <- Hmv. apply Forall2_same_length_lookup_2; [exact (Forall2_length _ _ _ HV)|]. intros i a p Ea Ep.
      destruct (Forall2_lookup_lr _ _ _ _ _ _ HV Ea Ep) as (n & Hna & Vp).
      destruct (positions_at h _ ps i a Hps Ea) as (pf & Epf & Hpa). unfold position_at in Hpa. rewrite Hna in Hpa. cbn in Hpa. apply Some_inj in Hpa.
      assert (Hty : movable (n_joint n)) by (unfold movable; eapply movable_type; [exact Hchh|eapply elem_of_list_lookup_2; exact Ea|exact Hna]).
      pose proof (position_upd_clamp (Sc := FS) h (c_movable arm) ps i a pf n Hnd Ea Epf Hna Hty) as HP. fold h2 in HP.
      assert (Hlim : @clamp_to _ FS (j_limits (n_joint n)) pf = pf).
      { destruct (j_limits (n_joint n)) as [lim|] eqn:Elim; [|reflexivity]. destruct (Forall2_lookup_l _ _ _ _ _ HV0 Ea) as (p0 & Ep0 & n0 & Hn0 & Vp0).
        destruct (frozen_at h0 h a n0 Hf Hn0) as (n2 & Hn2 & E2). assert (n2 = n) as -> by congruence. apply bare_eq in E2 as (_ & _ & _ & El0 & _).
        destruct (proj1 (Forall_forall _ _) Hroom a (elem_of_list_lookup_2 _ _ _ Ea) n0 lim Hn0 ltac:(congruence)) as (lo & hi & p1 & V1 & V2 & V3' & R1 & R2).
        assert (p1 = p0) as -> by (eapply val_fun; eauto).
        pose proof (norm1_entry (diff (posns js) q0) i (p - p0) ltac:(apply lookup_zip_with_Some; eauto)) as N.
        rewrite <- Hpa. apply (clamp_inside prec emax L lim _ p lo hi Vp V1 V2). assert (Rabs (p - p0) <= r) as A by lra. apply Rabs_le_inv in A. lra. }
      rewrite Hlim in HP. unfold position_at in HP. destruct (h2 !! a) as [n'|]; [|discriminate]. cbn in HP. injection HP as HP. exists n'. split; [reflexivity|]. rewrite HP, <- Hpa. exact Vp.
    - exists xs', js'. split; [|exact G4]. split; [eapply frozen_trans; eauto|]. split; [exact G1|]. split; [exact G2|]. eapply others_trans; eauto.
  Qed.
  Lemma floop orig n : forall h xs js i k last, finv h xs js ->
    len (err js) <= rho ^ i * e0 + 26 * nu / m -> norm1 (diff (posns js) q0) <= room_at i -> (1 <= k <= n)%nat -> (i + k = K)%nat ->
    exists h' xs' js', run t (@ik_loop _ FS ovf la sv arm target (flags c) [] orig n last) (quiet h nx) = Done (Ok tt) (quiet h' nx) /\ finv h' xs' js' /\ norm1 (diff (posns js') q0) <= r.
  Proof.
    destruct basic as (B1 & B2 & B3 & B4 & B5 & B6 & B7 & B8). destruct nu_m as [N1 N2].
    induction n as [|n IH]; intros h xs js i k last Hi HE HD Hk HK; [lia|]. cbn [ik_loop].
    pose proof (len_nonneg (err js)) as E0. pose proof (len_nonneg (err js0)) as E00. fold e0 in E00. pose proof (small_at i (len (err js)) ltac:(lia) (conj E0 HE)) as Hsm.
    assert (Hmv : norm1 (diff (posns js) q0) + (m * (2 * (len (err js) + 5 * eps) / lam) + nu) <= room_at (S i)).
    { assert (Iv : 0 < / lam) by (apply Rinv_0_lt_compat; lra). assert (Il : 1 <= / lam) by (rewrite <- Rinv_1; apply Rinv_le_contravar; lra).
      assert (H1 : m * len (err js) <= m * (rho ^ i * e0) + 26 * nu).
      { replace (m * (rho ^ i * e0) + 26 * nu) with (m * (rho ^ i * e0 + 26 * nu / m)) by (field; lra). apply Rmult_le_compat_l; lra. }
      assert (H2 : m * (5 * eps) <= 1 * (5 * nu)) by (apply Rmult_le_compat; lra).
      assert (H3 : nu <= 2 / lam * nu). { rewrite <- (Rmult_1_l nu) at 1. apply Rmult_le_compat_r; unfold Rdiv; lra. }
      unfold room_at in *. rewrite S_INR. change (rho ^ S i) with (rho * rho ^ i).
      replace (2 / lam * (2 * e0 * (1 - rho * rho ^ i) + 32 * (INR i + 1) * nu)) with
        (2 / lam * (2 * e0 * (1 - rho ^ i) + 32 * INR i * nu) + 2 / lam * (m * (rho ^ i * e0) + 31 * nu) + 2 / lam * nu) by (unfold rho; field; lra).
      assert (m * (2 * (len (err js) + 5 * eps) / lam) <= 2 / lam * (m * (rho ^ i * e0) + 31 * nu)); [|lra].
      replace (m * (2 * (len (err js) + 5 * eps) / lam)) with (2 / lam * (m * len (err js) + m * (5 * eps))) by (field; lra).
      apply Rmult_le_compat_l; [unfold Rdiv; lra|lra]. }
    pose proof (room_le (S i) ltac:(lia)) as HR.
    destruct (fstep h xs js Hi ltac:(lra) Hsm) as (h' & xs' & js' & Hi' & Hrun & HD' & HE').
    assert (HE2 : len (err js') <= rho ^ S i * e0 + 26 * nu / m).
    { eapply Rle_trans; [exact HE'|]. change (rho ^ S i) with (rho * rho ^ i). fold rho.
      replace (rho * rho ^ i * e0 + 26 * nu / m) with (rho * (rho ^ i * e0 + 26 * nu / m) + 13 * nu) by (unfold rho; field; lra).
      apply Rplus_le_compat_r. apply Rmult_le_compat_l; [unfold rho; lra|exact HE]. }
    assert (HD2 : norm1 (diff (posns js') q0) <= r) by lra.
    rewrite run_bind, Hrun. cbn [obind].
    set (w := @product _ FS (@iso1 _ FS) (map (@local_transform _ FS) xs')) in *.
    destruct (@reached _ FS sv (@target_diff_to_len_rot_diff _ FS (flagged (flags c) (@calc_pose_diff _ FS target w)) (flags c))) eqn:Hre.
    - pose proof Hi' as (Hf' & _). assert (Hc' : chain_of h' (rev l) arm) by (eapply frozen_chain; eauto).
      destruct (run_positions t h' nx arm _ Hc') as (ps & Hps & Hlps & Epos). rewrite run_bind, Hps. cbn [obind].
      assert (Hlive' : all_live h' (c_movable arm)) by (eapply movable_live; exact Hc').
      rewrite run_bind, (run_clamped (Sc := FS)) by exact Hlive'. cbn [obind run].
      destruct (finv_clamped h' xs' js' ps Hi' HD2 Epos) as (xs2 & js2 & Hi2 & Ep2). eexists _, xs2, js2. split; [reflexivity|]. split; [exact Hi2|]. rewrite Ep2. exact HD2.
    - destruct k as [|[|k]]; [lia| |].
      + exfalso. assert (S i = K) as EK by lia. rewrite EK in HE2.
        destruct (finv_close h' xs' js' Hi' HD2) as (rr & Hrr & Hdist & _). fold w in Hrr.
        assert (HE3 : len (err js') <= 1).
        { pose proof (small_at K (len (err js')) ltac:(lia) (conj (len_nonneg _) HE2)) as H. pose proof (len_nonneg (err js')). assert (1 * len (err js') <= Lr * len (err js')) by (apply Rmult_le_compat_r; lra). lra. }
        destruct (err_val prec emax Hp Hm L Hprec c target w tg rr (tip js') eps (len (err js')) Hc Htg Hrr Hdist ltac:(lra) ltac:(lra) ltac:(apply Rle_refl) HE3)
          as (d & _ & Hv & Hs0 & Dx & Dy & Dz). fold (err js') in Dx, Dy, Dz.
        assert (Hld : len d <= len (err js') + 6 * eps).
        { replace d with (plus (err js') (minus d (err js'))) by (destruct d, (err js'); unfold plus, minus; cbn; f_equal; ring).
          eapply Rle_trans; [apply ReachProofs.len_plus|]. apply Rplus_le_compat_l. replace (6 * eps) with (2 * (3 * eps)) by ring. apply len_comps; [exact Dx|exact Dy|exact Dz]. }
        assert (Hd2 : len d <= rho ^ K * e0 + 32 * nu / m) by (unfold Rdiv in *; lra).
        assert (H8 : rho ^ K * e0 + 32 * nu / m <= 8).
        { pose proof (rho_pow K) as P. assert (rho ^ K * e0 <= 1 * e0) by (apply Rmult_le_compat_r; lra). assert (0 <= INR K * nu) by (apply Rmult_le_pos; [apply pos_INR|lra]).
          assert (r * lam <= 1 * lam). { apply Rmult_le_compat_r; [lra|]. assert (1 * r <= Lr * r) by (apply Rmult_le_compat_r; lra). lra. }
          assert (1 * (nu / m) <= Lr * (nu / m)) by (apply Rmult_le_compat_r; lra). unfold Rdiv in *. lra. }
        pose proof (reached_close prec emax Hp Hm L Hprec sv _ d _ tau ang Hv Hs0 Hd2 H8 Htau Hang Hang0 Htol) as HT. congruence.
      + apply (IH h' xs' js' (S i) (S k)); [exact Hi'|exact HE2|lra|lia|lia].
  Qed.
  Lemma fconv_solve : ignored_joint_names c = [] -> (1 <= K <= num_max_try sv)%nat ->
    exists h' xs' js', run t (@solve_with_constraints _ FS ovf la sv arm target c) (quiet h0 nx) = Done (Ok tt) (quiet h' nx) /\
      finv h' xs' js' /\ norm1 (diff (posns js') q0) <= r.
  Proof.
    intros Hign HK. unfold solve_with_constraints.
    destruct (run_positions t h0 nx arm _ Hch) as (orig & Horig & _ & _). rewrite run_bind, Horig. cbn [obind].
    assert (HI : exists h' xs' js', run t (@solve_with_constraints_internal _ FS ovf la sv arm target c) (quiet h0 nx) = Done (Ok tt) (quiet h' nx) /\
      finv h' xs' js' /\ norm1 (diff (posns js') q0) <= r).
    { unfold solve_with_constraints_internal. rewrite run_bind, Horig. cbn [obind].
      change (define_operational_space c) with (flags c). change (count_true (flags c)) with (count (flags c)). rewrite Hign.
      rewrite run_bind. unfold dof. rewrite run_usize_sub by (change (length (@nil string)) with 0%nat; lia). cbn [obind]. rewrite decide_False by (change (length (@nil string)) with 0%nat; lia).
      cbn [ignored_indices run]. rewrite run_bind. cbn [run obind]. change (sort_unstable []) with (@nil nat).
      destruct (floop orig (num_max_try sv) h0 xs0 js0 0%nat K None finv_start) as (h' & xs' & js' & H1 & H2 & H3).
      - fold e0. destruct basic as (B1 & B2 & _). assert (0 <= 26 * nu / m) by (unfold Rdiv; apply Rmult_le_pos; [lra|left; apply Rinv_0_lt_compat; lra]). cbn [pow]. lra.
      - fold q0. rewrite norm1_diff_self. unfold room_at. cbn [INR pow]. replace (2 / lam * _) with 0 by (field; lra). lra.
      - exact HK.
      - reflexivity.
      - exists h', xs', js'. split; [exact H1|]. split; assumption. }
    destruct HI as (h' & xs' & js' & H1 & H2 & H3). exists h', xs', js'. rewrite run_bind, H1. cbn [obind run]. auto.
  Qed.
End Loop.
