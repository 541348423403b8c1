(** * Rounding errors of the Jacobian *)
From Coq Require Import Reals ZArith Lra Lia Psatz Floats.SpecFloat.
From Flocq Require Import Core IEEE754.BinarySingleNaN.
From stdpp Require Import gmap.
From Verif Require Import Scalar ScalarR ScalarF Geometry Joint Link Prog NodeM ChainM FuncsM RunLemmas SpecValues SpecFloatErr FloatErr
  SpecNode SpecGraph SpecChain GraphProofs ChainProofs SpecFK FKProofs JacProofs SpecGeom RGeom GeomProofs SpecReach ReachProofs SpecAcc AccProofs AccProofs2 SpecJacAcc.
Local Open Scope R_scope.

Lemma cross_diff a b a' b' : dist (cross a b) (cross a' b') <= dist a a' * len b + len a' * dist b b'.
Proof.
  unfold dist. assert (minus (cross a b) (cross a' b') = plus (cross (minus a a') b) (cross a' (minus b b'))) as ->.
  { destruct a, b, a', b'. apply V3_eq; cbn; ring. }
  eapply Rle_trans; [apply len_plus|]. apply Rplus_le_compat; apply len_cross.
Qed.

Section Acc.
  Context (prec emax : Z) (Hp : Prec_gt_0 prec) (Hm : Prec_lt_emax prec emax) (L : libm).
  Notation val := (val prec emax).
  Notation vval := (vval prec emax).
  Notation u := (unit_roundoff prec).
  Notation mu := (tiny emax).
  Notation BIG := (bpow radix2 (emax - 2)).
  Notation FS := (FScalar prec emax L).
  Context (Hprec : (11 <= prec)%Z) (alpha delta : R) (Ha : 0 <= alpha) (Hd : 0 <= delta) (HL : libm_within prec emax delta L).
  Notation rho := (32 * u).
  Notation approx := (approx prec emax).
  Notation VT := (VT prec emax).

  Lemma VT_sub k m1 m2 x y r s : (k < 16)%nat -> m1 + m2 <= BIG -> VT k m1 x r -> VT k m2 y s -> VT (S k) (m1 + m2) (@vsub _ FS x y) (vsub r s).
  Proof. intros Hk HB (A & B & C) (A' & B' & C'). repeat split; apply T_sub; assumption. Qed.

  (** the axis in the world *)
  Lemma axis_close X l x w ax a : 1 <= X -> approx X l x w -> near_axis prec emax alpha ax a ->
    14 * ((1 + alpha) * X ^ 2) <= BIG ->
    exists r, vval (@qrot _ FS (rt x) ax) r /\ dist r (qrot (rt w) a) <= (1 + alpha) * (X * (1 + rho)) ^ 8 - 1.
  Proof.
    intros HX (Pw & Lw & w' & (Tw & Qw) & Ew & Dw) (Hu & r & Hr & He) HB.
    pose proof (u_small prec Hprec) as [U0 U1]. pose proof (mu_small prec emax Hm Hprec) as [M0 M1].
    assert (qa : qlen (rt w') <= X) by (replace X with (1 + (X - 1)) by ring; eapply qlen_near; [exact Pw|exact Ew]).
    assert (Rb : len r <= 1 + alpha) by (pose proof (len_near r a); rewrite (len_unit a Hu) in *; lra).
    pose proof (pow_ge_1 X 2 HX) as X2. assert (XX : X <= X ^ 2) by nra.
    set (Q := (1 + alpha) * X ^ 2) in *.
    assert (Q1 : X ^ 2 <= Q) by (unfold Q; nra). assert (Q2 : 1 + alpha <= Q) by (unfold Q; nra).
    assert (Xm : X * mu <= X * / 1024) by (apply Rmult_le_compat_l; lra).
    set (M := 12 * X ^ 2 * (1 + alpha) + 15 * X * mu + 3 * mu + (1 + alpha)).
    assert (HM : M <= 14 * Q) by (unfold M; replace (12 * X ^ 2 * (1 + alpha)) with (12 * Q) by (unfold Q; ring); lra).
    assert (VR : VT 7 M (@qrot _ FS (rt x) ax) (qrot (rt w') r)).
    { apply qrot_T; try assumption. fold M. lra. }
    apply VT_err in VR as (rv & Vv & Dv). exists rv. split; [exact Vv|].
    pose proof (dist_tri rv (qrot (rt w') r) (qrot (rt w) a)) as H1.
    pose proof (dist_tri (qrot (rt w') r) (qrot (rt w) r) (qrot (rt w) a)) as H2.
    pose proof (qrot_diff (rt w) (rt w') r (X - 1) Pw Ew) as H3. replace (1 + (X - 1)) with X in H3 by ring.
    assert (H4 : dist (qrot (rt w) r) (qrot (rt w) a) <= alpha).
    { unfold dist. rewrite !qrot_turn, <- turn_minus, len_turn by exact Pw. exact He. }
    pose proof (pow8_sq X HX) as H5. pose proof (len_nonneg r) as R0.
    assert (H6 : 4 * (X ^ 2 - 1) * len r <= (X ^ 8 - 1) * (1 + alpha)) by (apply Rmult_le_compat; lra).
    pose proof (u8 prec Hprec) as H7. pose proof (pow_mono (1 + u) 7 8 ltac:(lra) ltac:(lia)) as H8. pose proof (pow_ge_1 (1 + u) 7 ltac:(lra)) as H9.
    assert (H10 : ((1 + u) ^ 7 - 1) * M <= 9 * u * (14 * Q)).
    { apply Rmult_le_compat; try lra. unfold M. assert (0 <= X * mu) by (apply Rmult_le_pos; lra).
      assert (0 <= X ^ 2 * (1 + alpha)) by (apply Rmult_le_pos; lra). lra. }
    rewrite Rpow_mult_distr. pose proof (bernoulli rho 8 ltac:(lra)) as Hb. cbn [INR] in Hb.
    pose proof (pow_mono X 2 8 HX ltac:(lia)) as X28.
    set (Z8 := X ^ 8) in *. assert (Z1 : 1 <= Z8) by lra.
    assert (QZ : Q <= (1 + alpha) * Z8) by (unfold Q; apply Rmult_le_compat_l; lra).
    assert (UQ : u * Q <= u * ((1 + alpha) * Z8)) by (apply Rmult_le_compat_l; lra).
    assert (Fin : (1 + alpha) * Z8 * (1 + 8 * rho) <= (1 + alpha) * Z8 * (1 + rho) ^ 8) by (apply Rmult_le_compat_l; [apply Rmult_le_pos|]; lra).
    assert (UP : 0 <= u * ((1 + alpha) * Z8)) by (apply Rmult_le_pos; [lra|apply Rmult_le_pos; lra]).
    rewrite <- Rmult_assoc. lra.
  Qed.
  (** the lever crossed with it *)
  Lemma lever_close X l x w y e ax r a A : 1 <= X -> 1 <= A -> mu <= l -> approx X l x w -> approx X l y e ->
    vval ax r -> dist r a <= A - 1 -> len a = 1 -> 4 * (A * X ^ 8 * l) + 2 * mu <= BIG ->
    exists v, vval (@vcross _ FS ax (@vsub _ FS (tr y) (tr x))) v /\
      dist v (cross a (minus (tr e) (tr w))) <= (A * X ^ 8 * (1 + rho) - 1) * (2 * l).
  Proof.
    intros HX HA Hl (Pw & Lw & w' & (Tw & Qw) & Ew & Dw) (Pe & Le & e' & (Te & Qe) & Ee & De) Hr Hra Hu HB.
    pose proof (u_small prec Hprec) as [U0 U1]. pose proof (mu_small prec emax Hm Hprec) as [M0 M1].
    pose proof (pow_ge_1 X 8 HX) as X8. set (Z8 := X ^ 8) in *.
    assert (tw : len (tr w') <= Z8 * l) by (pose proof (len_near (tr w') (tr w)); lra).
    assert (te : len (tr e') <= Z8 * l) by (pose proof (len_near (tr e') (tr e)); lra).
    assert (ra : len r <= A) by (pose proof (len_near r a); lra).
    assert (Zl : 0 <= Z8 * l) by (apply Rmult_le_pos; lra).
    assert (Al : Z8 * l <= A * Z8 * l) by (rewrite Rmult_assoc; rewrite <- (Rmult_1_l (Z8 * l)) at 1; apply Rmult_le_compat_r; lra).
    assert (VS : VT 1 (Z8 * l + Z8 * l) (@vsub _ FS (tr y) (tr x)) (vsub (tr e') (tr w'))).
    { apply VT_sub; [lia|lra| |]; (eapply VT_weak; [exact Hprec|apply VT_val; eassumption|lia|assumption]). }
    assert (VC : VT 3 (2 * (A * (Z8 * l + Z8 * l) + mu)) (@vcross _ FS ax (@vsub _ FS (tr y) (tr x))) (vcross r (vsub (tr e') (tr w')))).
    { apply VT_cross; try assumption; [lia|lra|]. eapply VT_weak; [exact Hprec|apply VT_val; eassumption|lia|assumption]. }
    apply VT_err in VC as (v & Vv & Dv). exists v. split; [exact Vv|].
    change (vcross r (vsub (tr e') (tr w'))) with (cross r (minus (tr e') (tr w'))) in Dv.
    pose proof (dist_tri v (cross r (minus (tr e') (tr w'))) (cross a (minus (tr e) (tr w)))) as H1.
    pose proof (cross_diff r (minus (tr e') (tr w')) a (minus (tr e) (tr w))) as H2. rewrite Hu, Rmult_1_l in H2.
    assert (Hneg : forall v, len (times (-1) v) = len v) by (intros b; rewrite len_times, Rabs_left by lra; ring).
    assert (H3 : len (minus (tr e') (tr w')) <= 2 * (Z8 * l)).
    { assert (minus (tr e') (tr w') = plus (tr e') (times (-1) (tr w'))) as -> by (destruct (tr e'), (tr w'); gv; ring).
      eapply Rle_trans; [apply len_plus|]. rewrite Hneg. lra. }
    assert (H4 : dist (minus (tr e') (tr w')) (minus (tr e) (tr w)) <= 2 * ((Z8 - 1) * l)).
    { unfold dist in *. assert (minus (minus (tr e') (tr w')) (minus (tr e) (tr w)) = plus (minus (tr e') (tr e)) (times (-1) (minus (tr w') (tr w)))) as ->
        by (destruct (tr e'), (tr w'), (tr e), (tr w); gv; ring).
      eapply Rle_trans; [apply len_plus|]. rewrite Hneg. lra. }
    assert (H5 : dist r a * len (minus (tr e') (tr w')) <= (A - 1) * (2 * (Z8 * l))).
    { apply Rmult_le_compat; try assumption; apply len_nonneg. }
    assert (H6 : (1 + u) ^ 3 - 1 <= 4 * u).
    { replace ((1 + u) ^ 3 - 1) with (u * (3 + u * (3 + u))) by ring. rewrite (Rmult_comm 4). apply Rmult_le_compat_l; [lra|]. nra. }
    pose proof (pow_ge_1 (1 + u) 3 ltac:(lra)) as H7.
    assert (H8 : ((1 + u) ^ 3 - 1) * (2 * (A * (Z8 * l + Z8 * l) + mu)) <= 4 * u * (6 * (A * Z8 * l))).
    { apply Rmult_le_compat; try lra.
      assert (mu <= Z8 * l) by (assert (1 * l <= Z8 * l) by (apply Rmult_le_compat_r; lra); lra).
      assert (A * (Z8 * l + Z8 * l) = 2 * (A * Z8 * l)) by ring. lra. }
    assert (0 <= u * (A * Z8 * l)) by (apply Rmult_le_pos; lra).
    lra.
  Qed.

  (** every prefix of the arm *)
  Notation G := (growth prec alpha delta).
  Lemma growth_ge : (1 + alpha) * (1 + rho) <= G.
  Proof.
    pose proof (u_small prec Hprec) as [U0 U1]. rewrite growth_grow. unfold grow. pose proof (own_ge prec Hprec alpha delta Ha Hd) as Ho.
    assert (1 <= own prec alpha delta * (1 + rho)) by nra. assert (0 <= (1 + alpha) * (1 + rho)) by (apply Rmult_le_pos; lra). nra.
  Qed.
  Lemma reach_app js1 js2 : reach emax (js1 ++ js2) = reach emax js1 + reach emax js2.
  Proof.
    assert (E : forall a b, total (a ++ b) = total a + total b).
    { intros a b. induction a as [|x a IH]; [change (total b = 0 + total b); ring|]. cbn [app]. rewrite !total_cons, IH. ring. }
    unfold reach. rewrite map_app, E, app_length, plus_INR. ring.
  Qed.
  Lemma prefix_approx xs1 js1 js2 : Forall2 (stands_for prec emax alpha) xs1 js1 -> fits_jacobian prec emax alpha delta (js1 ++ js2) ->
    approx (G ^ length (js1 ++ js2)) (reach emax (js1 ++ js2))
      (@product _ FS (@iso1 _ FS) (map (@local_transform _ FS) xs1)) (product iso1 (map local_transform js1)).
  Proof.
    intros Hs Hf. pose proof (u_small prec Hprec) as [U0 U1]. pose proof growth_ge as Hg. assert (G1 : 1 <= G) by nra.
    pose proof (reach_app js1 js2) as Er. pose proof (slack_pos prec emax Hm Hprec js1) as S1. pose proof (slack_pos prec emax Hm Hprec js2) as S2.
    rewrite !slack_reach in S1, S2. unfold fits_jacobian in Hf. pose proof (bpow_pred emax) as B1. rewrite (big_double emax) in B1.
    pose proof (approx_product prec emax Hp Hm L Hprec alpha delta Ha Hd HL xs1 js1 Hs 1 0 _ _ (Rle_refl 1) (Rle_refl 0)
      (approx_iso1 prec emax Hp Hm L Hprec 1 0 (Rle_refl 1) (Rle_refl 0))) as H.
    rewrite Rmult_1_l, Rplus_0_l, slack_reach in H. eapply (approx_weak prec emax); [apply H| | |].
    - rewrite <- pow_mult. assert (G ^ (length js1 * 8) <= G ^ (16 * S (length (js1 ++ js2)))) as Hg'.
      { apply pow_mono; [exact G1|]. rewrite app_length. lia. }
      assert (G ^ (length js1 * 8) * (reach emax js1 + 1) <= G ^ (16 * S (length (js1 ++ js2))) * (reach emax (js1 ++ js2) + 1)).
      { apply Rmult_le_compat; try lra. pose proof (pow_ge_1 G (length js1 * 8) G1). lra. }
      lra.
    - apply pow_ge_1, G1.
    - apply pow_mono; [exact G1|]. rewrite app_length. lia.
    - lra.
  Qed.
  (** one column *)
  Lemma column_close js x w y e ty ty' col col' : js <> [] -> fits_jacobian prec emax alpha delta js ->
    approx (G ^ length js) (reach emax js) x w -> approx (G ^ length js) (reach emax js) y e ->
    near_type prec emax alpha ty' ty -> @jcol _ FS (tr y) x ty' = Some col' -> jcol (tr e) w ty = Some col ->
    exists v o (v0 o0 : vec3 R), column_val prec emax col' v o /\ col = [vx v0; vy v0; vz v0; vx o0; vy o0; vz o0] /\
      rates_close prec emax alpha delta js v o v0 o0.
  Proof.
    intros Hne Hf Hx Hy Ht Hc' Hc. pose proof (u_small prec Hprec) as [U0 U1]. pose proof (mu_small prec emax Hm Hprec) as [M0 M1].
    pose proof growth_ge as Hg. assert (G1 : 1 <= G) by nra.
    assert (Rl : mu <= reach emax js).
    { destruct js as [|j js]; [contradiction|]. pose proof (slack_pos prec emax Hm Hprec js) as S0. pose proof (span_pos j).
      rewrite <- slack_reach, slack_cons. lra. }
    unfold fits_jacobian in Hf. unfold rates_close. set (n := length js) in *. set (l := reach emax js) in *. set (X := G ^ n) in *.
    pose proof (bpow_pred emax) as B1. rewrite (big_double emax) in B1.
    pose proof (pow_ge_1 G n G1) as X1. fold X in X1.
    assert (EA : (X * G) ^ 8 = G ^ (8 * S n)) by (unfold X; rewrite (Rmult_comm _ G); change (G * G ^ n) with (G ^ S n); rewrite <- pow_mult; f_equal; lia).
    assert (EX : X ^ 8 = G ^ (8 * n)) by (unfold X; rewrite <- pow_mult; f_equal; lia).
    set (A := G ^ (8 * S n)) in *. pose proof (pow_ge_1 G (8 * S n) G1) as A1. fold A in A1.
    assert (AB : (1 + alpha) * (X * (1 + rho)) ^ 8 <= A).
    { rewrite <- EA. rewrite !Rpow_mult_distr. assert (0 <= X ^ 8) by (apply pow_le; lra).
      assert ((1 + alpha) * (1 + rho) ^ 8 <= G ^ 8).
      { apply Rle_trans with (((1 + alpha) * (1 + rho)) ^ 8).
        - rewrite Rpow_mult_distr. apply Rmult_le_compat_r; [apply pow_le; lra|]. pose proof (pow_mono (1 + alpha) 1 8 ltac:(lra) ltac:(lia)). lra.
        - apply pow_incr. split; [apply Rmult_le_pos; lra|exact Hg]. }
      replace ((1 + alpha) * (X ^ 8 * (1 + rho) ^ 8)) with (X ^ 8 * ((1 + alpha) * (1 + rho) ^ 8)) by ring. apply Rmult_le_compat_l; assumption. }
    assert (AC : A * X ^ 8 * (1 + rho) <= G ^ (16 * S n)).
    { apply Rle_trans with (A * X ^ 8 * G).
      - apply Rmult_le_compat_l; [apply Rmult_le_pos; [lra|apply pow_le; lra]|]. nra.
      - rewrite EX. unfold A. rewrite <- pow_add, Rmult_comm. change (G * G ^ (8 * S n + 8 * n)) with (G ^ S (8 * S n + 8 * n)). apply pow_mono; [exact G1|lia]. }
    assert (AD : A <= G ^ (16 * S n)) by (apply pow_mono; [exact G1|lia]). set (D := G ^ (16 * S n)) in *.
    assert (AX : A * X ^ 8 <= D).
    { assert (0 <= A * X ^ 8) by (apply Rmult_le_pos; [lra|apply pow_le; lra]). nra. }
    assert (HB1 : 14 * ((1 + alpha) * X ^ 2) <= BIG).
    { assert ((1 + alpha) * X ^ 2 <= A).
      { eapply Rle_trans; [|exact AB]. apply Rmult_le_compat_l; [lra|]. eapply Rle_trans; [apply (pow_mono X 2 8 X1); lia|]. apply pow_incr. nra. }
      assert (0 <= D * l) by (apply Rmult_le_pos; lra). assert (E0 : 0 <= l) by lra. lra. }
    assert (HB2 : 4 * (A * X ^ 8 * l) + 2 * mu <= BIG).
    { assert (A * X ^ 8 * l <= D * l) by (apply Rmult_le_compat_r; lra). assert (0 <= D * l) by (apply Rmult_le_pos; lra). lra. }
    destruct ty' as [|ax|ax], ty as [|a|a]; try contradiction; cbv beta iota zeta delta [jcol] in Hc, Hc'; [inversion Hc| |];
      apply Some_inj in Hc; apply Some_inj in Hc'; subst col col';
      destruct (axis_close X l x w ax a X1 Hx Ht HB1) as (r & Vr & Dr);
      (assert (Dr' : dist r (qrot (rt w) a) <= A - 1) by (eapply Rle_trans; [exact Dr|apply Rplus_le_compat_r; exact AB])); clear Dr;
      (assert (Ur : len (qrot (rt w) a) = 1) by (rewrite qrot_turn, len_turn by apply Hx; apply len_unit, Ht)).
    - destruct (lever_close X l x w y e _ r (qrot (rt w) a) A X1 A1 Rl Hx Hy Vr Dr' Ur HB2) as (v & Vv & Dv).
      exists v, r, (cross (qrot (rt w) a) (minus (tr e) (tr w))), (qrot (rt w) a). split.
      { destruct Vv as (? & ? & ?), Vr as (? & ? & ?). unfold column_val. do 6 (constructor; [assumption|]). constructor. }
      split; [reflexivity|]. split; [|exact Dr']. eapply Rle_trans; [exact Dv|]. apply Rmult_le_compat; try lra.
      assert (1 <= A * X ^ 8) by (pose proof (pow_ge_1 X 8 X1); nra). nra.
    - exists r, (V3 0 0 0), (qrot (rt w) a), (V3 0 0 0). split.
      { destruct Vr as (? & ? & ?). pose proof (val_zero prec emax L). unfold column_val. do 6 (constructor; [assumption|]). constructor. }
      split; [reflexivity|]. rewrite dist_self. split; [|lra].
      assert (0 <= (D - 1) * (2 * l)) by (apply Rmult_le_pos; lra). lra.
  Qed.
End Acc.

Section Shape.
  Context (prec emax : Z) (Hp : Prec_gt_0 prec) (Hm : Prec_lt_emax prec emax) (L : libm) (Hprec : (11 <= prec)%Z) (alpha delta : R)
    (Ha : 0 <= alpha) (Hd : 0 <= delta) (HL : libm_within prec emax delta L).
  Context (hf : gmap nat (node spec_float)) (hr : gmap nat (node R)) (Hs : stand_for prec emax alpha hf hr).
  Notation FS := (FScalar prec emax L).

  Lemma stand_movable a : node_movable hf a = node_movable hr a.
  Proof.
    unfold node_movable. specialize (Hs a). destruct (hf !! a) as [x|], (hr !! a) as [y|]; try contradiction; [|reflexivity].
    destruct Hs as (_ & Ht & _). destruct (j_type (n_joint x)), (j_type (n_joint y)); try contradiction; reflexivity.
  Qed.
  Lemma stand_chain l c : chain_of hr l c -> chain_of hf l c.
  Proof.
    assert (E : forall k, List.filter (node_movable hf) k = List.filter (node_movable hr) k) by (intros k; apply filter_ext, stand_movable).
    unfold chain_of. rewrite E. auto.
  Qed.
  Lemma joints_local {T} `{Scalar T} (h : gmap nat (node T)) l js : joints_of h l js -> Forall2 (local_at h) l (map local_transform js).
  Proof. induction 1 as [|a j l js (n & Hn & ->) H2 IH]; constructor; [exists n; auto|exact IH]. Qed.
  Lemma jacobian_close t nx arm e l js : path_up hr e l -> chain_of hr (rev l) arm -> joints_of hr (rev l) js ->
    fits_jacobian prec emax alpha delta js ->
    exists cf cr s s', run t (@jacobian _ FS arm) (quiet hf nx) = Done (Mat 6 cf) s /\
      run t (jacobian arm) (quiet hr nx) = Done (Mat 6 cr) s' /\ length cf = c_dof arm /\ length cr = c_dof arm /\
      forall i x w, cf !! i = Some x -> cr !! i = Some w ->
        exists v o (v0 o0 : vec3 R), column_val prec emax x v o /\ w = [vx v0; vy v0; vz v0; vx o0; vy o0; vz o0] /\
      rates_close prec emax alpha delta js v o v0 o0.
  Proof.
    intros Hpath Hch Hjs Hf. pose proof Hch as (En & Emv & _).
    pose proof (stand_path _ _ _ _ _ Hs _ _ Hpath) as Hpathf. pose proof (stand_chain _ _ Hch) as Hchf.
    destruct (stand_joints _ _ _ _ _ Hs _ _ Hjs) as (xs & Hxs & Hst).
    assert (Hlive : all_live hr (rev l)) by (apply all_live_rev; eapply path_all_live; eauto).
    assert (Hpf : parents_first hr (rev l)) by (eapply from_end_parents_first; eauto).
    pose proof (stand_all_live _ _ _ _ _ Hs _ Hlive) as Hlivef. pose proof (stand_parents_first _ _ _ _ _ Hs _ Hpf) as Hpff.
    destruct (run_jacobian t hr nx arm (map local_transform js)) as (cr & h1 & R1 & L1 & C1).
    { apply parents_first_order; rewrite En; assumption. } { rewrite En. exact Hch. } { rewrite En. apply joints_local, Hjs. }
    destruct (@run_jacobian _ FS t hf nx arm (map (@local_transform _ FS) xs)) as (cf & h2 & R2 & L2 & C2).
    { apply parents_first_order; rewrite En; assumption. } { rewrite En. exact Hchf. } { rewrite En. apply joints_local, Hxs. }
    exists cf, cr, (quiet h2 nx), (quiet h1 nx). repeat (split; [assumption|]).
    intros i x w Hx Hw. destruct (Forall2_lookup_r _ _ _ _ _ C1 Hw) as (a & Hai & n & T & Hn & Hb & Hj).
    destruct (Forall2_lookup_lr _ _ _ _ _ _ C2 Hai Hx) as (nf & Tf & Hnf & Hbf & Hjf).
    rewrite En in Hb, Hbf. assert (Hin : a ∈ rev l).
    { rewrite Emv in Hai. apply elem_of_list_lookup_2, elem_of_list_In, filter_In in Hai as [Hai _]. apply elem_of_list_In, Hai. }
    pose proof (based_world _ _ _ _ Hpf Hin Hb) as HwT. pose proof (based_world _ _ _ _ Hpff Hin Hbf) as HwTf.
    apply elem_of_list_split in Hin as (l1 & l2 & El). rewrite El in Hjs, Hxs.
    apply Forall2_app_inv_l in Hjs as (js1 & js2' & J1 & J2 & ->). apply Forall2_cons_inv_l in J2 as (j & js2 & (nj & Hnj & ->) & J2 & ->).
    apply Forall2_app_inv_l in Hxs as (xs1 & xs2' & X1 & X2 & ->). apply Forall2_cons_inv_l in X2 as (xj & xs2 & (nx' & Hnx & ->) & X2 & ->).
    assert (nj = n) as -> by congruence. assert (nx' = nf) as -> by congruence.
    assert (ET : T = product iso1 (map local_transform (js1 ++ [n_joint n]))).
    { rewrite map_app, product_app.
      refine (partial_product hr e l (map local_transform js1) (local_transform (n_joint n)) (map local_transform js2) l1 a l2 T Hpath El _ _ _ HwT);
        [apply joints_local, J1|exists n; auto|apply joints_local, J2]. }
    assert (ETf : Tf = @product _ FS (@iso1 _ FS) (map (@local_transform _ FS) (xs1 ++ [n_joint nf]))).
    { rewrite map_app, product_app.
      refine (@partial_product _ FS hf e l (map (@local_transform _ FS) xs1) (@local_transform _ FS (n_joint nf)) (map (@local_transform _ FS) xs2) l1 a l2 Tf Hpathf El _ _ _ HwTf);
        [apply joints_local, X1|exists nf; auto|apply joints_local, X2]. }
    assert (E1 : js1 ++ n_joint n :: js2 = (js1 ++ [n_joint n]) ++ js2) by (rewrite <- app_assoc; reflexivity).
    assert (E2 : xs1 ++ n_joint nf :: xs2 = (xs1 ++ [n_joint nf]) ++ xs2) by (rewrite <- app_assoc; reflexivity).
    pose proof Hst as Hst'. rewrite E1, E2 in Hst'.
    assert (Len : length (xs1 ++ [n_joint nf]) = length (js1 ++ [n_joint n])).
    { rewrite !app_length, <- (Forall2_length _ _ _ X1), <- (Forall2_length _ _ _ J1). reflexivity. }
    pose proof Hst' as Hst1. apply Forall2_app_inv in Hst1 as [Hst1 _]; [|exact Len].
    eapply (column_close prec emax Hp Hm L Hprec alpha delta Ha Hd (js1 ++ n_joint n :: js2) Tf T _ _ (j_type (n_joint n)) (j_type (n_joint nf)));
      [|exact Hf| | | |exact Hjf|exact Hj].
    - destruct js1; discriminate.
    - rewrite E1, ET, ETf. apply prefix_approx; try assumption. rewrite <- E1. exact Hf.
    - pose proof (prefix_approx prec emax Hp Hm L Hprec alpha delta Ha Hd HL (xs1 ++ n_joint nf :: xs2) (js1 ++ n_joint n :: js2) [] Hst) as Hpa.
      rewrite app_nil_r in Hpa. apply Hpa, Hf.
    - pose proof (Hs a) as Hsa. rewrite Hn, Hnf in Hsa. apply Hsa.
  Qed.
End Shape.
