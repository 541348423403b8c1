(** * One iteration of the float solver *)
From Coq Require Import String Reals ZArith Lra Lia Psatz Sorting.Sorted Floats.SpecFloat.
From Flocq Require Import Core IEEE754.BinarySingleNaN.
From stdpp Require Import gmap.
From Verif Require ReachProofs.
From Verif Require Import Scalar ScalarR ScalarF Geometry Joint Link Prog NodeM ChainM FuncsM IkM LuM RunLemmas
  SpecNode SpecGraph SpecChain GraphProofs SpecFK FKProofs SpecGeom RGeom GeomProofs JacReal SpecReach IkProofs IkProofs2 SpecIk StepProofs ChainProofs
  SpecStep SpecLin SpecValues SpecFloatErr FloatErr FloatBack SpecAcc AccProofs AccProofs2 SpecJacAcc AccJac SpecSolved SolvedProofs SolvedProofs2
  LinAlgR LinArm TrajProofs SpecLuAcc LuAcc PropLu PropLuAcc PropSolved ConvGeom ConvStep ConvIk SpecConvAcc FConvJac FConvCore FConvStep.
Local Open Scope R_scope.

(** ** lists *)
Lemma norm1_entry x i y : x !! i = Some y -> Rabs y <= norm1 x.
Proof.
  revert i. induction x as [|z x IH]; intros [|i] E; try discriminate; cbn in *; [injection E as ->; pose proof (norm1_pos x); lra|].
  pose proof (IH i E). pose proof (Rabs_pos z). lra.
Qed.
Lemma diff_tri a b : forall c, length a = length b -> length b = length c -> norm1 (diff a c) <= norm1 (diff a b) + norm1 (diff b c).
Proof.
  revert b. induction a as [|x a IH]; intros [|y b] [|z c] E1 E2; try discriminate; cbn; [lra|]. injection E1 as E1. injection E2 as E2.
  specialize (IH b c E1 E2). unfold diff in IH. pose proof (Rabs_triang (x - y) (y - z)) as T. replace (x - y + (y - z)) with (x - z) in T by ring. lra.
Qed.
Lemma norm1_diff_self a : norm1 (diff a a) = 0.
Proof. induction a as [|x a IH]; [reflexivity|]. cbn. unfold diff in IH. rewrite IH, Rminus_diag_eq, Rabs_R0 by reflexivity. ring. Qed.
Lemma all_le_tri e f a b : length a = length b -> all_le e (diff a b) -> all_le f b -> all_le (e + f) a.
Proof.
  revert b. induction a as [|x a IH]; intros [|y b] E H1 H2; try discriminate; [constructor|]. injection E as E.
  apply Forall_cons in H1 as [A1 A2]. apply Forall_cons in H2 as [B1 B2]. constructor; [|eapply IH; eauto].
  replace x with (x - y + y) by ring. eapply Rle_trans; [apply Rabs_triang|]. lra.
Qed.
Lemma all_le_tri2 e f a b c : length a = length b -> length b = length c -> all_le e (diff a b) -> all_le f (diff b c) -> all_le (e + f) (diff a c).
Proof.
  revert b c. induction a as [|x a IH]; intros [|y b] [|z c] E1 E2 H1 H2; try discriminate; [constructor|]. injection E1 as E1. injection E2 as E2.
  apply Forall_cons in H1 as [A1 A2]. apply Forall_cons in H2 as [B1 B2]. constructor; [|eapply IH; eauto].
  replace (x - z) with (x - y + (y - z)) by ring. eapply Rle_trans; [apply Rabs_triang|]. lra.
Qed.
Lemma all_le_weak e f x : e <= f -> all_le e x -> all_le f x.
Proof. intros H Hx. eapply Forall_impl; [exact Hx|]. cbv beta. intros y Hy. lra. Qed.

Section One.
  Context (prec emax : Z) (Hp : Prec_gt_0 prec) (Hm : Prec_lt_emax prec emax) (L : libm) (Hprec : (11 <= prec)%Z).
  Notation FS := (FScalar prec emax L).
  Notation val := (val prec emax).
  Notation vval := (vval prec emax).
  Notation u := (unit_roundoff prec).
  Notation mu := (tiny emax).
  Notation BIG := (bpow radix2 (emax - 2)).

  Lemma val_fun x a b : val x a -> val x b -> a = b.
  Proof. intros H1 H2. rewrite <- (val_rv _ _ _ _ H1), <- (val_rv _ _ _ _ H2). reflexivity. Qed.
  Lemma big_two : bpow radix2 (emax - 1) = 2 * BIG.
  Proof. change 2 with (bpow radix2 1). rewrite <- bpow_plus. f_equal. lia. Qed.

  (** the joints' new positions *)
  Lemma positions_rounded mf m Q : val mf m -> 0 < m <= 1 -> 1 <= Q <= BIG -> forall qf q xf x,
    Forall2 val qf q -> Forall2 val xf x -> length q = length x -> Forall (fun p => Rabs p <= Q) q -> norm1 x <= 1 ->
    exists q' kap, Forall2 val (zip_with (fun p y => SFadd prec emax p (SFmul prec emax mf y)) qf xf) q' /\ length q' = length q /\ length kap = length q /\
      diff q' q = ladd (lscale m x) kap /\ norm1 kap <= 3 * u * norm1 x + INR (length q) * (u * Q + 2 * mu).
  Proof.
    intros Hmf Hm1 HQ. pose proof (u_le prec Hprec) as U. pose proof (mu_le prec emax Hm Hprec) as MU. pose proof big_two as B2.
    assert (B4 : 4 <= BIG) by (change 4 with (bpow radix2 2); apply bpow_le; red in Hm; lia).
    intros qf q xf x Hq. revert xf x. induction Hq as [|pf p qf q Hp1 Hq IH]; intros xf x Hx E HQs Hn; destruct x as [|y x]; try discriminate.
    - inversion Hx; subst. exists [], []. split; [constructor|]. split; [reflexivity|]. split; [reflexivity|]. split; [reflexivity|]. cbn [norm1 length INR]. lra.
    - inversion Hx as [|yf ? xf' ? Hy Hx']; subst. injection E as E. apply Forall_cons in HQs as [Q1 HQs]. cbn [norm1] in Hn.
      pose proof (norm1_pos x) as N0. pose proof (Rabs_pos y) as Y0.
      destruct (IH xf' x Hx' E HQs ltac:(lra)) as (q' & kap & H1 & H2 & H3 & H4 & H5).
      assert (My : Rabs (m * y) <= Rabs y) by (rewrite Rabs_mult, (Rabs_pos_eq m) by lra; assert (m * Rabs y <= 1 * Rabs y) by (apply Rmult_le_compat_r; lra); lra).
      destruct (mul_ok prec emax Hp Hm mf yf m y Hmf Hy ltac:(lra)) as (pm & Hpm & Epm).
      assert (Upm : Rabs pm <= Rabs y + u * Rabs y + u * mu).
      { replace pm with (m * y + (pm - m * y)) by ring. eapply Rle_trans; [apply Rabs_triang|]. assert (u * Rabs (m * y) <= u * Rabs y) by (apply Rmult_le_compat_l; lra). lra. }
      assert (UY : u * Rabs y <= u * 1) by (apply Rmult_le_compat_l; lra). assert (UM : u * mu <= u * 1) by (apply Rmult_le_compat_l; lra).
      assert (UM2 : u * mu <= / 2048 * mu) by (apply Rmult_le_compat_r; lra).
      pose proof (Rabs_triang p pm) as T1.
      destruct (add_ok prec emax Hp Hm pf _ p pm Hp1 Hpm ltac:(lra)) as (p' & Hp' & Ep').
      exists (p' :: q'), (p' - p - m * y :: kap). split; [constructor; assumption|]. split; [cbn; congruence|]. split; [cbn; congruence|]. split.
      + unfold diff, ladd, lscale in *. cbn. rewrite H4. f_equal. ring.
      + cbn [norm1 length]. rewrite S_INR.
        assert (Rabs (p' - p - m * y) <= 3 * u * Rabs y + (u * Q + 2 * mu)); [|lra].
        replace (p' - p - m * y) with ((p' - (p + pm)) + (pm - m * y)) by ring. eapply Rle_trans; [apply Rabs_triang|].
        assert (u * Rabs (p + pm) <= u * (Q + (Rabs y + u * Rabs y + u * mu))) by (apply Rmult_le_compat_l; lra).
        assert (u * Rabs (m * y) <= u * Rabs y) by (apply Rmult_le_compat_l; lra).
        assert (0 <= u * Rabs y) by (apply Rmult_le_pos; lra). assert (u * (u * Rabs y) <= 1 * (u * Rabs y)) by (apply Rmult_le_compat_r; lra).
        assert (0 <= u * mu) by (apply Rmult_le_pos; lra). assert (u * (u * mu) <= 1 * (u * mu)) by (apply Rmult_le_compat_r; lra). lra.
  Qed.

  (** the constrained difference between the target and a float pose near [v] *)
  Lemma err_val c (target w : iso spec_float) tg rr v eps E : position_only c -> vval (tr target) tg -> vval (tr w) rr -> dist rr v <= eps -> u <= eps -> 0 < eps <= 1 ->
    len (only_constrained c tg v) <= E -> E <= 1 ->
    exists d, list_val prec emax (flagged (flags c) (@calc_pose_diff _ FS target w)) (flagged (flags c) [vx d; vy d; vz d; 0; 0; 0]) /\
      vval (fst (@target_diff_to_len_rot_diff _ FS (flagged (flags c) (@calc_pose_diff _ FS target w)) (flags c))) d /\
      snd (@target_diff_to_len_rot_diff _ FS (flagged (flags c) (@calc_pose_diff _ FS target w)) (flags c)) = V3 (S754_zero false) (S754_zero false) (S754_zero false) /\
      (let e := only_constrained c tg v in Rabs (vx d - vx e) <= 3 * eps /\ Rabs (vy d - vy e) <= 3 * eps /\ Rabs (vz d - vz e) <= 3 * eps).
  Proof.
    intros Hc (Tx & Ty & Tz) (Wx & Wy & Wz) Hd Hue He HE HE1. pose proof (u_le prec Hprec) as U. pose proof big_two as B2.
    assert (B4 : 4 <= BIG) by (change 4 with (bpow radix2 2); apply bpow_le; red in Hm; lia).
    destruct (comp_len (minus rr v)) as (Dx & Dy & Dz). fold (dist rr v) in Dx, Dy, Dz. cbn [vx vy vz minus] in Dx, Dy, Dz.
    destruct (comp_len (only_constrained c tg v)) as (Ex & Ey & Ez). cbn [vx vy vz only_constrained] in Ex, Ey, Ez.
    assert (G : forall (b : bool) (xf yf : spec_float) (x y z : R), val xf x -> val yf y -> Rabs (y - z) <= eps -> Rabs (if b then x - z else 0) <= E ->
      exists d, (b = true -> val (SFsub prec emax xf yf) d) /\ (b = false -> d = 0) /\ Rabs (d - (if b then x - z else 0)) <= 3 * eps).
    { intros b xf yf x y z Hx Hy H1 H2. destruct b; [|exists 0; split; [discriminate|]; split; [reflexivity|]; rewrite Rminus_0_r, Rabs_R0; lra].
      assert (H3 : Rabs (x - y) <= E + eps) by (replace (x - y) with ((x - z) + - (y - z)) by ring; eapply Rle_trans; [apply Rabs_triang|]; rewrite Rabs_Ropp; lra).
      destruct (sub_ok prec emax Hp Hm xf yf x y Hx Hy ltac:(lra)) as (d & Hd1 & Hd2). exists d. split; [intros _; exact Hd1|]. split; [discriminate|].
      replace (d - (x - z)) with ((d - (x - y)) + - (y - z)) by ring. eapply Rle_trans; [apply Rabs_triang|]. rewrite Rabs_Ropp.
      assert (u * Rabs (x - y) <= u * 2) by (apply Rmult_le_compat_l; lra). lra. }
    destruct (G (position_x c) _ _ _ _ (vx v) Tx Wx (Rle_trans _ _ _ Dx Hd) (Rle_trans _ _ _ Ex HE)) as (dx & X1 & X2 & X3).
    destruct (G (position_y c) _ _ _ _ (vy v) Ty Wy (Rle_trans _ _ _ Dy Hd) (Rle_trans _ _ _ Ey HE)) as (dy & Y1 & Y2 & Y3).
    destruct (G (position_z c) _ _ _ _ (vz v) Tz Wz (Rle_trans _ _ _ Dz Hd) (Rle_trans _ _ _ Ez HE)) as (dz & Z1 & Z2 & Z3). clear G.
    exists (V3 dx dy dz). cbn [vx vy vz only_constrained]. split; [|split; [|split; [|auto]]].
    - unfold calc_pose_diff. apply flagged_position_val; [exact Hc|exact X1|exact Y1|exact Z1].
    - unfold calc_pose_diff. cbn [vx vy vz vsub]. cbn [ssub FScalar]. set (a := SFsub prec emax (vx (tr target)) _) in *. set (b := SFsub prec emax (vy (tr target)) _) in *.
      set (d := SFsub prec emax (vz (tr target)) _) in *. set (w3 := @qscaled_axis _ FS _). clearbody a b d w3. destruct Hc as (Ra & Rb & Rc).
      pose proof (val_zero prec emax L) as V0. change (@szero _ FS) with (S754_zero false) in V0.
      unfold flags, target_diff_to_len_rot_diff, SpecAcc.vval. rewrite Ra, Rb, Rc.
      destruct (position_x c), (position_y c), (position_z c); cbn [flagged take firstn spread fst snd to_v3 vx vy vz szero FScalar];
        (split; [|split]); first [apply X1; reflexivity|apply Y1; reflexivity|apply Z1; reflexivity|rewrite X2 by reflexivity; exact V0|rewrite Y2 by reflexivity; exact V0|rewrite Z2 by reflexivity; exact V0].
    - unfold calc_pose_diff. set (a := vx (vsub _ _)). set (b := vy (vsub _ _)). set (d := vz (vsub _ _)). set (w3 := @qscaled_axis _ FS _). clearbody a b d w3. destruct Hc as (Ra & Rb & Rc).
      unfold flags, target_diff_to_len_rot_diff. rewrite Ra, Rb, Rc. destruct (position_x c), (position_y c), (position_z c); reflexivity.
  Qed.
  (** the test whether the target is reached *)
  Lemma reached_close (sv : solver spec_float) pr d E tau ang : vval (fst pr) d -> snd pr = V3 (S754_zero false) (S754_zero false) (S754_zero false) -> len d <= E -> E <= 8 ->
    val (allowable_target_distance sv) tau -> val (allowable_target_angle sv) ang -> 0 < ang -> (1 + 8 * u) * E + faint prec emax < tau -> @reached _ FS sv pr = true.
  Proof.
    intros Hv Hs Hd HE Ht Hg Hang Hlt. unfold reached. rewrite Hs. apply andb_true_intro. cbn [slt FScalar]. split.
    - destruct (norm_fwd prec emax Hp Hm L Hprec _ d Hv ltac:(lra)) as [n Hn]. apply (gt_fwd prec emax _ _ n tau Hn Ht).
      pose proof Hv as (Vx & Vy & Vz). apply val_valid in Vx, Vy, Vz.
      destruct (norm_back prec emax Hp Hm L Hprec _ n Vx Vy Vz Hn) as (r & Hr & N0 & _ & Nn).
      assert (r = d) as ->.
      { destruct Hv as (A1 & A2 & A3), Hr as (B1 & B2 & B3). destruct r, d. cbn in *. rewrite (val_fun _ _ _ B1 A1), (val_fun _ _ _ B2 A2), (val_fun _ _ _ B3 A3). reflexivity. }
      destruct (f_facts prec emax Hm Hprec) as (F0 & _ & _). pose proof (faint_f prec emax Hm Hprec) as FN. set (f := R_sqrt.sqrt (u * mu)) in *.
      pose proof (u_le prec Hprec) as U. pose proof (len_nonneg d) as D0.
      assert (0 <= faint prec emax) by apply sqrt_pos. assert (faint prec emax * u <= faint prec emax * / 2048) by (apply Rmult_le_compat_l; lra).
      assert (C3 : (1 + u) ^ 3 <= 1 + 8 * u) by nra. assert (0 <= (1 + u) ^ 3) by (apply pow_le; lra).
      assert ((1 + u) ^ 3 * len d <= (1 + 8 * u) * E) by (apply Rmult_le_compat; lra). lra.
    - apply (gt_fwd prec emax _ _ 0 ang); [|exact Hg|exact Hang]. change (@vnorm _ FS (V3 (S754_zero false) (S754_zero false) (S754_zero false))) with (@szero _ FS). apply (val_zero prec emax L).
  Qed.
End One.
