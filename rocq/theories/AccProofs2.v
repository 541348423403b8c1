(** * Rounding errors of joints and chains *)
From Coq Require Import Reals ZArith Lra Lia Psatz Floats.SpecFloat.
From Flocq Require Import Core IEEE754.BinarySingleNaN.
From stdpp Require Import gmap.
From Verif Require Import Scalar ScalarR ScalarF Geometry Joint Link Prog NodeM ChainM SpecValues SpecFloatErr FloatErr
  SpecNode SpecGraph SpecChain SpecFK SpecGeom RGeom GeomProofs SpecReach ReachProofs SpecAcc AccProofs.
Local Open Scope R_scope.

Lemma abs_sin_le x : Rabs (sin x) <= 1.
Proof. apply Rabs_le, SIN_bound. Qed.
Lemma sin_lip a b : Rabs (sin a - sin b) <= Rabs (a - b).
Proof.
  destruct (MVT_abs sin cos b a) as (c & Hc & _); [intros; apply derivable_pt_lim_sin|].
  rewrite Hc. rewrite <- (Rmult_1_l (Rabs (a - b))) at 2. apply Rmult_le_compat_r; [apply Rabs_pos|apply Rabs_le, COS_bound].
Qed.
Lemma cos_lip a b : Rabs (cos a - cos b) <= Rabs (a - b).
Proof.
  destruct (MVT_abs cos (fun x => - sin x) b a) as (c & Hc & _); [intros; apply derivable_pt_lim_cos|].
  rewrite Hc. rewrite <- (Rmult_1_l (Rabs (a - b))) at 2. apply Rmult_le_compat_r; [apply Rabs_pos|]. rewrite Rabs_Ropp. apply abs_sin_le.
Qed.
Lemma n4_split a b c d x y : len (V3 a b c) <= x -> Rabs d <= y -> n4 a b c d <= x + y.
Proof.
  intros Hx Hy. eapply Rle_trans; [|apply Rplus_le_compat; [exact Hx|exact Hy]].
  replace (n4 a b c d) with (n4 (a + 0) (b + 0) (c + 0) (0 + d)) by (f_equal; ring).
  eapply Rle_trans; [apply n4_plus|]. apply Rplus_le_compat.
  - right. unfold n4, len, inner. cbn. f_equal. ring.
  - right. unfold n4. rewrite <- sqrt_Rsqr_abs. unfold Rsqr. f_equal. ring.
Qed.
Lemma dist_self a : dist a a = 0.
Proof. unfold dist. assert (minus a a = V3 0 0 0) as -> by (destruct a; gv; ring). apply len_0. Qed.
Lemma qdist_self a : qdist a a = 0.
Proof. unfold qdist. rewrite <- sqrt_0. f_equal. ring. Qed.

Section Acc.
  Context (prec emax : Z) (Hp : Prec_gt_0 prec) (Hm : Prec_lt_emax prec emax) (L : libm).
  Notation val := (val prec emax).
  Notation vval := (vval prec emax).
  Notation qval := (qval prec emax).
  Notation ival := (ival prec emax).
  Notation u := (unit_roundoff prec).
  Notation mu := (tiny emax).
  Notation BIG := (bpow radix2 (emax - 2)).
  Notation FS := (FScalar prec emax L).
  Context (Hprec : (11 <= prec)%Z) (alpha delta : R) (Ha : 0 <= alpha) (Hd : 0 <= delta) (HL : libm_within prec emax delta L).
  Notation rho := (32 * u).
  Notation approx := (approx prec emax).
  Notation T := (T prec emax).
  Notation VT := (VT prec emax).

  Lemma approx_iso1 X l : 1 <= X -> 0 <= l -> approx X l (@iso1 _ FS) iso1.
  Proof.
    intros HX Hl. split; [apply proper_1|]. split; [change (len (V3 0 0 0) <= l); rewrite len_0; exact Hl|].
    exists iso1. split.
    - pose proof (val_zero prec emax L). pose proof (val_one prec emax Hp Hm L Hprec). split; hnf; cbn [tr rt iso1 v0 q1 vx vy vz qi qj qk qw]; auto.
    - rewrite qdist_self, dist_self. split; [lra|]. pose proof (pow_ge_1 X 8 HX). nra.
  Qed.
  Lemma approx_origin x j : stands_for prec emax alpha x j -> approx (1 + alpha) (len (tr (j_origin j))) (j_origin x) (j_origin j).
  Proof.
    intros (_ & _ & Ht & Hu & r & Hr & He). split; [exact Hu|]. split; [lra|].
    exists (Iso (tr (j_origin j)) r). split; [split; assumption|]. cbn [tr rt]. split; [lra|]. rewrite dist_self.
    apply Rmult_le_pos; [|apply len_nonneg]. pose proof (pow_ge_1 (1 + alpha) 8 ltac:(lra)). lra.
  Qed.
  (** the factor of one joint's own transform *)
  Definition own : R := (1 + alpha) * (1 + delta) ^ 2 * (1 + rho).
  Lemma own_ge : 1 + alpha + rho <= own.
  Proof.
    unfold own. pose proof (u_small prec Hprec). pose proof (pow_ge_1 (1 + delta) 2 ltac:(lra)). 
    assert ((1 + alpha) * 1 * (1 + rho) <= (1 + alpha) * (1 + delta) ^ 2 * (1 + rho)).
    { apply Rmult_le_compat_r; [lra|]. apply Rmult_le_compat_l; lra. } nra.
  Qed.
  Lemma approx_rotational x a px p : near_axis prec emax alpha x a -> val px p -> 4 * (1 + alpha) * (1 + delta) <= BIG ->
    approx own (32 * mu) (@joint_transform _ FS (Rotational x) px) (joint_transform (Rotational a) p).
  Proof.
    intros (Hu & r & Hr & He) Hpx HB. pose proof (u_small prec Hprec) as [U0 U1]. pose proof (mu_small prec emax Hm Hprec) as [M0 M1].
    pose proof own_ge. split.
    { change (proper (joint_transform (Rotational a) p)). exact (proper_joint_transform (Rotational a) p Hu). }
    split; [change (len (V3 0 0 0) <= 32 * mu); rewrite len_0; lra|].
    destruct (half_ok prec emax Hp Hm _ _ _ Hpx (val_two prec emax Hp Hm L Hprec)) as (h & Hh & Eh).
    destruct (HL _ _ Hh) as [(s & Hs & Es) (c & Hc & Ec)].
    assert (Um : u * mu <= / 1024 * u) by (rewrite Rmult_comm; apply Rmult_le_compat_r; lra).
    assert (Ds : Rabs (s - sin (p / 2)) <= delta + u * mu).
    { replace (s - sin (p / 2)) with ((s - sin h) + (sin h - sin (p / 2))) by ring.
      eapply Rle_trans; [apply Rabs_triang|]. pose proof (sin_lip h (p / 2)). lra. }
    assert (Dc : Rabs (c - cos (p / 2)) <= delta + u * mu).
    { replace (c - cos (p / 2)) with ((c - cos h) + (cos h - cos (p / 2))) by ring.
      eapply Rle_trans; [apply Rabs_triang|]. pose proof (cos_lip h (p / 2)). lra. }
    assert (Sb : Rabs s <= 1 + delta).
    { replace s with ((s - sin h) + sin h) by ring. eapply Rle_trans; [apply Rabs_triang|]. pose proof (abs_sin_le h). lra. }
    assert (Rb : len r <= 1 + alpha) by (pose proof (len_near r a); rewrite (len_unit a Hu) in *; lra).
    assert (Hm1 : (1 + alpha) * (1 + delta) <= BIG) by (assert (0 <= alpha * delta) by (apply Rmult_le_pos; lra); lra).
    assert (V : VT 1 ((1 + alpha) * (1 + delta) + mu) (@vscale _ FS x (lm_sin L (@sdiv _ FS px (@stwo _ FS)))) (vscale r s)).
    { apply (VT_scale prec emax Hp Hm L Hprec 0); [lia|exact Hm1| |apply T_val; [exact Hs|exact Sb]].
      eapply (VT_weak prec emax Hprec); [apply VT_val, Hr|lia|exact Rb]. }
    apply VT_err in V as (rv & Vv & Dv).
    exists (Iso (V3 0 0 0) (Qt (vx rv) (vy rv) (vz rv) c)). split.
    { pose proof (val_zero prec emax L) as Z0. destruct Vv as (Vx & Vy & Vz). split; hnf; cbn; auto. }
    cbn [tr rt joint_transform]. change (@V3 R szero szero szero) with (V3 0 0 0). rewrite dist_self. split.
    - change (qaxis_angle a p) with (Qt (vx a * sin (p / 2)) (vy a * sin (p / 2)) (vz a * sin (p / 2)) (cos (p / 2))).
      eapply Rle_trans; [apply (n4_split _ _ _ _ (dist rv (times (sin (p / 2)) a)) (delta + u * mu)); [|exact Dc]|].
      + right. unfold dist. f_equal. apply V3_eq; cbn; ring.
      + pose proof (dist_tri rv (vscale r s) (times (sin (p / 2)) a)) as Ht.
        assert (H2 : dist (vscale r s) (times (sin (p / 2)) a) <= alpha * (1 + delta) + (delta + u * mu)).
        { unfold dist. assert (minus (vscale r s) (times (sin (p / 2)) a) = plus (times s (minus r a)) (times (s - sin (p / 2)) a)) as ->.
          { destruct r, a. gv; ring. }
          eapply Rle_trans; [apply len_plus|]. rewrite !len_times, (len_unit a Hu). rewrite (Rmult_comm alpha).
          apply Rplus_le_compat; [|lra]. apply Rmult_le_compat; try assumption; [apply Rabs_pos|apply len_nonneg]. }
        rewrite pow_1 in Dv. replace (1 + u - 1) with u in Dv by ring.
        assert (K1 : u * ((1 + alpha) * (1 + delta) + mu) <= u * (2 * ((1 + alpha) * (1 + delta)))).
        { apply Rmult_le_compat_l; [lra|]. assert (0 <= alpha * delta) by (apply Rmult_le_pos; lra). lra. }
        unfold own. assert (K2 : 1 + delta <= (1 + delta) ^ 2) by (pose proof (pow2_ge_0 delta); nra).
        assert (K3 : (1 + alpha) * (1 + delta) <= (1 + alpha) * (1 + delta) ^ 2) by (apply Rmult_le_compat_l; lra).
        assert (K4 : u * ((1 + alpha) * (1 + delta)) <= u * ((1 + alpha) * (1 + delta) ^ 2)) by (apply Rmult_le_compat_l; lra).
        assert (K5 : u * 1 <= u * ((1 + alpha) * (1 + delta) ^ 2)).
        { apply Rmult_le_compat_l; [lra|]. assert (0 <= alpha * delta) by (apply Rmult_le_pos; lra). lra. }
        assert (K6 : 1 + alpha + 2 * delta + alpha * delta <= (1 + alpha) * (1 + delta) ^ 2).
        { assert (0 <= alpha * delta) by (apply Rmult_le_pos; lra). pose proof (pow2_ge_0 delta). assert (0 <= alpha * delta ^ 2) by (apply Rmult_le_pos; lra). lra. }
        lra.
    - pose proof (pow_ge_1 own 8 ltac:(lra)). apply Rmult_le_pos; lra.
  Qed.
  Lemma approx_linear x a px p : near_axis prec emax alpha x a -> val px p -> (1 + alpha) * Rabs p <= BIG ->
    approx own (Rabs p + 32 * mu) (@joint_transform _ FS (Linear x) px) (joint_transform (Linear a) p).
  Proof.
    intros (Hu & r & Hr & He) Hpx HB. pose proof (u_small prec Hprec) as [U0 U1]. pose proof (mu_small prec emax Hm Hprec) as [M0 M1].
    pose proof own_ge as Ho. pose proof (Rabs_pos p) as P0.
    assert (El : vscale a p = times p a) by (destruct a; gv; ring).
    split; [apply proper_1|]. split.
    { cbn [tr joint_transform]. rewrite El, len_times, (len_unit a Hu). lra. }
    assert (Rb : len r <= 1 + alpha) by (pose proof (len_near r a); rewrite (len_unit a Hu) in *; lra).
    assert (V : VT 1 ((1 + alpha) * Rabs p + mu) (@vscale _ FS x px) (vscale r p)).
    { apply (VT_scale prec emax Hp Hm L Hprec 0); [lia|exact HB| |apply T_val; [exact Hpx|lra]].
      eapply (VT_weak prec emax Hprec); [apply VT_val, Hr|lia|exact Rb]. }
    apply VT_err in V as (rv & Vv & Dv).
    exists (Iso rv q1). split.
    { pose proof (val_zero prec emax L) as Z0. pose proof (val_one prec emax Hp Hm L Hprec) as Z1. split; [exact Vv|]. hnf; cbn [rt joint_transform qi qj qk qw q1]; auto. }
    cbn [tr rt joint_transform]. rewrite qdist_self. split; [lra|].
    pose proof (dist_tri rv (vscale r p) (vscale a p)) as Ht.
    assert (H2 : dist (vscale r p) (vscale a p) <= Rabs p * alpha).
    { unfold dist. assert (minus (vscale r p) (vscale a p) = times p (minus r a)) as -> by (destruct r, a; gv; ring).
      rewrite len_times. apply Rmult_le_compat_l; assumption. }
    rewrite pow_1 in Dv. replace (1 + u - 1) with u in Dv by ring.
    assert (K1 : 1 + 8 * (own - 1) <= own ^ 8).
    { pose proof (bernoulli (own - 1) 8 ltac:(lra)) as Hb. cbn [INR] in Hb. replace (1 + (own - 1)) with own in Hb by ring. lra. }
    assert (K2 : (8 * (alpha + rho)) * (Rabs p + 32 * mu) <= (own ^ 8 - 1) * (Rabs p + 32 * mu)) by (apply Rmult_le_compat_r; lra).
    assert (K3 : 0 <= alpha * Rabs p) by (apply Rmult_le_pos; lra). assert (K4 : 0 <= u * Rabs p) by (apply Rmult_le_pos; lra).
    assert (K5 : 0 <= alpha * mu) by (apply Rmult_le_pos; lra). assert (K6 : 0 <= u * mu) by (apply Rmult_le_pos; lra).
    assert (K7 : u * (alpha * Rabs p) <= / 2048 * (alpha * Rabs p)) by (apply Rmult_le_compat_r; lra).
    lra.
  Qed.
  (** one joint *)
  Definition grow : R := (1 + alpha) * own * (1 + rho).
  Lemma approx_local x j l : stands_for prec emax alpha x j -> span j <= l -> 15 * ((1 + alpha) * own) ^ 8 * (l + 32 * mu + 1) <= BIG ->
    approx grow (span j + 32 * mu) (@local_transform _ FS x) (local_transform j).
  Proof.
    intros Hs Hl HB. pose proof (u_small prec Hprec) as [U0 U1]. pose proof (mu_small prec emax Hm Hprec) as [M0 M1].
    pose proof own_ge as Ho. pose proof (len_nonneg (tr (j_origin j))) as O0.
    pose proof (approx_origin _ _ Hs) as Aor. destruct Hs as (Ht & Hpos & _).
    assert (Ao : 1 <= (1 + alpha) * own) by nra. pose proof (pow_ge_1 _ 8 Ao) as A8. pose proof (pow_ge_1 _ 7 Ao) as A7.
    set (W := ((1 + alpha) * own) ^ 8) in *.
    assert (W1 : (1 + alpha) * own <= W).
    { unfold W. replace (((1 + alpha) * own) ^ 8) with ((1 + alpha) * own * ((1 + alpha) * own) ^ 7) by ring.
      rewrite <- (Rmult_1_r ((1 + alpha) * own)) at 1. apply Rmult_le_compat_l; lra. }
    assert (W2 : 1 + alpha <= W) by nra.
    assert (E0 : 0 <= extension j) by (unfold extension; destruct (j_type j); try lra; apply Rabs_pos).
    unfold span in Hl.
    assert (B1 : 15 * (W * extension j) + 15 * W <= BIG).
    { assert (W * (extension j + 1) <= W * (l + 32 * mu + 1)) by (apply Rmult_le_compat_l; lra). lra. }
    unfold local_transform, grow, span. rewrite Rplus_assoc. apply (approx_mul prec emax Hp Hm L Hprec); try lra.
    - exact Aor.
    - unfold extension in *. destruct (j_type x) as [|ax|ax], (j_type j) as [|a|a]; try contradiction.
      + apply approx_iso1; lra.
      + rewrite Rplus_0_l. apply approx_rotational; try assumption.
        assert ((1 + alpha) * (1 + delta) <= W); [|lra]. eapply Rle_trans; [|exact W1]. apply Rmult_le_compat_l; [lra|].
        unfold own. assert (1 + delta <= (1 + delta) ^ 2) by nra. assert (0 <= (1 + delta) ^ 2) by lra.
        assert ((1 + delta) ^ 2 <= (1 + alpha) * (1 + delta) ^ 2) by nra. nra.
      + apply approx_linear; try assumption. assert ((1 + alpha) * Rabs (j_position j) <= W * Rabs (j_position j)) by (apply Rmult_le_compat_r; lra).
        assert (0 <= W * Rabs (j_position j)) by (apply Rmult_le_pos; lra). lra.
    - fold W. assert (W * (len (tr (j_origin j)) + (extension j + 32 * mu) + 1) <= W * (l + 32 * mu + 1)) by (apply Rmult_le_compat_l; lra). lra.
  Qed.
  Definition slack (js : list (joint R)) : R := total (map span js) + INR (length js) * (32 * mu).
  Lemma slack_cons j js : slack (j :: js) = span j + 32 * mu + slack js.
  Proof. unfold slack. cbn [map length]. rewrite total_cons, S_INR. ring. Qed.
  Lemma span_pos j : 0 <= span j.
  Proof. unfold span, extension. pose proof (len_nonneg (tr (j_origin j))). pose proof (Rabs_pos (j_position j)). destruct (j_type j); lra. Qed.
  Lemma slack_pos js : 0 <= slack js.
  Proof.
    pose proof (mu_small prec emax Hm Hprec) as [M0 _]. induction js as [|j js IH]; [unfold slack; cbn; lra|]. rewrite slack_cons. pose proof (span_pos j). lra.
  Qed.
  Lemma growth_grow : growth prec alpha delta = grow * (1 + rho).
  Proof. unfold growth, grow, own. ring. Qed.
  Lemma approx_product xs js : Forall2 (stands_for prec emax alpha) xs js -> forall X l bx b, 1 <= X -> 0 <= l -> approx X l bx b ->
    15 * (X * growth prec alpha delta ^ length js) ^ 8 * (l + slack js + 1) <= BIG ->
    approx (X * growth prec alpha delta ^ length js) (l + slack js)
      (@product _ FS bx (map (@local_transform _ FS) xs)) (product b (map local_transform js)).
  Proof.
    pose proof (u_small prec Hprec) as [U0 U1]. pose proof (mu_small prec emax Hm Hprec) as [M0 M1]. pose proof own_ge as Ho.
    assert (Gr : 1 <= grow) by (unfold grow; assert (1 <= (1 + alpha) * own) by nra; nra).
    assert (Gw : grow <= growth prec alpha delta) by (rewrite growth_grow; nra).
    assert (Oa : (1 + alpha) * own <= grow) by (unfold grow; assert (1 <= (1 + alpha) * own) by nra; nra).
    set (G := growth prec alpha delta) in *.
    induction 1 as [|x j xs js Hj H IH]; intros X l bx b HX Hl Hb HB.
    - cbn. unfold slack. cbn. rewrite Rmult_1_r, Rmult_0_l, !Rplus_0_r. exact Hb.
    - change (G ^ length (j :: js)) with (G * G ^ length js) in *. cbn [map product foldl] in *. rewrite slack_cons in HB |- *. pose proof (span_pos j) as Sj. pose proof (slack_pos js) as Sp.
      pose proof (pow_ge_1 G (length js) ltac:(lra)) as Gn. set (Gn' := G ^ length js) in *.
      assert (HXG : X * grow * (1 + rho) = X * G) by (unfold G; rewrite growth_grow; ring).
      assert (XG : X * G <= X * (G * Gn')) by (apply Rmult_le_compat_l; [lra|]; nra).
      assert (XG1 : X * grow <= X * G) by (apply Rmult_le_compat_l; lra).
      assert (XG0 : grow <= X * grow) by (rewrite <- (Rmult_1_l grow) at 1; apply Rmult_le_compat_r; lra).
      assert (Bnd : forall Y y, 0 <= Y -> Y <= X * (G * Gn') -> 0 <= y -> y <= l + (span j + 32 * mu + slack js) + 1 -> 15 * Y ^ 8 * y <= BIG).
      { intros Y y Y0 HY y0 Hy. eapply Rle_trans; [|exact HB]. rewrite !Rmult_assoc. apply Rmult_le_compat_l; [lra|].
        apply Rmult_le_compat; [apply pow_le; exact Y0|exact y0|apply pow_incr; lra|exact Hy]. }
      assert (Al : approx grow (span j + 32 * mu) (@local_transform _ FS x) (local_transform j)).
      { apply (approx_local x j (span j)); [exact Hj|lra|]. apply Bnd; try lra. nra. }
      assert (A1 : approx (X * grow * (1 + rho)) (l + (span j + 32 * mu)) (@iso_mul _ FS bx (@local_transform _ FS x)) (iso_mul b (local_transform j))).
      { apply (approx_mul prec emax Hp Hm L Hprec); try assumption; try lra. apply Bnd; try lra. }
      rewrite HXG in A1. specialize (IH (X * G) (l + (span j + 32 * mu)) _ _ ltac:(lra) ltac:(lra) A1).
      replace (X * (G * Gn')) with (X * G * Gn') by ring.
      replace (l + (span j + 32 * mu + slack js)) with (l + (span j + 32 * mu) + slack js) by ring.
      apply IH. replace (X * G * Gn') with (X * (G * Gn')) by ring.
      replace (l + (span j + 32 * mu) + slack js) with (l + (span j + 32 * mu + slack js)) by ring. exact HB.
  Qed.

  Lemma slack_reach js : slack js = reach emax js.
  Proof. reflexivity. Qed.
  Lemma product_close xs js : Forall2 (stands_for prec emax alpha) xs js -> fits prec emax alpha delta js ->
    close prec emax alpha delta js (@product _ FS (@iso1 _ FS) (map (@local_transform _ FS) xs)) (product iso1 (map local_transform js)).
  Proof.
    intros H Hf. assert (E8 : forall x : R, (1 * x ^ length js) ^ 8 = x ^ (8 * length js)).
    { intros x. rewrite Rmult_1_l, <- pow_mult. f_equal. lia. }
    destruct (approx_product xs js H 1 0 _ _ (Rle_refl 1) (Rle_refl 0) (approx_iso1 1 0 (Rle_refl 1) (Rle_refl 0))) as (_ & _ & r & Hr & Hq & Ht).
    - rewrite E8, Rplus_0_l, slack_reach. unfold fits in Hf. pose proof (bpow_pred emax) as B1. rewrite (big_double emax) in B1. lra.
    - rewrite E8, Rmult_1_l, Rplus_0_l in *. exists r. split; [exact Hr|]. split; [exact Hq|exact Ht].
  Qed.
End Acc.

(** ** heaps of the same shape *)
Section Shape.
  Context (prec emax : Z) (d : R) (hf : gmap nat (node spec_float)) (hr : gmap nat (node R)) (Hs : stand_for prec emax d hf hr).

  Lemma stand_live a : is_Some (hf !! a) <-> is_Some (hr !! a).
  Proof. specialize (Hs a). destruct (hf !! a), (hr !! a); try contradiction; split; intros [? ?]; eauto; discriminate. Qed.
  Lemma stand_has_parent a p : has_parent hf a p <-> has_parent hr a p.
  Proof.
    unfold has_parent. specialize (Hs a). destruct (hf !! a) as [x|], (hr !! a) as [y|]; try contradiction.
    - destruct Hs as [E _]. split; intros (n & Hn & Hp); injection Hn as <-; eexists; split; try reflexivity; congruence.
    - split; intros (n & Hn & _); discriminate.
  Qed.
  Lemma stand_live_parent a p : live_parent hf a p <-> live_parent hr a p.
  Proof. unfold live_parent. rewrite stand_has_parent, stand_live. reflexivity. Qed.
  Lemma stand_no_parent a : no_parent hf a <-> no_parent hr a.
  Proof. unfold no_parent. rewrite stand_live. setoid_rewrite stand_live_parent. reflexivity. Qed.
  Lemma stand_path a l : path_up hr a l -> path_up hf a l.
  Proof.
    induction 1 as [a H|a p l H Hp IH]; [apply path_root, stand_no_parent, H|].
    eapply path_step; [apply stand_live_parent, H|exact IH].
  Qed.
  Lemma stand_joints l js : joints_of hr l js -> exists xs, joints_of hf l xs /\ Forall2 (stands_for prec emax d) xs js.
  Proof.
    induction 1 as [|a j l js (n & Hn & ->) H (xs & Hx & Hf)]; [exists []; split; constructor|].
    pose proof (Hs a) as Ha. rewrite Hn in Ha. destruct (hf !! a) as [x|] eqn:E; [|contradiction]. destruct Ha as [_ Ha].
    exists (n_joint x :: xs). split; constructor; try assumption. exists x. auto.
  Qed.
  Lemma stand_all_live l : all_live hr l -> all_live hf l.
  Proof. intros H a Ha. apply stand_live, H, Ha. Qed.
  Lemma stand_parents_first l : parents_first hr l -> parents_first hf l.
  Proof. intros H l1 a l2 p E Hp. eapply H; [exact E|]. apply stand_live_parent, Hp. Qed.
End Shape.

(** ** a libm exists: sine and cosine rounded to a multiple of [unit_roundoff] *)
Section Libm.
  Context (prec emax : Z) (Hp : Prec_gt_0 prec) (Hm : Prec_lt_emax prec emax).
  Definition rounded (f : R -> R) (x : spec_float) : spec_float :=
    match sf_value x with
    | Some (Fin r) => SpecFloat.binary_normalize prec emax (ZnearestE (f r * bpow radix2 prec)) (- prec) false
    | _ => S754_nan
    end.
  Definition good_libm : libm := {| lm_sin := rounded sin; lm_cos := rounded cos; lm_atan2 := fun x _ => x |}.
  Lemma rounded_ok f x r : (forall r, -1 <= f r <= 1) -> (11 <= prec)%Z -> val prec emax x r ->
    exists s, val prec emax (rounded f x) s /\ Rabs (s - f r) <= 2 * unit_roundoff prec.
  Proof.
    intros Hf Hprec [_ Hr]. unfold rounded. rewrite Hr. set (m := ZnearestE (f r * bpow radix2 prec)).
    set (y := F2R (Float radix2 m (- prec))).
    pose proof (u_small prec Hprec) as [U0 U1]. pose proof (mu_small prec emax Hm Hprec) as [M0 M1].
    assert (Euv : bpow radix2 prec * unit_roundoff prec = 1) by (unfold unit_roundoff; rewrite <- bpow_plus, Z.add_opp_diag_r; reflexivity).
    assert (Ey : Rabs (y - f r) <= / 2 * unit_roundoff prec).
    { unfold y, F2R. cbn [Fnum Fexp]. fold (unit_roundoff prec).
      replace (IZR m * unit_roundoff prec - f r) with (- ((f r * bpow radix2 prec - IZR m) * unit_roundoff prec)).
      - rewrite Rabs_Ropp, Rabs_mult, (Rabs_pos_eq (unit_roundoff prec)) by lra. apply Rmult_le_compat_r; [lra|].
        pose proof (Znearest_half (fun z => negb (Z.even z)) (f r * bpow radix2 prec)) as H. exact H.
      - rewrite Ropp_mult_distr_l, Ropp_minus_distr, Rmult_minus_distr_r, Rmult_assoc, Euv. ring. }
    assert (Hy : Rabs y <= 2).
    { replace y with ((y - f r) + f r) by ring. eapply Rle_trans; [apply Rabs_triang|]. assert (Rabs (f r) <= 1) by (apply Rabs_le; pose proof (Hf r); lra). lra. }
    pose proof (binary_normalize_correct prec emax Hp Hm mode_NE m (- prec) false) as HC. change (round_mode mode_NE) with ZnearestE in HC.
    cbv zeta in HC. fold y in HC. rewrite Rlt_bool_true in HC.
    2:{ apply rnd_small; try assumption. eapply Rle_trans; [exact Hy|]. red in Hm. change 2 with (bpow radix2 1). apply bpow_le. lia. }
    destruct HC as (H1 & H2 & _). eexists. split; [apply val_B; eexists; split; [apply FloatSub.normalize_equiv|]; split; [exact H2|reflexivity]|].
    rewrite H1. pose proof (rnd_err prec emax Hp y) as He.
    set (z := round radix2 (SpecFloat.fexp prec emax) ZnearestE y) in *.
    replace (z - f r) with ((z - y) + (y - f r)) by ring. eapply Rle_trans; [apply Rabs_triang|].
    assert (Hy1 : Rabs y <= 1 + / 2048).
    { replace y with ((y - f r) + f r) by ring. eapply Rle_trans; [apply Rabs_triang|]. assert (Rabs (f r) <= 1) by (apply Rabs_le; pose proof (Hf r); lra). lra. }
    assert (unit_roundoff prec * Rabs y <= unit_roundoff prec * (1 + / 2048)) by (apply Rmult_le_compat_l; lra).
    assert (unit_roundoff prec * tiny emax <= unit_roundoff prec * / 1024) by (apply Rmult_le_compat_l; lra). lra.
  Qed.
  Lemma good_libm_ok : (11 <= prec)%Z -> libm_within prec emax (2 * unit_roundoff prec) good_libm.
  Proof.
    intros Hprec x r Hx. split; apply rounded_ok; try assumption; [apply SIN_bound|apply COS_bound].
  Qed.
End Libm.

(** ** numbers *)
Lemma pow_bound x N : 0 <= x -> INR N * x <= / 2 -> (1 + x) ^ N <= 1 + 2 * (INR N * x).
Proof.
  intros Hx HN. assert (H : (1 - INR N * x) * (1 + x) ^ N <= 1).
  { clear HN. induction N as [|N IH]; [cbn; lra|]. rewrite S_INR. cbn [Rpow_def.pow]. pose proof (pow_ge_1 (1 + x) N ltac:(lra)).
    pose proof (pos_INR N). assert (0 <= (INR N + 1) * x * x * (1 + x) ^ N) by (repeat apply Rmult_le_pos; lra). nra. }
  pose proof (pos_INR N). assert (0 <= INR N * x) by (apply Rmult_le_pos; lra). pose proof (pow_ge_1 (1 + x) N ltac:(lra)). nra.
Qed.
