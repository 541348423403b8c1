(** * The rotation error while the orientation moves towards the target *)
From Coq Require Import Reals Lra Psatz Nsatz.
From stdpp Require Import gmap.
From Verif Require Import Scalar ScalarR Geometry SpecGeom RGeom IkM JacReal PoseDiff TrajProofs TrajQuat.
Local Open Scope R_scope.

Lemma deriv_local (f g : R -> R) x d : derivable_pt_lim f x d ->
  (exists del, 0 < del /\ forall u, Rabs (u - x) < del -> f u = g u) -> derivable_pt_lim g x d.
Proof.
  intros Hf (del & Hd & He) eps Heps. destruct (Hf eps Heps) as [d1 Hd1].
  assert (Hm : 0 < Rmin d1 del) by (apply Rmin_pos; [apply cond_pos|exact Hd]).
  exists (mkposreal _ Hm). intros k Hk Hlt. cbn in Hlt.
  assert (Rabs k < d1) by (eapply Rlt_le_trans; [exact Hlt|apply Rmin_l]).
  assert (Rabs k < del) by (eapply Rlt_le_trans; [exact Hlt|apply Rmin_r]).
  rewrite <- !He; [apply Hd1; assumption| |].
  - rewrite Rminus_diag_eq, Rabs_R0 by reflexivity. exact Hd.
  - replace (x + k - x) with k by ring. assumption.
Qed.
Lemma deriv_pos_near f x d : derivable_pt_lim f x d -> 0 < f x ->
  exists del, 0 < del /\ forall u, Rabs (u - x) < del -> 0 < f u.
Proof.
  intros Hf Hp.
  assert (Hc : continuity_pt f x) by (apply derivable_continuous_pt; exists d; exact Hf).
  destruct (Hc (f x)) as (del & Hd & H); [exact Hp|]. exists del. split; [exact Hd|]. intros u Hu.
  destruct (Req_EM_T u x) as [->|Hne]; [exact Hp|].
  specialize (H u). unfold D_x, no_cond, dist in H. cbn in H. unfold R_dist in H.
  assert (Rabs (f u - f x) < f x) by (apply H; split; [split; [exact I|congruence]|exact Hu]).
  apply Rabs_def2 in H0. lra.
Qed.

(** the rotation vector in the half with positive (negative) scalar part *)
Lemma scaled_axis_eq q n : n = len (qvec q) -> 0 < n -> qw q <> 0 ->
  qscaled_axis q = times (2 * atan (n / Rabs (qw q)) / n) (if Rlt_dec (qw q) 0 then vneg (qvec q) else qvec q).
Proof.
  intros En Hn Hw. unfold qscaled_axis, qaxis, qangle. change (@sge R RScalar (qw q) szero) with (Rleb 0 (qw q)).
  change (@satan2 R RScalar) with Ratan2. change (@sabs R RScalar) with Rabs. change (@smul R RScalar) with Rmult. change (@vnorm R RScalar) with len. rewrite stwo_R, <- En.
  assert (Ha : Ratan2 n (Rabs (qw q)) = atan (n / Rabs (qw q))).
  { unfold Ratan2. destruct (Rlt_dec 0 (Rabs (qw q))) as [_|H]; [reflexivity|]. exfalso. apply H, Rabs_pos_lt, Hw. }
  rewrite Ha. unfold Rleb.
  assert (Hif : len (if if Rle_dec 0 (qw q) then true else false then qvec q else vneg (qvec q)) = n).
  { destruct (Rle_dec 0 (qw q)); [auto|]. rewrite len_neg. auto. }
  rewrite Hif. replace (sgt n szero) with true.
  2:{ unfold sgt; simpl. unfold Rltb. destruct (Rlt_dec 0 n); [auto|lra]. }
  destruct (Rle_dec 0 (qw q)) as [H|H], (Rlt_dec (qw q) 0) as [H'|H']; try lra.
  - destruct (qvec q). gv; field; lra.
  - destruct (qvec q). gv; field; lra.
Qed.
Lemma scaled_axis_null q : len (qvec q) = 0 -> qscaled_axis q = V3 0 0 0.
Proof.
  intros E. unfold qscaled_axis, qaxis. rewrite vnorm_len.
  assert (len (if sge (qw q) szero then qvec q else vneg (qvec q)) = 0) as ->.
  { destruct (sge (qw q) szero); [|rewrite len_neg]; exact E. }
  replace (sgt (0:R) szero) with false; [reflexivity|].
  unfold sgt; simpl. unfold Rltb. destruct (Rlt_dec 0 0); [lra|auto].
Qed.
Lemma scaled_axis_qneg q : qw q <> 0 -> qscaled_axis (qneg q) = qscaled_axis q.
Proof.
  intros Hw. pose proof (len_nonneg (qvec q)) as Hn.
  assert (Ev : qvec (qneg q) = vneg (qvec q)) by (destruct q; reflexivity).
  assert (El : len (qvec (qneg q)) = len (qvec q)) by (rewrite Ev; apply len_neg).
  destruct (Req_EM_T (len (qvec q)) 0) as [H0|H0].
  - rewrite !scaled_axis_null; [reflexivity|exact H0|congruence].
  - assert (Ew : qw (qneg q) = - qw q) by (destruct q; reflexivity).
    rewrite (scaled_axis_eq (qneg q) (len (qvec q))), (scaled_axis_eq q (len (qvec q))); [|auto|lra|auto|auto|lra|rewrite Ew; lra].
    rewrite Ew, Rabs_Ropp, Ev. f_equal. destruct q as [i j k w]. cbn in *. destruct (Rlt_dec (- w) 0), (Rlt_dec w 0); try lra; gv; ring.
Qed.
Lemma atan_small z : 0 <= z -> 0 <= atan z <= z.
Proof.
  intros Hz. destruct Hz as [Hz|<-]; [|rewrite atan_0; lra].
  assert (Ha : 0 < atan z) by (rewrite <- atan_0; apply atan_increasing; exact Hz). split; [lra|].
  destruct (Rle_lt_dec (atan z) z) as [|Hlt]; [assumption|].
  pose proof (atan_bound z) as [_ Hb].
  destruct (MVT_cor2 atan (fun u => / (1 + u ^ 2)) 0 z Hz) as (c & Hc & _).
  { intros c _. apply derivable_pt_lim_atan. }
  rewrite atan_0, !Rminus_0_r in Hc. assert (0 < / (1 + c ^ 2) <= 1).
  { split; [apply Rinv_0_lt_compat; nra|]. rewrite <- Rinv_1. apply Rinv_le_contravar; nra. }
  nra.
Qed.

(** turning towards the target at the speed of the remaining angle *)
Lemma log_deriv_pos (E : R -> quat R) x : (forall s, unit_quat (E s)) -> 0 < qw (E x) ->
  deriv4 E x (qtimes (- / 2) (qmul (E x) (pure (qscaled_axis (E x))))) ->
  deriv3 (fun s => qscaled_axis (E s)) x (times (-1) (qscaled_axis (E x))).
Proof.
  intros Hu Hw (D1 & D2 & D3 & D4).
  pose proof (len_nonneg (qvec (E x))) as Hn0.
  destruct (deriv_pos_near _ _ _ D4 Hw) as (d1 & Hd1 & Hnear).
  destruct (Req_EM_T (len (qvec (E x))) 0) as [H0|H0].
  - (* already there *)
    rewrite (scaled_axis_null _ H0) in *. apply len_zero in H0.
    assert (Ez : qtimes (- / 2) (qmul (E x) (pure (V3 0 0 0))) = Qt 0 0 0 0) by (destruct (E x); unfold qtimes, pure; gq; cbn; ring).
    rewrite Ez in *. cbn [qi qj qk qw] in *. destruct (E x) as [i0 j0 k0 w0] eqn:Ex. unfold qvec in H0. cbn in H0. injection H0 as -> -> ->.
    assert (Hone : w0 = 1) by (specialize (Hu x); rewrite Ex in Hu; unfold unit_quat in Hu; cbn in Hu, Hw; nra). subst w0.
    assert (Hhalf : exists d2, 0 < d2 /\ forall u, Rabs (u - x) < d2 -> / 2 < qw (E u)).
    { destruct (deriv_pos_near (fun u => qw (E u) - / 2) x 0) as (d2 & Hd2 & H2); [| |exists d2; split; [exact Hd2|]; intros u Hlt; specialize (H2 u Hlt); cbn in H2; lra].
      - eapply deriv_ext; [intros u; reflexivity| |apply deriv_diff; [exact D4|apply deriv_const]]. ring.
      - cbn. rewrite Ex. cbn. lra. }
    destruct Hhalf as (d2 & Hd2 & Hhalf).
    assert (Hsmall : forall f : vec3 R -> R, (forall v, Rabs (f v) <= len v) -> f (V3 0 0 0) = 0 ->
      derivable_pt_lim (fun s => f (qscaled_axis (E s))) x 0).
    { intros f Hf Hf0 eps Heps. set (e := eps / 24). assert (He : 0 < e) by (unfold e; lra).
      destruct (D1 e He) as [e1 He1]. destruct (D2 e He) as [e2 He2]. destruct (D3 e He) as [e3 He3].
      assert (Hm : 0 < Rmin (Rmin e1 e2) (Rmin e3 d2)).
      { repeat apply Rmin_pos; try apply cond_pos. exact Hd2. }
      exists (mkposreal _ Hm). intros k Hk Hlt. cbn in Hlt.
      assert (Hk1 : Rabs k < e1) by (eapply Rlt_le_trans; [exact Hlt|eapply Rle_trans; [apply Rmin_l|apply Rmin_l]]).
      assert (Hk2 : Rabs k < e2) by (eapply Rlt_le_trans; [exact Hlt|eapply Rle_trans; [apply Rmin_l|apply Rmin_r]]).
      assert (Hk3 : Rabs k < e3) by (eapply Rlt_le_trans; [exact Hlt|eapply Rle_trans; [apply Rmin_r|apply Rmin_l]]).
      assert (Hk4 : Rabs k < d2) by (eapply Rlt_le_trans; [exact Hlt|eapply Rle_trans; [apply Rmin_r|apply Rmin_r]]).
      specialize (He1 k Hk Hk1). specialize (He2 k Hk Hk2). specialize (He3 k Hk Hk3).
      specialize (Hhalf (x + k)). replace (x + k - x) with k in Hhalf by ring. specialize (Hhalf Hk4).
      rewrite Ex in *. cbn [qi qj qk] in *. rewrite (scaled_axis_null (Qt 0 0 0 1)) by exact len_v0. rewrite Hf0.
      assert (Hpk : 0 < Rabs k) by (apply Rabs_pos_lt; exact Hk).
      assert (Hc : forall z, Rabs ((z - 0) / k - 0) < e -> Rabs z < e * Rabs k).
      { intros z Hz. replace z with (((z - 0) / k - 0) * k) by (field; exact Hk). rewrite Rabs_mult. apply Rmult_lt_compat_r; assumption. }
      apply Hc in He1. apply Hc in He2. apply Hc in He3.
      set (q := E (x + k)) in *.
      assert (Hlen : len (qvec q) <= 3 * e * Rabs k).
      { assert (Hsq : len (qvec q) * len (qvec q) <= (3 * e * Rabs k) * (3 * e * Rabs k)).
        { rewrite len_sqr. unfold inner, qvec. cbn [vx vy vz]. apply Rabs_def2 in He1, He2, He3.
          set (b := e * Rabs k) in *. replace (3 * e * Rabs k) with (3 * b) by (unfold b; ring).
          assert (qi q * qi q <= b * b) by nra. assert (qj q * qj q <= b * b) by nra. assert (qk q * qk q <= b * b) by nra. nra. }
        assert (0 <= 3 * e * Rabs k) by nra. pose proof (len_nonneg (qvec q)). nra. }
      assert (Hlog : len (qscaled_axis q) <= 4 * len (qvec q)).
      { pose proof (len_nonneg (qvec q)) as Hq0. destruct (Req_EM_T (len (qvec q)) 0) as [Z|Z].
        - rewrite scaled_axis_null by exact Z. rewrite len_v0. lra.
        - assert (Hp : 0 < len (qvec q)) by lra. rewrite (scaled_axis_eq q (len (qvec q)) eq_refl Hp) by lra.
          set (n := len (qvec q)) in *. rewrite (Rabs_right (qw q)) by lra.
          destruct (Rlt_dec (qw q) 0) as [|_]; [lra|].
          assert (Hz : 0 <= n / qw q) by (apply Rmult_le_pos; [lra|left; apply Rinv_0_lt_compat; lra]).
          destruct (atan_small (n / qw q) Hz) as [A0 A1].
          rewrite len_times by (apply Rmult_le_pos; [lra|left; apply Rinv_0_lt_compat; lra]). fold n.
          replace (2 * atan (n / qw q) / n * n) with (2 * atan (n / qw q)) by (field; lra).
          assert (n / qw q <= 2 * n).
          { unfold Rdiv. assert (/ qw q <= 2) by (rewrite <- (Rinv_inv 2); apply Rinv_le_contravar; lra). nra. }
          lra. }
      replace ((f (qscaled_axis q) - 0) / k - 0) with (f (qscaled_axis q) / k) by (field; exact Hk).
      unfold Rdiv. rewrite Rabs_mult, Rabs_inv. specialize (Hf (qscaled_axis q)).
      apply (Rmult_lt_reg_r (Rabs k)); [exact Hpk|]. rewrite Rmult_assoc, Rinv_l, Rmult_1_r by lra. unfold e in *. nra. }
    assert (Hc3 : forall v : vec3 R, Rabs (vx v) <= len v /\ Rabs (vy v) <= len v /\ Rabs (vz v) <= len v).
    { intros v. pose proof (len_sqr v) as Hs. pose proof (len_nonneg v). destruct v as [a b c]. unfold inner in Hs. cbn [vx vy vz] in *.
      assert (Hz' : forall z, z * z <= len (V3 a b c) * len (V3 a b c) -> Rabs z <= len (V3 a b c)).
      { intros z Hz. apply Rabs_le. split; nra. }
      split; [|split]; apply Hz'; nra. }
    split; [|split]; cbn [times vx vy vz]; rewrite Rmult_0_r.
    + apply (Hsmall (fun v => vx v)); [intros v; apply Hc3|reflexivity].
    + apply (Hsmall (fun v => vy v)); [intros v; apply Hc3|reflexivity].
    + apply (Hsmall (fun v => vz v)); [intros v; apply Hc3|reflexivity].
  - (* a nonzero angle *)
    assert (Hn : 0 < len (qvec (E x))) by lra. set (n := len (qvec (E x))) in *.
    set (N := fun s => qi (E s) * qi (E s) + qj (E s) * qj (E s) + qk (E s) * qk (E s)).
    assert (HlenN : forall s, len (qvec (E s)) = R_sqrt.sqrt (N s)) by reflexivity.
    assert (Enn : N x = n * n) by (unfold n; rewrite len_sqr; reflexivity).
    assert (Hsa : qscaled_axis (E x) = times (2 * atan (n / qw (E x)) / n) (qvec (E x))).
    { rewrite (scaled_axis_eq (E x) n eq_refl Hn) by lra. rewrite Rabs_right by lra. destruct (Rlt_dec (qw (E x)) 0); [lra|reflexivity]. }
    set (phi := 2 * atan (n / qw (E x))) in *.
    specialize (Hu x) as Hux. destruct (E x) as [i j k w] eqn:Ex. unfold unit_quat in Hux. cbn [qi qj qk qw qvec] in *. 
    assert (Ediv : qtimes (- / 2) (qmul (Qt i j k w) (pure (qscaled_axis (Qt i j k w)))) =
      Qt (- / 2 * (w * (phi / n * i))) (- / 2 * (w * (phi / n * j))) (- / 2 * (w * (phi / n * k))) (/ 2 * (phi * n))).
    { rewrite Hsa. unfold qtimes, pure. unfold qvec. gq; cbn.
      - ring.
      - ring.
      - ring.
      - unfold N in Enn. rewrite Ex in Enn. cbn in Enn. 
        transitivity (/ 2 * (phi / n) * (i * i + j * j + k * k)); [ring|]. rewrite Enn. field. lra. }
    rewrite Ediv in D1, D2, D3, D4. cbn [qi qj qk qw] in *.
    assert (ENx : i * i + j * j + k * k = n * n) by (unfold N in Enn; rewrite Ex in Enn; exact Enn).
    assert (DN : derivable_pt_lim N x (- (w * phi * n))).
    { unfold N. eapply deriv_ext; [intros s; reflexivity| |dv]. cbn beta. rewrite Ex. cbn [qi qj qk].
      transitivity (- (w * (phi / n) * (i * i + j * j + k * k))); [field; lra|]. rewrite ENx. field. lra. }
    assert (DS : derivable_pt_lim (fun s => R_sqrt.sqrt (N s)) x (- / 2 * w * phi)).
    { assert (HNx : 0 < N x) by (rewrite Enn; nra).
      pose proof (derivable_pt_lim_comp N R_sqrt.sqrt x _ _ DN (derivable_pt_lim_sqrt (N x) HNx)) as H1.
      eapply deriv_ext; [intros s; reflexivity| |exact H1]. rewrite Enn, sqrt_square by lra. field. lra. }
    assert (Hsx : R_sqrt.sqrt (N x) = n) by (rewrite Enn; apply sqrt_square; lra).
    assert (DQ : derivable_pt_lim (fun s => R_sqrt.sqrt (N s) / qw (E s)) x (- / 2 * phi / (w * w))).
    { assert (Hwne : qw (E x) <> 0) by (rewrite Ex; cbn; lra).
      pose proof (derivable_pt_lim_div (fun s => R_sqrt.sqrt (N s)) (fun s => qw (E s)) x _ _ DS D4 Hwne) as H1.
      eapply deriv_ext; [intros s; reflexivity| |exact H1]. cbn beta. rewrite Hsx, Ex. cbn [qw]. unfold Rsqr.
      transitivity (- / 2 * phi * (w * w + n * n) / (w * w)); [field; lra|]. rewrite <- ENx. replace (w * w + (i * i + j * j + k * k)) with 1 by lra. field. lra. }
    assert (DA : derivable_pt_lim (fun s => 2 * atan (R_sqrt.sqrt (N s) / qw (E s))) x (- phi)).
    { pose proof (derivable_pt_lim_comp _ atan x _ _ DQ (derivable_pt_lim_atan _)) as H1.
      pose proof (derivable_pt_lim_scal _ 2 x _ H1) as H2. eapply deriv_ext; [intros s; reflexivity| |exact H2].
      cbn beta. rewrite Hsx, Ex. cbn [qw].
      assert (Hone : w * w + n * n = 1) by (rewrite <- ENx; lra).
      replace (1 + (n / w) ^ 2) with (/ (w * w)); [field; lra|].
      transitivity ((w * w + n * n) / (w * w)); [rewrite Hone; field; lra|field; lra]. }
    assert (DC : derivable_pt_lim (fun s => 2 * atan (R_sqrt.sqrt (N s) / qw (E s)) / R_sqrt.sqrt (N s)) x ((- phi * n + phi * (/ 2 * w * phi)) / (n * n))).
    { assert (Hne : R_sqrt.sqrt (N x) <> 0) by (rewrite Hsx; lra).
      pose proof (derivable_pt_lim_div (fun s => 2 * atan (R_sqrt.sqrt (N s) / qw (E s))) (fun s => R_sqrt.sqrt (N s)) x _ _ DA DS Hne) as H1.
      eapply deriv_ext; [intros s; reflexivity| |exact H1]. cbn beta. rewrite Hsx, Ex. cbn [qw]. fold phi. unfold Rsqr. field. lra. }
    assert (HNx : 0 < N x) by (rewrite Enn; nra).
    destruct (deriv_pos_near N x _ DN HNx) as (d2 & Hd2 & HN).
    assert (Hcoord : forall (f : quat R -> R) (g : vec3 R -> R) (f0 df : R),
      (forall q, g (qvec q) = f q) -> (forall r v, g (times r v) = r * g v) -> f (E x) = f0 ->
      derivable_pt_lim (fun s => f (E s)) x df -> df = - / 2 * (w * (phi / n * f0)) ->
      derivable_pt_lim (fun s => g (qscaled_axis (E s))) x (g (times (-1) (qscaled_axis (E x))))).
    { intros f g f0 df Hgf Hlin Hf0 Hdf ->.
      apply (deriv_local (fun s => 2 * atan (R_sqrt.sqrt (N s) / qw (E s)) / R_sqrt.sqrt (N s) * f (E s))).
      - eapply deriv_ext; [intros s; reflexivity| |apply deriv_prod; [exact DC|exact Hdf]]. cbn beta.
        rewrite Ex, Hlin, Hsa, Hlin, Hgf, Hsx. cbn [qw]. fold phi. rewrite Ex in Hf0. rewrite Hf0. field. lra.
      - exists (Rmin d1 d2). split; [apply Rmin_pos; assumption|]. intros u Hlt.
        assert (0 < qw (E u)) by (apply Hnear; eapply Rlt_le_trans; [exact Hlt|apply Rmin_l]).
        assert (0 < N u) by (apply HN; eapply Rlt_le_trans; [exact Hlt|apply Rmin_r]).
        rewrite (scaled_axis_eq (E u) (R_sqrt.sqrt (N u))); [|reflexivity|apply sqrt_lt_R0; assumption|lra].
        rewrite Rabs_right by lra. destruct (Rlt_dec (qw (E u)) 0); [lra|]. rewrite Hlin, Hgf. reflexivity. }
    rewrite <- Ex. split; [|split].
    + eapply (Hcoord qi (fun v => vx v) i); [reflexivity|reflexivity|rewrite Ex; reflexivity|exact D1|reflexivity].
    + eapply (Hcoord qj (fun v => vy v) j); [reflexivity|reflexivity|rewrite Ex; reflexivity|exact D2|reflexivity].
    + eapply (Hcoord qk (fun v => vz v) k); [reflexivity|reflexivity|rewrite Ex; reflexivity|exact D3|reflexivity].
Qed.
Lemma log_deriv (E : R -> quat R) x : (forall s, unit_quat (E s)) -> qw (E x) <> 0 ->
  deriv4 E x (qtimes (- / 2) (qmul (E x) (pure (qscaled_axis (E x))))) ->
  deriv3 (fun s => qscaled_axis (E s)) x (times (-1) (qscaled_axis (E x))).
Proof.
  intros Hu Hw HD. destruct (Rlt_dec 0 (qw (E x))) as [Hp|Hp]; [apply log_deriv_pos; assumption|].
  assert (Hneg : 0 < qw (qneg (E x))) by (destruct (E x); cbn in *; lra).
  pose proof (log_deriv_pos (fun s => qneg (E s)) x) as H. cbn beta in H. rewrite (scaled_axis_qneg (E x) Hw) in H.
  assert (Hd : deriv3 (fun s => qscaled_axis (qneg (E s))) x (times (-1) (qscaled_axis (E x)))).
  { apply H; [|exact Hneg|].
    - intros s. specialize (Hu s). destruct (E s). unfold unit_quat, qneg in *. cbn in *. lra.
    - destruct HD as (D1 & D2 & D3 & D4). set (v := qscaled_axis (E x)) in *. clearbody v.
      split; [|split; [|split]]; cbn [qneg qi qj qk qw qtimes].
      1: eapply deriv_ext; [intros s; reflexivity| |exact (derivable_pt_lim_opp _ _ _ D1)].
      2: eapply deriv_ext; [intros s; reflexivity| |exact (derivable_pt_lim_opp _ _ _ D2)].
      3: eapply deriv_ext; [intros s; reflexivity| |exact (derivable_pt_lim_opp _ _ _ D3)].
      4: eapply deriv_ext; [intros s; reflexivity| |exact (derivable_pt_lim_opp _ _ _ D4)].
      all: destruct (E x), v; unfold qneg, qtimes, pure; un; cbn; ring. }
  destruct HD as (_ & _ & _ & D4).
  pose proof (derivable_pt_lim_opp _ _ _ D4) as D5.
  destruct (deriv_pos_near _ _ _ D5) as (d1 & Hd1 & Hnear); [unfold opp_fct; lra|].
  destruct Hd as (H1 & H2 & H3).
  assert (Heq : forall u, Rabs (u - x) < d1 -> qscaled_axis (qneg (E u)) = qscaled_axis (E u)).
  { intros u Hlt. apply scaled_axis_qneg. specialize (Hnear u Hlt). unfold opp_fct in Hnear. lra. }
  split; [|split]; [eapply deriv_local; [exact H1|]|eapply deriv_local; [exact H2|]|eapply deriv_local; [exact H3|]];
    exists d1; (split; [exact Hd1|]); intros u Hlt; cbn beta; rewrite (Heq u Hlt); reflexivity.
Qed.
