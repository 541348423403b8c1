(** * What a successful floating-point comparison says about the exact distance *)
From Coq Require Import Reals ZArith Bool Lra Lia Psatz Floats.SpecFloat.
From Flocq Require Import Core IEEE754.BinarySingleNaN.
From Verif Require Import Scalar ScalarR ScalarF Geometry SpecValues FloatSub SpecFloatErr FloatErr FloatBack SpecGeom RGeom SpecReach ReachProofs SpecAcc AccProofs IkM SpecIk SpecSolved.
Local Open Scope R_scope.

(** ** lengths *)
Lemma len_abs x y z : len (V3 (Rabs x) (Rabs y) (Rabs z)) = len (V3 x y z).
Proof. unfold len, inner. cbn. f_equal. rewrite <- !Rabs_mult. rewrite !Rabs_pos_eq by apply Rle_0_sqr. reflexivity. Qed.
Lemma len_mono x y z x' y' z' : 0 <= x <= x' -> 0 <= y <= y' -> 0 <= z <= z' -> len (V3 x y z) <= len (V3 x' y' z').
Proof.
  intros Hx Hy Hz. apply sqrt_le_1_alt. unfold inner. cbn.
  assert (x * x <= x' * x') by (apply Rmult_le_compat; lra). assert (y * y <= y' * y') by (apply Rmult_le_compat; lra).
  assert (z * z <= z' * z') by (apply Rmult_le_compat; lra). lra.
Qed.
Lemma len_ge a b k e : 0 <= k -> 0 <= e -> k * Rabs (vx b) <= Rabs (vx a) + e -> k * Rabs (vy b) <= Rabs (vy a) + e ->
  k * Rabs (vz b) <= Rabs (vz a) + e -> k * len b <= len a + 2 * e.
Proof.
  intros Hk He Hx Hy Hz. destruct a as [a1 a2 a3], b as [b1 b2 b3]. cbn [vx vy vz] in *.
  pose proof (len_times k (V3 b1 b2 b3)) as E. rewrite (Rabs_pos_eq k Hk) in E. rewrite <- E. unfold times. cbn [vx vy vz].
  rewrite <- len_abs, !Rabs_mult, (Rabs_pos_eq k Hk).
  eapply Rle_trans; [apply (len_mono _ _ _ (Rabs a1 + e) (Rabs a2 + e) (Rabs a3 + e)); (split; [apply Rmult_le_pos; [exact Hk|apply Rabs_pos]|assumption])|].
  eapply Rle_trans; [apply (len_plus (V3 (Rabs a1) (Rabs a2) (Rabs a3)) (V3 e e e))|]. rewrite len_abs.
  apply Rplus_le_compat_l. apply len_comps; cbn; rewrite Rabs_pos_eq; lra.
Qed.

Section Norm.
  Context (prec emax : Z) (Hp : Prec_gt_0 prec) (Hm : Prec_lt_emax prec emax) (L : libm).
  Context (Hprec : (11 <= prec)%Z).
  Notation val := (val prec emax).
  Notation vval := (vval prec emax).
  Notation u := (unit_roundoff prec).
  Notation mu := (tiny emax).
  Notation fx := (SpecFloat.fexp prec emax).
  Notation rnd := (round radix2 fx ZnearestE).
  Notation valid x := (valid_binary prec emax x = true).
  Notation FS := (FScalar prec emax L).
  (** lengths below this square to nothing *)
  Notation f := (R_sqrt.sqrt (u * mu)).

  Lemma f_facts : 0 < f /\ f * f = u * mu /\ f * f <= f.
  Proof.
    pose proof (u_small prec Hprec) as [U0 U1]. pose proof (mu_small prec emax Hm Hprec) as [M0 M1].
    assert (H : 0 < u * mu) by (apply Rmult_lt_0_compat; lra).
    assert (E : f * f = u * mu) by (apply sqrt_sqrt; lra). pose proof (sqrt_lt_R0 _ H) as F0. split; [exact F0|]. split; [exact E|].
    assert (f <= 1); [|rewrite <- (Rmult_1_r f) at 3; apply Rmult_le_compat_l; lra].
    rewrite <- sqrt_1. apply sqrt_le_1_alt. rewrite <- (Rmult_1_r 1). apply Rmult_le_compat; lra.
  Qed.
  Lemma rnd_pos x : 0 <= x -> 0 <= rnd x.
  Proof.
    intros H. pose proof (fexp_correct prec emax Hp) as Vf. apply round_ge_generic; [exact Vf|apply valid_rnd_N|apply generic_format_0|exact H].
  Qed.
  Lemma rnd_bounds x : 0 <= x -> (1 - u) * x - u * mu <= rnd x <= (1 + u) * x + u * mu.
  Proof. intros H. pose proof (rnd_err prec emax Hp x) as E. rewrite (Rabs_pos_eq x H) in E. apply Rabs_le_inv in E. lra. Qed.
  Lemma rnd_sum_bounds x y : generic_format radix2 fx x -> generic_format radix2 fx y -> 0 <= x + y ->
    (1 - u) * (x + y) <= rnd (x + y) <= (1 + u) * (x + y).
  Proof. intros Fx Fy H. pose proof (rnd_add_err prec emax Hp x y Fx Fy) as E. rewrite (Rabs_pos_eq _ H) in E. apply Rabs_le_inv in E. lra. Qed.

  Lemma vnorm_valid e : valid (vx e) -> valid (vy e) -> valid (vz e) -> valid (@vnorm _ FS e).
  Proof.
    intros Hx Hy Hz. unfold vnorm, vdot. cbn [ssqrt sadd smul FScalar].
    apply sqrt_valid, add_valid; try assumption; [apply add_valid; try assumption|]; apply mul_valid; assumption.
  Qed.
  Lemma norm_not_neg e : @vnorm _ FS e <> S754_infinity true.
  Proof.
    unfold vnorm. cbn [ssqrt FScalar]. destruct (@vdot _ FS _ _) as [|[]| |[] ? ?]; cbn; try discriminate.
    destruct (SFsqrt_core_binary _ _ _ _) as [[? ?] ?]. unfold SpecFloat.binary_round_aux.
    destruct (shr_fexp _ _ _ _) as [? ?]. destruct (shr_fexp _ _ _ _) as [sh ?]. destruct (shr_m sh); try discriminate. destruct (_ <=? _)%Z; discriminate.
  Qed.
  (** the value of the computed norm *)
  Lemma norm_back e n : valid (vx e) -> valid (vy e) -> valid (vz e) -> val (@vnorm _ FS e) n ->
    exists r, vval e r /\ 0 <= n /\ (1 - u) ^ 3 * len r <= n + 3 * f /\ n <= (1 + u) ^ 3 * len r + 4 * f.
  Proof.
    intros Vx Vy Vz H. unfold vnorm, vdot in H. cbn [ssqrt sadd smul FScalar] in H.
    pose proof (mul_valid prec emax Hp Hm _ _ Vx Vx) as Wx. pose proof (mul_valid prec emax Hp Hm _ _ Vy Vy) as Wy.
    pose proof (mul_valid prec emax Hp Hm _ _ Vz Vz) as Wz. pose proof (add_valid prec emax Hp Hm _ _ Wx Wy) as Wxy.
    pose proof (add_valid prec emax Hp Hm _ _ Wxy Wz) as Ws.
    apply sqrt_back in H as (s & Hs & S0 & ->); try assumption.
    apply add_back in Hs as (q & p3 & Hq & H3 & Es); try assumption.
    pose proof (val_format _ _ _ _ Hq) as Fq. pose proof (val_format _ _ _ _ H3) as F3.
    apply add_back in Hq as (p1 & p2 & H1 & H2 & Eq); try assumption.
    pose proof (val_format _ _ _ _ H1) as F1. pose proof (val_format _ _ _ _ H2) as F2.
    apply mul_back in H1 as (x & x' & Hx & Hx' & E1); try assumption. pose proof (val_fun _ _ _ _ _ Hx Hx') as <-.
    apply mul_back in H2 as (y & y' & Hy & Hy' & E2); try assumption. pose proof (val_fun _ _ _ _ _ Hy Hy') as <-.
    apply mul_back in H3 as (z & z' & Hz & Hz' & E3); try assumption. pose proof (val_fun _ _ _ _ _ Hz Hz') as <-.
    pose proof (u_small prec Hprec) as [U0 U1]. destruct f_facts as (F0 & FF & Ff).
    exists (V3 x y z). split; [repeat split; assumption || apply Hx || apply Hy || apply Hz|].
    pose proof (sqrt_pos s) as Q0. split; [apply rnd_pos, Q0|].
    pose proof (Rle_0_sqr x) as X2. pose proof (Rle_0_sqr y) as Y2. pose proof (Rle_0_sqr z) as Z2. unfold Rsqr in X2, Y2, Z2.
    pose proof (rnd_bounds _ X2) as B1. pose proof (rnd_bounds _ Y2) as B2. pose proof (rnd_bounds _ Z2) as B3.
    pose proof (rnd_pos _ X2) as P1. pose proof (rnd_pos _ Y2) as P2. pose proof (rnd_pos _ Z2) as P3.
    rewrite <- E1 in B1, P1. rewrite <- E2 in B2, P2. rewrite <- E3 in B3, P3.
    pose proof (rnd_sum_bounds _ _ F1 F2 ltac:(lra)) as Bq. rewrite <- Eq in Bq.
    assert (Q1 : 0 <= q) by (eapply Rle_trans; [|apply Bq]; apply Rmult_le_pos; lra).
    pose proof (rnd_sum_bounds _ _ Fq F3 ltac:(lra)) as Bs. rewrite <- Es in Bs.
    pose proof (rnd_bounds _ Q0) as Bn. rewrite <- FF in B1, B2, B3, Bn.
    set (D := len (V3 x y z)). pose proof (len_nonneg (V3 x y z)) as D0. fold D in D0.
    assert (D2 : D * D = x * x + y * y + z * z) by (unfold D; rewrite len_sqr; reflexivity).
    set (g := f) in *. set (w := R_sqrt.sqrt s) in *. assert (W2 : w * w = s) by (apply sqrt_sqrt; exact S0).
    clearbody g w D. clear E1 E2 E3 Eq Es F1 F2 F3 Fq.
    set (v := u) in *. clearbody v.
    assert (Slo : (1 - v) * (1 - v) * ((1 - v) * (D * D) - 3 * (g * g)) <= w * w).
    { rewrite W2, D2. assert ((1 - v) * (p1 + p2 + p3) <= q + p3) by nra.
      assert ((1 - v) * ((1 - v) * (p1 + p2 + p3)) <= (1 - v) * (q + p3)) by (apply Rmult_le_compat_l; lra).
      assert ((1 - v) * (1 - v) * ((1 - v) * (x * x + y * y + z * z) - 3 * (g * g)) <= (1 - v) * (1 - v) * (p1 + p2 + p3)) by (apply Rmult_le_compat_l; [apply Rmult_le_pos|]; lra). lra. }
    assert (Shi : w * w <= (1 + v) * (1 + v) * ((1 + v) * (D * D) + 3 * (g * g))).
    { rewrite W2, D2. assert (q + p3 <= (1 + v) * (p1 + p2 + p3)) by nra.
      assert ((1 + v) * (q + p3) <= (1 + v) * ((1 + v) * (p1 + p2 + p3))) by (apply Rmult_le_compat_l; lra).
      assert ((1 + v) * (1 + v) * (p1 + p2 + p3) <= (1 + v) * (1 + v) * ((1 + v) * (x * x + y * y + z * z) + 3 * (g * g))) by (apply Rmult_le_compat_l; [apply Rmult_le_pos|]; lra). lra. }
    assert (Wlo : (1 - v) * ((1 - v) * D - 2 * g) <= w).
    { destruct (Rle_or_lt ((1 - v) * D) (2 * g)) as [Hs|Hb].
      - apply Rle_trans with 0; [|exact Q0]. rewrite <- (Rmult_0_r (1 - v)). apply Rmult_le_compat_l; lra.
      - apply Rsqr_incr_0; [|apply Rmult_le_pos; lra|exact Q0]. unfold Rsqr. eapply Rle_trans; [|exact Slo].
        replace ((1 - v) * ((1 - v) * D - 2 * g) * ((1 - v) * ((1 - v) * D - 2 * g))) with ((1 - v) * (1 - v) * (((1 - v) * D - 2 * g) * ((1 - v) * D - 2 * g))) by ring.
        apply Rmult_le_compat_l; [apply Rmult_le_pos; lra|].
        assert (0 <= g * g) by (apply Rmult_le_pos; lra). assert (2 * g * g <= (1 - v) * D * g) by (apply Rmult_le_compat_r; lra).
        assert (0 <= v * ((1 - v) * (D * D))) by (apply Rmult_le_pos; [lra|apply Rmult_le_pos; [lra|rewrite D2; lra]]).
        replace (((1 - v) * D - 2 * g) * ((1 - v) * D - 2 * g)) with ((1 - v) * (D * D) - v * ((1 - v) * (D * D)) - 4 * ((1 - v) * D * g) + 4 * (g * g)) by ring. lra. }
    assert (Whi : w <= (1 + v) * ((1 + v) * D + 2 * g)).
    { assert (0 <= v * D) by (apply Rmult_le_pos; lra). assert (0 <= D * g) by (apply Rmult_le_pos; lra). assert (0 <= v * (D * g)) by (apply Rmult_le_pos; lra).
      apply Rsqr_incr_0; [|exact Q0|apply Rmult_le_pos; lra]. unfold Rsqr. eapply Rle_trans; [exact Shi|].
      replace ((1 + v) * ((1 + v) * D + 2 * g) * ((1 + v) * ((1 + v) * D + 2 * g))) with ((1 + v) * (1 + v) * (((1 + v) * D + 2 * g) * ((1 + v) * D + 2 * g))) by ring.
      apply Rmult_le_compat_l; [apply Rmult_le_pos; lra|].
      assert (0 <= v * ((1 + v) * (D * D))) by (apply Rmult_le_pos; [lra|apply Rmult_le_pos; [lra|rewrite D2; lra]]).
      assert (0 <= g * g) by nra. nra. }
    split.
    - destruct Bn as [Bn _]. assert ((1 - v) * ((1 - v) * ((1 - v) * D - 2 * g)) <= (1 - v) * w) by (apply Rmult_le_compat_l; lra).
      assert (0 <= v * (2 - v)) by (apply Rmult_le_pos; lra).
      assert ((1 - v) * (1 - v) * (2 * g) <= 1 * (2 * g)) by (apply Rmult_le_compat_r; lra).
      replace ((1 - v) ^ 3 * D) with ((1 - v) * ((1 - v) * ((1 - v) * D - 2 * g)) + (1 - v) * (1 - v) * (2 * g)) by ring. lra.
    - destruct Bn as [_ Bn]. assert ((1 + v) * w <= (1 + v) * ((1 + v) * ((1 + v) * D + 2 * g))) by (apply Rmult_le_compat_l; lra).
      assert (v * (2 + v) <= / 2048 * 3) by (apply Rmult_le_compat; lra).
      assert ((1 + v) * (1 + v) * (2 * g) <= 1.5 * (2 * g)) by (apply Rmult_le_compat_r; lra).
      replace ((1 + v) ^ 3 * D) with ((1 + v) * ((1 + v) * ((1 + v) * D + 2 * g)) - (1 + v) * (1 + v) * (2 * g)) by ring. lra.
  Qed.

  (** ** positions *)
  Lemma position_back c tg x t r tol tau : vval (tr tg) t -> vval (tr x) r -> val tol tau ->
    SFltb (@vnorm _ FS (@position_error _ FS c tg x)) tol = true ->
    len (only_constrained c t r) <= (1 + 8 * u) * (tau + 3 * f).
  Proof.
    intros (Tx & Ty & Tz) (Rx & Ry & Rz) Ht H. pose proof (u_small prec Hprec) as [U0 U1]. destruct f_facts as (F0 & FF & Ff).
    assert (Hsub : forall b y z a d, val y a -> val z d -> valid (@keep _ FS b (SFsub prec emax y z)) /\
      forall e, val (@keep _ FS b (SFsub prec emax y z)) e -> (1 - u) * Rabs (if b then a - d else 0) <= Rabs e + 0).
    { intros b y z a d Hy Hz. destruct b; cbn [keep].
      - split; [apply sub_valid; [exact Hp|exact Hm|apply Hy|apply Hz]|]. intros e He.
        apply sub_back in He as (a' & d' & Ha & Hd & ->); try assumption; [|apply Hy|apply Hz].
        pose proof (val_fun _ _ _ _ _ Hy Ha) as <-. pose proof (val_fun _ _ _ _ _ Hz Hd) as <-. rewrite Rplus_0_r.
        apply rnd_sub_ge; [exact Hp|eapply val_format, Ha|eapply val_format, Hd].
      - split; [reflexivity|]. intros e _. rewrite Rabs_R0. pose proof (Rabs_pos e). lra. }
    destruct (Hsub (position_x c) _ _ _ _ Tx Rx) as [Vx Bx]. destruct (Hsub (position_y c) _ _ _ _ Ty Ry) as [Vy By].
    destruct (Hsub (position_z c) _ _ _ _ Tz Rz) as [Vz Bz].
    pose proof (vnorm_valid (@position_error _ FS c tg x) Vx Vy Vz) as Vn.
    apply (lt_back prec emax) with (c := tau) in H as [(n & Hn & Hlt)|H]; try assumption.
    2:{ exfalso. exact (norm_not_neg _ H). }
    apply norm_back in Hn as (e & (Ex & Ey & Ez) & N0 & Hlo & _); try assumption.
    pose proof (len_ge e (only_constrained c t r) (1 - u) 0 ltac:(lra) ltac:(lra) (Bx _ Ex) (By _ Ey) (Bz _ Ez)) as Hl.
    pose proof (len_nonneg (only_constrained c t r)) as L0. set (D := len (only_constrained c t r)) in *.
    assert (P3 : 0 <= (1 - u) ^ 3) by (apply pow_le; lra).
    assert (H1 : (1 - u) ^ 3 * ((1 - u) * D) <= (1 - u) ^ 3 * (len e + 2 * 0)) by (apply Rmult_le_compat_l; assumption).
    assert (H2 : (1 - u) ^ 4 * D <= tau + 3 * f) by (replace ((1 - u) ^ 4 * D) with ((1 - u) ^ 3 * ((1 - u) * D)) by ring; lra).
    assert (Y0 : 0 <= tau + 3 * f) by lra.
    assert (H3 : 1 <= (1 + 8 * u) * (1 - u) ^ 4).
    { assert (0 <= u * u) by (apply Rmult_le_pos; lra). assert (u * u <= / 2048 * u) by (apply Rmult_le_compat_r; lra).
      assert (1 - 4 * u <= (1 - u) ^ 4). { replace ((1 - u) ^ 4) with (1 - 4 * u + u * u * (6 - 4 * u + u * u)) by ring. assert (0 <= u * u * (6 - 4 * u + u * u)) by (apply Rmult_le_pos; lra). lra. }
      assert ((1 + 8 * u) * (1 - 4 * u) <= (1 + 8 * u) * (1 - u) ^ 4) by (apply Rmult_le_compat_l; lra). lra. }
    apply Rle_trans with ((1 + 8 * u) * ((1 - u) ^ 4 * D)); [|apply Rmult_le_compat_l; lra].
    rewrite <- Rmult_assoc. rewrite <- (Rmult_1_l D) at 1. apply Rmult_le_compat_r; assumption.
  Qed.
End Norm.
