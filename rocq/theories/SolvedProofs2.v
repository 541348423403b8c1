(** * What a successful floating-point comparison says about the exact angle *)
From Coq Require Import Reals ZArith Bool Lra Lia Psatz Floats.SpecFloat.
From Flocq Require Import Core IEEE754.BinarySingleNaN.
From Verif Require Import Scalar ScalarR ScalarF Geometry SpecValues FloatSub SpecFloatErr FloatErr FloatBack SpecGeom RGeom SpecReach ReachProofs SpecAcc AccProofs AccProofs2
  IkM SpecIk SpecSolved SolvedProofs.
Local Open Scope R_scope.

(** ** angles in the first quadrant *)
Lemma jordan x : 0 <= x <= PI / 2 -> x <= 2 * sin x.
Proof.
  intros [H0 H1]. set (y := x / 2). replace x with (2 * y) by (unfold y; field). pose proof PI_4 as P4.
  assert (Y0 : 0 <= y) by (unfold y; lra). assert (Y1 : y <= PI / 4) by (unfold y; lra). assert (Y2 : y <= 1) by lra.
  rewrite sin_2a. destruct (sin_bound y 0 Y0 ltac:(lra)) as [S _]. unfold sin_approx, sin_term in S. cbn in S.
  assert (C : / 2 + / 5 <= cos y).
  { apply Rle_trans with (cos (PI / 4)); [|destruct (Rle_lt_or_eq_dec _ _ Y1) as [|E]; [left; apply cos_decreasing_1; lra|rewrite E; lra]].
    rewrite cos_PI4. pose proof (sqrt_lt_R0 2 ltac:(lra)) as Q0. pose proof (sqrt_sqrt 2 ltac:(lra)) as Q2.
    assert (R_sqrt.sqrt 2 <= 10 / 7) by (destruct (Rle_or_lt (R_sqrt.sqrt 2) (10 / 7)); [assumption|nra]).
    apply Rmult_le_reg_r with (R_sqrt.sqrt 2); [exact Q0|]. unfold Rdiv. rewrite Rmult_1_l, Rinv_l by lra. lra. }
  assert (S1 : 5 / 6 * y <= sin y).
  { assert (y * y <= 1) by nra. assert (0 <= y * (1 - y * y)) by (apply Rmult_le_pos; lra). lra. }
  assert (5 / 6 * y * (/ 2 + / 5) <= sin y * cos y) by (apply Rmult_le_compat; lra). lra.
Qed.
Lemma ray b p r e : 0 <= b <= PI / 2 -> 0 <= p <= PI / 2 -> 0 <= e ->
  (sin b - r * sin p) * (sin b - r * sin p) + (cos b - r * cos p) * (cos b - r * cos p) <= e * e -> b <= p + 2 * e.
Proof.
  intros Hb Hp He H. destruct (Rle_or_lt b p) as [|Hlt]; [lra|].
  assert (S : sin (b - p) <= e).
  { rewrite sin_minus. set (s := sin b - r * sin p) in *. set (c := cos b - r * cos p) in *.
    replace (sin b * cos p - cos b * sin p) with (s * cos p - c * sin p) by (unfold s, c; ring).
    pose proof (sin2_cos2 p) as E. unfold Rsqr in E. pose proof (Rle_0_sqr (s * sin p + c * cos p)) as Q. unfold Rsqr in Q.
    set (k := s * cos p - c * sin p). assert (K : k * k <= e * e).
    { replace (k * k) with ((s * s + c * c) * (sin p * sin p + cos p * cos p) - (s * sin p + c * cos p) * (s * sin p + c * cos p)) by (unfold k; ring). rewrite E. lra. }
    destruct (Rle_or_lt k e) as [|Hk]; [assumption|]. assert (e * e < k * k) by (apply Rmult_le_0_lt_compat; lra). lra. }
  pose proof (jordan (b - p) ltac:(lra)). lra.
Qed.
Lemma first_quadrant b : 0 <= b <= PI -> 0 <= cos b -> b <= PI / 2.
Proof. intros Hb Hc. destruct (Rle_or_lt b (PI / 2)) as [|H]; [assumption|]. pose proof (cos_lt_0 b H ltac:(lra)). lra. Qed.
Lemma acos_facts c s : 0 <= c -> 0 <= s -> s * s + c * c = 1 -> 0 <= acos c <= PI / 2 /\ cos (acos c) = c /\ sin (acos c) = s.
Proof.
  intros Hc Hs E. assert (C1 : c <= 1) by nra. pose proof (acos_bound c) as B. pose proof (cos_acos c ltac:(lra)) as Ec.
  split; [split; [lra|apply first_quadrant; lra]|]. split; [exact Ec|].
  rewrite sin_acos by lra. rewrite <- (sqrt_square s Hs). f_equal. unfold Rsqr. lra.
Qed.
Lemma polar y x : 0 < y -> 0 <= x -> exists r p, 0 < r /\ 0 <= p <= PI / 2 /\ y = r * sin p /\ x = r * cos p.
Proof.
  intros Hy Hx. set (r := R_sqrt.sqrt (y * y + x * x)). assert (Q : 0 < y * y + x * x) by nra.
  pose proof (sqrt_lt_R0 _ Q) as R0. fold r in R0. pose proof (sqrt_sqrt (y * y + x * x) ltac:(lra)) as R2. fold r in R2.
  destruct (acos_facts (x / r) (y / r)) as (B & Ec & Es).
  - apply Rmult_le_pos; [exact Hx|]. left. apply Rinv_0_lt_compat, R0.
  - apply Rmult_le_pos; [lra|]. left. apply Rinv_0_lt_compat, R0.
  - replace (y / r * (y / r) + x / r * (x / r)) with ((y * y + x * x) / (r * r)) by (field; lra). rewrite R2. field. lra.
  - exists r, (acos (x / r)). split; [exact R0|]. split; [exact B|]. rewrite Es, Ec. split; field; lra.
Qed.
(** the angle of a unit quaternion *)
Lemma angle_facts p w : unit_quat p -> unit_quat w -> let P := qmul p (qconj w) in
  exists b, angle_between p w = 2 * b /\ 0 <= b <= PI / 2 /\ cos b = Rabs (qw P) /\ sin b = len (qvec P).
Proof.
  intros Hp Hw P. assert (HP : qlen P = 1).
  { unfold P. rewrite qlen_mul, (qlen_unit p Hp). assert (unit_quat (qconj w)) as Hc by (revert Hw; unfold unit_quat, qconj; cbn; intros <-; ring). rewrite (qlen_unit _ Hc). ring. }
  exists (acos (Rabs (qw P))). split.
  - unfold angle_between. do 3 f_equal. unfold P. destruct p, w. cbn. ring.
  - apply acos_facts; [apply Rabs_pos|apply len_nonneg|]. rewrite len_sqr.
    replace (Rabs (qw P) * Rabs (qw P)) with (qw P * qw P) by (rewrite <- Rabs_mult; symmetry; apply Rabs_pos_eq, Rle_0_sqr).
    pose proof (n4_sqr (qi P) (qj P) (qk P) (qw P)) as E. change (n4 (qi P) (qj P) (qk P) (qw P)) with (qlen P) in E. rewrite HP in E.
    unfold inner, qvec. cbn [vx vy vz]. lra.
Qed.
Lemma angle_error b y x r p e : 0 <= b <= PI / 2 -> 0 <= p <= PI / 2 -> 0 <= e -> y = r * sin p -> x = r * cos p ->
  (sin b - y) * (sin b - y) + (cos b - x) * (cos b - x) <= e * e -> b <= p + 2 * e.
Proof. intros Hb Hp He -> ->. apply ray; assumption. Qed.
Lemma parts_error D P : 
  (len (qvec P) - len (qvec D)) * (len (qvec P) - len (qvec D)) + (Rabs (qw P) - Rabs (qw D)) * (Rabs (qw P) - Rabs (qw D)) <= qdist D P * qdist D P.
Proof.
  assert (H1 : (len (qvec P) - len (qvec D)) * (len (qvec P) - len (qvec D)) <= len (minus (qvec D) (qvec P)) * len (minus (qvec D) (qvec P))).
  { apply Rabs_sq. pose proof (len_near (qvec P) (qvec D)) as A. pose proof (len_near (qvec D) (qvec P)) as B. unfold dist in A, B.
    rewrite (len_minus_sym (qvec P)) in A. apply Rabs_le. lra. }
  assert (H2 : (Rabs (qw P) - Rabs (qw D)) * (Rabs (qw P) - Rabs (qw D)) <= (qw D - qw P) * (qw D - qw P)).
  { replace ((qw D - qw P) * (qw D - qw P)) with (Rabs (qw P - qw D) * Rabs (qw P - qw D)) by (rewrite <- Rabs_mult, Rabs_pos_eq by apply Rle_0_sqr; ring).
    apply Rabs_sq. apply Rabs_triang_inv2. }
  rewrite len_sqr in H1. unfold inner, minus, qvec in H1. cbn [vx vy vz] in H1.
  unfold qdist. rewrite sqrt_sqrt by apply sq_nonneg4. unfold qvec in *. lra.
Qed.

Section Angle.
  Context (prec emax : Z) (Hp : Prec_gt_0 prec) (Hm : Prec_lt_emax prec emax) (L : libm).
  Context (Hprec : (11 <= prec)%Z).
  Notation val := (val prec emax).
  Notation vval := (vval prec emax).
  Notation qval := (qval prec emax).
  Notation u := (unit_roundoff prec).
  Notation mu := (tiny emax).
  Notation fx := (SpecFloat.fexp prec emax).
  Notation rnd := (round radix2 fx ZnearestE).
  Notation valid x := (valid_binary prec emax x = true).
  Notation FS := (FScalar prec emax L).
  Notation f := (R_sqrt.sqrt (u * mu)).
  Notation BIG := (bpow radix2 (emax - 2)).

  Lemma val_opp x r : val x r -> val (SFopp x) (- r).
  Proof.
    intros H. apply val_B in H as (b & -> & Hf & <-). replace (SFopp (B2SF b)) with (B2SF (Bopp b)) by (destruct b; reflexivity).
    rewrite <- B2R_Bopp. apply B_val. rewrite is_finite_Bopp. exact Hf.
  Qed.
  Lemma val_abs x r : val x r -> val (SFabs x) (Rabs r).
  Proof.
    intros H. apply val_B in H as (b & -> & Hf & <-). replace (SFabs (B2SF b)) with (B2SF (Babs b)) by (destruct b; reflexivity).
    rewrite <- B2R_Babs. apply B_val. rewrite is_finite_Babs. exact Hf.
  Qed.
  Lemma big : 1024 <= BIG.
  Proof. change 1024 with (bpow radix2 10). apply bpow_le. red in Hm. lia. Qed.
  Lemma val_valid x r : val x r -> valid x.
  Proof. intros H. apply H. Qed.
  Lemma norm_fwd e r : vval e r -> len r <= 8 -> exists n, val (@vnorm _ FS e) n.
  Proof.
    intros (Hx & Hy & Hz) Hl. destruct (comp_len r) as (Cx & Cy & Cz). pose proof (mu_small prec emax Hm Hprec) as [M0 M1]. pose proof big as B.
    assert (Ht : forall x y, val x y -> Rabs y <= len r -> T prec emax 1 (8 * 8 + mu) (SFmul prec emax x x) (y * y)).
    { intros x y H H'. apply (T_mul prec emax Hp Hm Hprec 0 0); try lia; try lra; apply T_val; try assumption; lra. }
    pose proof (T_add prec emax Hp Hm Hprec 1 (8 * 8 + mu) (8 * 8 + mu) _ _ _ _ ltac:(lia) ltac:(lra) (Ht _ _ Hx Cx) (Ht _ _ Hy Cy)) as T1.
    assert (T2 : T prec emax 2 (8 * 8 + mu) (SFmul prec emax (vz e) (vz e)) (vz r * vz r)) by (eapply T_weak; [exact Hprec|apply Ht; eassumption|lia|lra]).
    pose proof (T_add prec emax Hp Hm Hprec 2 (8 * 8 + mu + (8 * 8 + mu)) (8 * 8 + mu) _ _ _ _ ltac:(lia) ltac:(lra) T1 T2) as T3. apply T_err in T3 as (s & Hs & _).
    eexists. apply sqrt_fwd; try assumption; [exact Hs|].
    apply val_valid in Hx, Hy, Hz. assert (W : forall x, valid x -> valid (SFmul prec emax x x)) by (intros; apply mul_valid; assumption).
    apply add_back in Hs as (q & p3 & Hq & H3 & ->); auto using add_valid.
    apply add_back in Hq as (p1 & p2 & H1 & H2 & ->); auto.
    assert (P : forall x p, valid x -> val (SFmul prec emax x x) p -> 0 <= p).
    { intros x p V H. apply mul_back in H as (a & b & Ha & Hb & ->); try assumption. pose proof (val_fun _ _ _ _ _ Ha Hb) as <-. apply rnd_pos; [exact Hp|apply Rle_0_sqr]. }
    apply P in H1, H2, H3; try assumption. apply rnd_pos; [exact Hp|]. pose proof (rnd_pos prec emax Hp (p1 + p2) ltac:(lra)). lra.
  Qed.
  Lemma faint_f : faint prec emax * u = f.
  Proof.
    pose proof (u_small prec Hprec) as [U0 U1]. pose proof (mu_small prec emax Hm Hprec) as [M0 M1]. unfold faint.
    rewrite <- (sqrt_square u) at 2 by lra. rewrite <- sqrt_mult; [|apply Rmult_le_pos; [lra|left; apply Rinv_0_lt_compat; lra]|apply Rmult_le_pos; lra].
    f_equal. field. lra.
  Qed.

  (** the computed rotation vector, for a quaternion whose vector part is not faint *)
  Lemma scaled_axis_back q D tol tau d : qval q D -> qlen D <= 6 -> val tol tau -> 0 <= d -> atan2_within prec emax d L ->
    SFltb (@vnorm _ FS (@qscaled_axis _ FS q)) tol = true -> 4 * f <= u * len (qvec D) ->
    exists N r p, 0 < r /\ 0 <= p <= PI / 2 /\ N = r * sin p /\ Rabs (qw D) = r * cos p /\
      Rabs (N - len (qvec D)) <= 24 * u + 4 * f /\ 2 * p <= (1 + 16 * u) * (tau + 6 * f) + 2 * d.
  Proof.
    intros (Qi & Qj & Qk & Qw) HD Ht Hd Hat H Hbig.
    pose proof (u_small prec Hprec) as [U0 U1]. pose proof (mu_small prec emax Hm Hprec) as [M0 M1]. destruct (f_facts prec emax Hm Hprec) as (F0 & FF & Ff).
    set (v := if @sge _ FS (qw q) (@szero _ FS) then qvec q else @vneg _ FS (qvec q)).
    assert (Hv : exists V, vval v V /\ len V = len (qvec D)).
    { unfold v. destruct (sge _ _); [exists (qvec D); split; [repeat split; apply Qi || apply Qj || apply Qk|reflexivity]|].
      exists (V3 (- qi D) (- qj D) (- qk D)). split; [split; [|split]; apply val_opp; assumption|]. unfold len, inner, qvec. cbn. f_equal. ring. }
    destruct Hv as (V & HV & EV). pose proof (qvec_len D) as HvD. rewrite <- EV in *.
    assert (L0 : 0 < len V) by (apply Rmult_lt_reg_l with u; lra).
    destruct (norm_fwd v V HV ltac:(lra)) as (N & HN).
    pose proof HV as (Vx & Vy & Vz). pose proof (val_valid _ _ Vx) as Wx. pose proof (val_valid _ _ Vy) as Wy. pose proof (val_valid _ _ Vz) as Wz.
    destruct (norm_back prec emax Hp Hm L Hprec v N Wx Wy Wz HN) as (V' & HV' & N0 & Nlo & Nhi).
    assert (V' = V) as -> by (destruct V', V, HV' as (A & B & C), HV as (A' & B' & C'); cbn in *; f_equal; eapply val_fun; eassumption).
    assert (Eqv : N = N /\ val (@vnorm _ FS (qvec q)) N).
    { split; [reflexivity|]. unfold v in HN. destruct (sge _ _); [exact HN|]. revert HN. unfold vnorm, vdot, vneg. cbn [vx vy vz sneg smul sadd ssqrt FScalar].
      assert (E : forall x, SFmul prec emax (SFopp x) (SFopp x) = SFmul prec emax x x) by (intros [[]|[]| |[] ? ?]; reflexivity). rewrite !E. exact (fun H => H). }
    destruct Eqv as [_ HN'].
    (* N is positive *)
    assert (P3 : 1 - 3 * u <= (1 - u) ^ 3 /\ (1 + u) ^ 3 <= 1 + 3 * u + u / 8).
    { assert (0 <= u * u) by (apply Rmult_le_pos; lra). assert (u * u <= / 2048 * u) by (apply Rmult_le_compat_r; lra).
      assert (0 <= u * u * u) by (apply Rmult_le_pos; lra). assert (u * u * u <= / 2048 * (/ 2048 * u)) by (apply Rle_trans with (/ 2048 * u * u); [apply Rmult_le_compat_r; lra|lra]).
      replace ((1 - u) ^ 3) with (1 - 3 * u + 3 * (u * u) - u * u * u) by ring. replace ((1 + u) ^ 3) with (1 + 3 * u + 3 * (u * u) + u * u * u) by ring.
      assert (u * (u * u) <= 1 * (u * u)) by (apply Rmult_le_compat_r; lra). split; lra. }
    destruct P3 as [P3 P3'].
    assert (Q1 : (1 - 3 * u) * len V <= N + 3 * f) by (eapply Rle_trans; [apply Rmult_le_compat_r; [lra|exact P3]|exact Nlo]).
    assert (Q2 : N <= (1 + 3 * u + u / 8) * len V + 4 * f) by (eapply Rle_trans; [exact Nhi|]; apply Rplus_le_compat_r, Rmult_le_compat_r; lra).
    assert (UV : u * len V <= / 2048 * len V) by (apply Rmult_le_compat_r; lra).
    assert (NP : 0 < N) by lra.
    (* so there is an axis *)
    unfold qscaled_axis, qaxis in H. fold v in H. cbn [sgt] in H.
    assert (Hgt : @sgt _ FS (@vnorm _ FS v) (@szero _ FS) = true) by (apply (proj2 (gt_fwd prec emax _ _ _ _ (val_zero prec emax L) HN)); exact NP).
    rewrite Hgt in H. set (A := @qangle _ FS q) in *.
    destruct (polar N (Rabs (qw D)) NP (Rabs_pos _)) as (r & p & R0 & Hpp & EN & EX).
    destruct (Hat (@sabs _ FS (qw q)) (@vnorm _ FS (qvec q)) r p R0 Hpp) as (at2 & Hat2 & Eat2).
    { rewrite <- EN. exact HN'. }
    { rewrite <- EX. apply val_abs, Qw. }
    assert (WA : valid A) by (apply mul_valid; try assumption; [apply Hat2|apply val_two; assumption]).
    assert (WD : forall x, valid x -> valid (SFdiv prec emax x (@vnorm _ FS v))) by (intros x Hx; apply div_valid; try assumption; apply HN).
    assert (WM : forall x, valid x -> valid (SFmul prec emax (SFdiv prec emax x (@vnorm _ FS v)) A)) by (intros x Hx; apply mul_valid; auto).
    apply (lt_back prec emax) with (c := tau) in H as [(n & Hn & Hlt)|H]; try assumption;
      [|exfalso; exact (norm_not_neg _ _ _ _ H)|apply vnorm_valid; try assumption; apply WM; assumption].
    apply norm_back in Hn as (S & (Sx & Sy & Sz) & n0 & Slo & _); try assumption; try (apply WM; assumption). clear Hgt.
    (* one component *)
    assert (Hcomp : forall x y s, val x y -> val (SFmul prec emax (SFdiv prec emax x (@vnorm _ FS v)) A) s -> exists al, val A al /\
       (1 - u) * ((1 - u) * (Rabs y / N)) * Rabs al <= Rabs s + (u * mu + u * mu * Rabs al)).
    { intros x y s Hx Hs. apply mul_back in Hs as (ax & al & Hax & Hal & ->); try assumption; [|apply WD; eapply val_valid, Hx].
      apply (div_back prec emax Hp Hm) with (b := N) in Hax as (y' & Hy' & ->); [|eapply val_valid, Hx|exact HN|lra].
      pose proof (val_fun _ _ _ _ _ Hx Hy') as <-. exists al. split; [exact Hal|].
      pose proof (rnd_err prec emax Hp (y / N)) as E1. pose proof (rnd_err prec emax Hp (rnd (y / N) * al)) as E2. set (ax := rnd (y / N)) in *.
      assert (Ey : Rabs (y / N) = Rabs y / N) by (unfold Rdiv; rewrite Rabs_mult, (Rabs_pos_eq (/ N)); [reflexivity|left; apply Rinv_0_lt_compat, NP]).
      pose proof (Rabs_triang_inv (y / N) (y / N - ax)) as T1. replace (y / N - (y / N - ax)) with ax in T1 by ring. rewrite (Rabs_minus_sym (y / N) ax) in T1.
      pose proof (Rabs_triang_inv (ax * al) (ax * al - rnd (ax * al))) as T2. replace (ax * al - (ax * al - rnd (ax * al))) with (rnd (ax * al)) in T2 by ring.
      rewrite (Rabs_minus_sym (ax * al) (rnd (ax * al))) in T2. rewrite Rabs_mult in T2, E2. rewrite Ey in *.
      assert (K1 : (1 - u) * (Rabs y / N) - u * mu <= Rabs ax) by lra.
      pose proof (Rabs_pos al) as A0.
      assert (K2 : (1 - u) * (((1 - u) * (Rabs y / N) - u * mu) * Rabs al) <= (1 - u) * (Rabs ax * Rabs al)) by (apply Rmult_le_compat_l; [lra|apply Rmult_le_compat_r; lra]).
      assert (K3 : 0 <= u * (u * mu * Rabs al)) by (apply Rmult_le_pos; [lra|apply Rmult_le_pos; [apply Rmult_le_pos; lra|lra]]). lra. }
    destruct (Hcomp _ _ _ Vx Sx) as (al & Hal & Cx). destruct (Hcomp _ _ _ Vy Sy) as (al2 & Hal2 & Cy). destruct (Hcomp _ _ _ Vz Sz) as (al3 & Hal3 & Cz).
    pose proof (val_fun _ _ _ _ _ Hal Hal2) as <-. pose proof (val_fun _ _ _ _ _ Hal Hal3) as <-. clear Hcomp Hal2 Hal3.
    pose proof (Rabs_pos al) as A0. set (B := Rabs al) in *.
    set (k := (1 - u) * (1 - u) * B / N).
    assert (IN : 0 < / N) by (apply Rinv_0_lt_compat, NP).
    assert (K0 : 0 <= k) by (unfold k; apply Rmult_le_pos; [apply Rmult_le_pos; [apply Rmult_le_pos; lra|lra]|lra]).
    assert (UM : 0 <= u * mu) by (apply Rmult_le_pos; lra).
    assert (HS : k * len V <= len S + 2 * (u * mu + u * mu * B)).
    { apply len_ge; [exact K0|assert (0 <= u * mu * B) by (apply Rmult_le_pos; lra); lra|..]; unfold k; unfold Rdiv in *; lra. }
    (* |V| / N is close to one *)
    assert (HVN : (1 - 5 * u) <= len V / N).
    { apply Rmult_le_reg_r with N; [exact NP|]. unfold Rdiv. rewrite Rmult_assoc, Rinv_l, Rmult_1_r by lra.
      apply Rle_trans with ((1 - 5 * u) * ((1 + 3 * u + u / 8) * len V + u * len V)); [apply Rmult_le_compat_l; lra|].
      replace ((1 - 5 * u) * ((1 + 3 * u + u / 8) * len V + u * len V)) with (len V * ((1 - 5 * u) * (1 + 33 / 8 * u))) by field.
      rewrite <- (Rmult_1_r (len V)) at 2. apply Rmult_le_compat_l; [lra|]. assert (0 <= u * u) by (apply Rmult_le_pos; lra). lra. }
    assert (UB : u * B <= / 2048 * B) by (apply Rmult_le_compat_r; lra). assert (0 <= u * B) by (apply Rmult_le_pos; lra).
    assert (HB1 : (1 - 7 * u) * B <= len S + 2 * (u * mu + u * mu * B)).
    { eapply Rle_trans; [|exact HS]. replace (k * len V) with ((1 - u) * (1 - u) * B * (len V / N)) by (unfold k; field; lra).
      apply Rle_trans with ((1 - u) * (1 - u) * B * (1 - 5 * u)); [|apply Rmult_le_compat_l; [apply Rmult_le_pos; [apply Rmult_le_pos; lra|lra]|lra]].
      replace ((1 - u) * (1 - u) * B * (1 - 5 * u)) with ((1 - 7 * u) * B + (u * u) * B * (11 - 5 * u)) by ring.
      assert (0 <= (u * u) * B * (11 - 5 * u)) by (apply Rmult_le_pos; [apply Rmult_le_pos; [apply Rmult_le_pos; lra|lra]|lra]). lra. }
    assert (UMB : u * mu * B <= / 1024 * (u * B)) by (replace (u * mu * B) with (mu * (u * B)) by ring; apply Rmult_le_compat_r; lra).
    assert (HB2 : (1 - 8 * u) * B <= len S + 2 * (f * f)) by (rewrite FF; lra).
    assert (HB3 : (1 - 11 * u) * B <= tau + 5 * f).
    { assert (Q3 : (1 - u) ^ 3 * ((1 - 8 * u) * B) <= (1 - u) ^ 3 * (len S + 2 * (f * f))) by (apply Rmult_le_compat_l; lra).
      assert (Q4 : (1 - u) ^ 3 * (2 * (f * f)) <= 1 * (2 * (f * f))).
      { apply Rmult_le_compat_r; [lra|]. rewrite <- (pow1 3). apply pow_incr. lra. }
      assert (Q5 : (1 - 3 * u) * ((1 - 8 * u) * B) <= (1 - u) ^ 3 * ((1 - 8 * u) * B)) by (apply Rmult_le_compat_r; [apply Rmult_le_pos; lra|exact P3]).
      assert (0 <= u * (u * B)) by (apply Rmult_le_pos; lra). lra. }
    (* the angle is twice the arc tangent *)
    apply mul_back in Hal as (a2 & two & Ha2 & Htwo & Eal); try assumption; [|apply Hat2|apply val_two; assumption].
    pose proof (val_fun _ _ _ _ _ Hat2 Ha2) as <-. pose proof (val_fun _ _ _ _ _ Htwo (val_two prec emax Hp Hm L Hprec)) as ->.
    assert (HB4 : (1 - u) * (2 * at2) <= B + f * f).
    { unfold B. rewrite Eal. pose proof (rnd_err prec emax Hp (at2 * 2)) as E1. pose proof (Rabs_triang_inv (at2 * 2) (at2 * 2 - rnd (at2 * 2))) as T1.
      replace (at2 * 2 - (at2 * 2 - rnd (at2 * 2))) with (rnd (at2 * 2)) in T1 by ring. rewrite (Rabs_minus_sym (at2 * 2)) in T1. rewrite FF.
      pose proof (Rle_abs (at2 * 2)) as T2. assert ((1 - u) * (at2 * 2) <= (1 - u) * Rabs (at2 * 2)) by (apply Rmult_le_compat_l; lra). lra. }
    exists N, r, p. split; [exact R0|]. split; [exact Hpp|]. split; [exact EN|]. split; [exact EX|]. split.
    - apply Rabs_le. assert (u * len V <= u * 6) by (apply Rmult_le_compat_l; lra). lra.
    - apply Rabs_le_inv in Eat2. assert (Q6 : (1 - 12 * u) * (2 * at2) <= tau + 6 * f).
      { destruct (Rle_or_lt at2 0) as [Hn|Hp2]; [assert ((1 - 12 * u) * (2 * at2) <= 0) by (rewrite <- (Rmult_0_r (1 - 12 * u)); apply Rmult_le_compat_l; lra); assert (0 <= (1 - 11 * u) * B) by (apply Rmult_le_pos; lra); lra|].
        assert ((1 - 11 * u) * ((1 - u) * (2 * at2)) <= (1 - 11 * u) * (B + f * f)) by (apply Rmult_le_compat_l; lra).
        assert ((1 - 11 * u) * (f * f) <= 1 * (f * f)) by (apply Rmult_le_compat_r; lra). assert (0 <= u * (u * at2)) by (apply Rmult_le_pos; [lra|apply Rmult_le_pos; lra]). lra. }
      assert (T0 : 0 <= tau + 6 * f) by lra.
      assert (Q7 : 2 * at2 <= (1 + 16 * u) * (tau + 6 * f)).
      { destruct (Rle_or_lt at2 0) as [Hn|Hp2]; [apply Rle_trans with 0; [lra|apply Rmult_le_pos; lra]|].
        apply Rle_trans with ((1 + 16 * u) * ((1 - 12 * u) * (2 * at2))); [|apply Rmult_le_compat_l; lra].
        assert (u * (u * at2) <= / 2048 * (u * at2)) by (apply Rmult_le_compat_r; [apply Rmult_le_pos|]; lra). assert (0 <= u * at2) by (apply Rmult_le_pos; lra). lra. }
      lra.
  Qed.

  Lemma shift_sq x y k E d : 0 <= E -> x * x + y * y <= E * E -> Rabs d <= k -> (x + d) * (x + d) + y * y <= (E + k) * (E + k).
  Proof.
    intros HE H Hd. apply Rabs_le_inv in Hd. assert (Hx : - E <= x <= E).
    { pose proof (Rle_0_sqr y) as Y. unfold Rsqr in Y. split; nra. }
    assert (d * d <= k * k) by nra. assert (x * d <= E * k) by nra. lra.
  Qed.
  (** a rotation error that passes the comparison belongs to a small angle *)
  Lemma rotation_back (tg x : iso spec_float) tq rq p w a e d tol tau :
    qval (rt tg) tq -> qval (rt x) rq -> unit_quat p -> unit_quat w -> qdist tq p <= a -> qdist rq w <= e -> a <= 1 -> e <= 1 ->
    val tol tau -> 0 <= tau -> 0 <= d -> atan2_within prec emax d L ->
    SFltb (@vnorm _ FS (@qscaled_axis _ FS (@qmul _ FS (rt tg) (@qconj _ FS (rt x))))) tol = true ->
    angle_between p w <= (1 + 16 * u) * tau + 2 * d + 8 * a + 4 * e + 240 * u + 17 * faint prec emax.
  Proof.
    intros Htq Hrq Up Uw Da De A1 E1 Ht T0 Hd Hat H.
    pose proof (u_small prec Hprec) as [U0 U1]. pose proof (mu_small prec emax Hm Hprec) as [M0 M1]. destruct (f_facts prec emax Hm Hprec) as (F0 & FF & Ff).
    pose proof faint_f as FN. set (fn := faint prec emax) in *. pose proof big as B.
    assert (N0 : 0 < fn) by (destruct (Rlt_or_le 0 fn) as [|Hn]; [assumption|]; assert (fn * u <= 0 * u) by (apply Rmult_le_compat_r; lra); lra).
    assert (FfN : f <= / 2048 * fn) by (rewrite <- FN, Rmult_comm; apply Rmult_le_compat_r; lra).
    assert (Hcq : qval (@qconj _ FS (rt x)) (qconj rq)) by (destruct Hrq as (C1 & C2 & C3 & C4); split; [|split; [|split]]; [exact (val_opp _ _ C1)|exact (val_opp _ _ C2)|exact (val_opp _ _ C3)|exact C4]).
    assert (Uc : unit_quat (qconj w)) by (revert Uw; unfold unit_quat, qconj; cbn; intros <-; ring).
    assert (Dc : qdist (qconj rq) (qconj w) = qdist rq w) by (unfold qdist, qconj; cbn; f_equal; ring).
    pose proof (qlen_near tq p a Up Da) as Lt. pose proof (qlen_near (qconj rq) (qconj w) e Uc ltac:(rewrite Dc; exact De)) as Lr.
    assert (a0 : 0 <= a) by (eapply Rle_trans; [apply sqrt_pos|exact Da]). assert (e0 : 0 <= e) by (eapply Rle_trans; [apply sqrt_pos|exact De]).
    destruct (qmul_T prec emax Hp Hm L Hprec _ _ _ _ 2 2 Htq Hcq ltac:(lra) ltac:(lra) ltac:(lra)) as (D & HD & ED).
    assert (ED' : qdist D (qmul tq (qconj rq)) <= 34 * u).
    { eapply Rle_trans; [exact ED|]. assert (0 <= u * u) by (apply Rmult_le_pos; lra). assert (u * u <= / 2048 * u) by (apply Rmult_le_compat_r; lra).
      assert (u * (u * u) <= / 2048 * (u * u)) by (apply Rmult_le_compat_r; lra). assert (0 <= u * (u * u)) by (apply Rmult_le_pos; lra).
      assert (u * (u * (u * u)) <= / 2048 * (u * (u * u))) by (apply Rmult_le_compat_r; lra).
      assert (P : (1 + u) ^ 4 - 1 <= 4 * u + / 100 * u) by (replace ((1 + u) ^ 4 - 1) with (4 * u + 6 * (u * u) + 4 * (u * (u * u)) + u * (u * (u * u))) by ring; lra).
      assert (((1 + u) ^ 4 - 1) * (2 * 2 + 4 * mu) <= (4 * u + / 100 * u) * (2 * 2 + 4 * mu)) by (apply Rmult_le_compat_r; lra).
      assert ((4 * u + / 100 * u) * (2 * 2 + 4 * mu) <= (4 * u + / 100 * u) * (4 + 4 / 1024)) by (apply Rmult_le_compat_l; lra). lra. }
    set (P := qmul p (qconj w)).
    assert (EP : qdist D P <= 2 * a + e + 34 * u).
    { pose proof (qdist_tri D (qmul tq (qconj rq)) P) as T1. pose proof (qmul_diff tq (qconj rq) p (qconj w)) as T2. fold P in T2. rewrite Dc, (qlen_unit p Up) in T2.
      assert (qdist tq p * qlen (qconj rq) <= a * 2) by (apply Rmult_le_compat; [apply sqrt_pos|apply n4_pos|exact Da|lra]). lra. }
    set (E := 2 * a + e + 34 * u) in *. assert (E0 : 0 <= E) by (unfold E; lra).
    destruct (angle_facts p w Up Uw) as (b & -> & Hb & Cb & Sb). fold P in Cb, Sb.
    assert (UP : qlen P = 1) by (unfold P; rewrite qlen_mul, (qlen_unit p Up), (qlen_unit _ Uc); ring).
    assert (HL : qlen D <= 6).
    { assert (unit_quat P) as UP' by (unfold unit_quat; pose proof (n4_sqr (qi P) (qj P) (qk P) (qw P)) as Q; change (n4 (qi P) (qj P) (qk P) (qw P)) with (qlen P) in Q; rewrite UP in Q; lra).
      pose proof (qlen_near D P E UP' EP). unfold E in *. lra. }
    pose proof (parts_error D P) as PE. rewrite <- Cb, <- Sb in PE.
    assert (PE' : qdist D P * qdist D P <= E * E) by (apply Rmult_le_compat; try apply sqrt_pos; exact EP).
    destruct (Rle_or_lt (4 * f) (u * len (qvec D))) as [Hbig|Hsmall].
    - destruct (scaled_axis_back _ D tol tau d HD HL Ht Hd Hat H Hbig) as (N & r & ph & R0 & Hph & EN & EX & NV & Hang).
      assert (Q : (sin b - N) * (sin b - N) + (cos b - Rabs (qw D)) * (cos b - Rabs (qw D)) <= (E + (24 * u + 4 * f)) * (E + (24 * u + 4 * f))).
      { replace (sin b - N) with (sin b - len (qvec D) + (len (qvec D) - N)) by ring. apply shift_sq; [exact E0|lra|]. rewrite Rabs_minus_sym. exact NV. }
      pose proof (angle_error b N (Rabs (qw D)) r ph (E + (24 * u + 4 * f)) Hb Hph ltac:(lra) EN EX Q) as Hf.
      assert (u * f <= / 2048 * f) by (apply Rmult_le_compat_r; lra). unfold E in Hf. lra.
    - assert (Lv : len (qvec D) <= 4 * fn) by (apply Rmult_le_reg_l with u; [exact U0|]; rewrite <- FN in Hsmall; lra).
      assert (S : sin b <= len (qvec D) + E).
      { assert (QQ : (sin b - len (qvec D)) * (sin b - len (qvec D)) <= E * E) by (pose proof (Rle_0_sqr (cos b - Rabs (qw D))) as Z; unfold Rsqr in Z; lra).
        destruct (Rle_or_lt (sin b - len (qvec D)) E); [lra|]. assert (E * E < (sin b - len (qvec D)) * (sin b - len (qvec D))) by (apply Rmult_le_0_lt_compat; lra). lra. }
      pose proof (jordan b Hb) as J. assert (0 <= u * tau) by (apply Rmult_le_pos; lra). unfold E in S. lra.
  Qed.
End Angle.

(** ** a libm exists whose sine, cosine and arc tangent are right *)
Section Libm2.
  Context (prec emax : Z) (Hp : Prec_gt_0 prec) (Hm : Prec_lt_emax prec emax).
  Definition to_nearest (v : R) : spec_float := SpecFloat.binary_normalize prec emax (ZnearestE (v * bpow radix2 prec)) (- prec) false.
  Definition rounded_atan2 (y x : spec_float) : spec_float :=
    match sf_value y, sf_value x with
    | Some (Fin b), Some (Fin a) => to_nearest (acos (a / R_sqrt.sqrt (a * a + b * b)))
    | _, _ => S754_nan
    end.
  Definition better_libm : libm := {| lm_sin := rounded prec emax sin; lm_cos := rounded prec emax cos; lm_atan2 := rounded_atan2 |}.
  Lemma better_libm_ok : (11 <= prec)%Z -> libm_within prec emax (2 * unit_roundoff prec) better_libm.
  Proof. intros Hprec. exact (good_libm_ok prec emax Hp Hm Hprec). Qed.
  Lemma to_nearest_ok v : (11 <= prec)%Z -> 0 <= v <= 2 -> exists s, val prec emax (to_nearest v) s /\ Rabs (s - v) <= 3 * unit_roundoff prec.
  Proof.
    intros Hprec Hv. unfold to_nearest. set (m := ZnearestE (v * bpow radix2 prec)). set (y := F2R (Float radix2 m (- prec))).
    pose proof (u_small prec Hprec) as [U0 U1]. pose proof (mu_small prec emax Hm Hprec) as [M0 M1].
    assert (Euv : bpow radix2 prec * unit_roundoff prec = 1) by (unfold unit_roundoff; rewrite <- bpow_plus, Z.add_opp_diag_r; reflexivity).
    assert (Ey : Rabs (y - v) <= / 2 * unit_roundoff prec).
    { unfold y, F2R. cbn [Fnum Fexp]. fold (unit_roundoff prec).
      replace (IZR m * unit_roundoff prec - v) with (- ((v * bpow radix2 prec - IZR m) * unit_roundoff prec)).
      - rewrite Rabs_Ropp, Rabs_mult, (Rabs_pos_eq (unit_roundoff prec)) by lra. apply Rmult_le_compat_r; [lra|].
        exact (Znearest_half (fun z => negb (Z.even z)) (v * bpow radix2 prec)).
      - rewrite Ropp_mult_distr_l, Ropp_minus_distr, Rmult_minus_distr_r, Rmult_assoc, Euv. ring. }
    assert (Hy : Rabs y <= 2 + / 2048) by (apply Rabs_le; apply Rabs_le_inv in Ey; lra).
    pose proof (binary_normalize_correct prec emax Hp Hm mode_NE m (- prec) false) as HC. change (round_mode mode_NE) with ZnearestE in HC.
    cbv zeta in HC. fold y in HC. rewrite Rlt_bool_true in HC.
    2:{ apply rnd_small; try assumption. apply Rle_trans with 4; [lra|]. red in Hm. change 4 with (bpow radix2 2). apply bpow_le. lia. }
    destruct HC as (H1 & H2 & _). eexists. split; [apply val_B; eexists; split; [apply FloatSub.normalize_equiv|]; split; [exact H2|reflexivity]|].
    rewrite H1. pose proof (rnd_err prec emax Hp y) as He. set (z := round radix2 (SpecFloat.fexp prec emax) ZnearestE y) in *.
    replace (z - v) with ((z - y) + (y - v)) by ring. eapply Rle_trans; [apply Rabs_triang|].
    assert (unit_roundoff prec * Rabs y <= unit_roundoff prec * (2 + / 2048)) by (apply Rmult_le_compat_l; lra).
    assert (unit_roundoff prec * tiny emax <= unit_roundoff prec * / 1024) by (apply Rmult_le_compat_l; lra). lra.
  Qed.
  Lemma better_atan2_ok : (11 <= prec)%Z -> atan2_within prec emax (3 * unit_roundoff prec) better_libm.
  Proof.
    intros Hprec x y r p R0 Hpp [_ Hy] [_ Hx]. cbn [lm_atan2 better_libm]. unfold rounded_atan2. rewrite Hx, Hy.
    replace (r * cos p / R_sqrt.sqrt (r * cos p * (r * cos p) + r * sin p * (r * sin p))) with (cos p).
    - pose proof PI_4. rewrite acos_cos by (pose proof PI_RGT_0; lra). apply to_nearest_ok; [exact Hprec|lra].
    - replace (r * cos p * (r * cos p) + r * sin p * (r * sin p)) with (r * r).
      + rewrite sqrt_square by lra. field. lra.
      + pose proof (sin2_cos2 p) as E. unfold Rsqr in E. replace (r * r) with (r * r * 1) at 1 by ring. rewrite <- E. ring.
  Qed.
End Libm2.
