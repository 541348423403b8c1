(** * The rotation vector computed in floating point *)
From Coq Require Import Reals ZArith Bool Lra Lia Psatz Floats.SpecFloat.
From Flocq Require Import Core IEEE754.BinarySingleNaN.
From Verif Require Import Scalar ScalarR ScalarF Geometry RangeProofs SpecValues FloatSub SpecFloatErr FloatErr FloatBack SpecGeom RGeom PoseDiff SpecReach SpecAcc AccProofs AccProofs2
  AccCom IkM SpecIk SpecSolved SolvedProofs SolvedProofs2 ConvRot.
From Verif Require ReachProofs.
Local Open Scope R_scope.

(** ** over the reals *)
Definition facing_vec (P : quat R) : vec3 R := if @sge _ RScalar (qw P) 0 then qvec P else @vneg _ RScalar (qvec P).
Lemma facing_vec_len P : len (facing_vec P) = len (qvec P).
Proof. unfold facing_vec. destruct (sge _ _); [reflexivity|]. apply len_neg. Qed.
Lemma scaled_axis_form P : unit_quat P -> 
  (len (qvec P) = 0 -> qscaled_axis P = V3 0 0 0) /\ (0 < len (qvec P) -> qscaled_axis P = times (ang P / len (qvec P)) (facing_vec P)).
Proof.
  intros Hq. pose proof (facing_vec_len P) as Hv.
  assert (E1 : Rabs (qw P) * Rabs (qw P) + len (qvec P) * len (qvec P) = 1).
  { rewrite <- Rabs_mult, Rabs_pos_eq by apply Rle_0_sqr. rewrite len_sqr. destruct P; unfold unit_quat in Hq; unfold inner, qvec; cbn in *. lra. }
  split.
  - intros H0. destruct (scaled_axis_cases P Hq) as [[_ E]|(a & th & Ha & [Ht _] & E & _)]; [exact E|]. exfalso.
    assert (ang P = th) as A by (unfold ang; rewrite E, ReachProofs.len_times, (ReachProofs.len_unit a Ha), Rabs_pos_eq by lra; ring).
    pose proof (qvec_sin P Hq) as S. rewrite H0, A in S. assert (0 < sin (th / 2)); [|lra]. destruct (ang_range P Hq). apply sin_gt_0; lra.
  - intros H0. destruct (atan2_quadrant _ _ (len_nonneg (qvec P)) (Rabs_pos (qw P)) E1) as (_ & _ & Hb).
    set (th := Ratan2 (len (qvec P)) (Rabs (qw P))) in *.
    assert (E : qscaled_axis P = times (2 * th / len (qvec P)) (facing_vec P)).
    { unfold qscaled_axis, qaxis. change (@szero R RScalar) with 0. fold (facing_vec P). rewrite vnorm_len, Hv.
      replace (sgt (len (qvec P)) 0) with true.
      2:{ unfold sgt; simpl. unfold Rltb. destruct (Rlt_dec 0 (len (qvec P))); [auto|lra]. }
      unfold qangle. change (@vnorm R RScalar) with len. rewrite stwo_R. change (satan2 (len (qvec P)) (sabs (qw P))) with th.
      destruct (facing_vec P). unfold vscale, vdivs, times. cbn. f_equal; field; lra. }
    assert (A : ang P = 2 * th).
    { unfold ang. rewrite E, ReachProofs.len_times, Hv, Rabs_pos_eq; [field; lra|]. unfold Rdiv. apply Rmult_le_pos; [lra|left; apply Rinv_0_lt_compat; lra]. }
    rewrite A. exact E.
Qed.
(** two directions *)
Lemma direction_diff v w V W E : 0 < V -> 0 < W -> Rabs v <= V -> Rabs (v - w) <= E -> Rabs (V - W) <= E -> Rabs (v / V - w / W) <= 2 * E / W.
Proof.
  intros HV HW Hv H1 H2. replace (v / V - w / W) with ((v - w) * / W + (v / V) * (W - V) * / W) by (field; lra).
  assert (IW : 0 < / W) by (apply Rinv_0_lt_compat, HW). assert (IV : 0 < / V) by (apply Rinv_0_lt_compat, HV).
  eapply Rle_trans; [apply Rabs_triang|]. rewrite !Rabs_mult, !(Rabs_pos_eq (/ W)) by lra. rewrite (Rabs_minus_sym W V).
  assert (B : Rabs (v / V) <= 1).
  { unfold Rdiv. rewrite Rabs_mult, (Rabs_pos_eq (/ V)) by lra. apply Rmult_le_reg_r with V; [exact HV|]. rewrite Rmult_assoc, Rinv_l by lra. lra. }
  assert (Rabs (v - w) * / W <= E * / W) by (apply Rmult_le_compat_r; lra).
  assert (Rabs (v / V) * Rabs (V - W) * / W <= 1 * E * / W).
  { apply Rmult_le_compat_r; [lra|]. apply Rmult_le_compat; try apply Rabs_pos; assumption. }
  unfold Rdiv. lra.
Qed.
(** the angle of a point near the unit circle *)
Lemma near_angle b p r e : 0 <= b <= PI / 2 -> 0 <= p <= PI / 2 -> 0 <= e -> 0 < r ->
  (sin b - r * sin p) * (sin b - r * sin p) + (cos b - r * cos p) * (cos b - r * cos p) <= e * e -> Rabs (p - b) <= 4 * e.
Proof.
  intros Hb Hp He Hr H. pose proof (ray b p r e Hb Hp He H) as H1. apply Rabs_le. split; [lra|].
  assert (H2 : p <= b + 2 * (2 * e)); [|lra]. apply (ray p b 1 (2 * e)); [exact Hp|exact Hb|lra|].
  pose proof (sin2_cos2 b) as S1. pose proof (sin2_cos2 p) as S2. unfold Rsqr in S1, S2. rewrite !Rmult_1_l.
  set (K := sin b * sin p + cos b * cos p). 
  assert (E1 : 1 - 2 * r * K + r * r <= e * e).
  { replace (1 - 2 * r * K + r * r) with ((sin b * sin b + cos b * cos b) - 2 * r * K + r * r * (sin p * sin p + cos p * cos p)) by (rewrite S1, S2; ring). unfold K. lra. }
  assert (E2 : (sin p - sin b) * (sin p - sin b) + (cos p - cos b) * (cos p - cos b) = 2 - 2 * K) by (unfold K; lra). rewrite E2.
  assert (K1 : K <= 1) by (pose proof (Rle_0_sqr (sin p - sin b)); pose proof (Rle_0_sqr (cos p - cos b)); unfold Rsqr in *; lra).
  pose proof PI_RGT_0 as PP. assert (K0 : 0 <= K).
  { unfold K. pose proof (sin_ge_0 b ltac:(lra) ltac:(lra)). pose proof (sin_ge_0 p ltac:(lra) ltac:(lra)).
    pose proof (cos_ge_0 b ltac:(lra) ltac:(lra)). pose proof (cos_ge_0 p ltac:(lra) ltac:(lra)).
    assert (0 <= sin b * sin p) by (apply Rmult_le_pos; assumption). assert (0 <= cos b * cos p) by (apply Rmult_le_pos; assumption). lra. }
  pose proof (Rle_0_sqr (r - K)) as Q. unfold Rsqr in Q.
  assert (E3 : (1 - K) * (1 + K) <= e * e) by lra. assert ((1 - K) * 1 <= (1 - K) * (1 + K)) by (apply Rmult_le_compat_l; lra).
  assert (0 <= (1 - K) * (1 + K)) by (apply Rmult_le_pos; lra). lra.
Qed.
Lemma facing_diff D P E : qdist D P <= E -> E < Rabs (qw P) -> 
  dist (facing_vec D) (facing_vec P) <= E /\ Rabs (len (facing_vec D) - len (facing_vec P)) <= E.
Proof.
  intros HD Hw. assert (Hwd : Rabs (qw D - qw P) <= E).
  { eapply Rle_trans; [|exact HD]. rewrite qdist_len. unfold qlen. exact (proj2 (proj2 (proj2 (comp_len4 _ _ _ _)))). }
  apply Rabs_le_inv in Hwd.
  assert (Hs : @sge _ RScalar (qw D) 0 = @sge _ RScalar (qw P) 0).
  { unfold sge. cbn [sle RScalar]. unfold Rleb. destruct (Rle_dec 0 (qw D)), (Rle_dec 0 (qw P)); try reflexivity; exfalso.
    - rewrite Rabs_left in Hw by lra. lra.
    - rewrite Rabs_pos_eq in Hw by lra. lra. }
  assert (H1 : dist (facing_vec D) (facing_vec P) <= E).
  { eapply Rle_trans; [|exact HD]. assert (dist (facing_vec D) (facing_vec P) = len (minus (qvec D) (qvec P))) as ->.
    { unfold facing_vec. rewrite Hs. destruct (sge (qw P) 0); [apply dist_sym_len|]. rewrite dist_sym_len. unfold len, minus, vneg, inner. cbn. f_equal. ring. }
    rewrite qdist_len. apply (qvec_len (qminus D P)). }
  split; [exact H1|]. pose proof (len_near (facing_vec D) (facing_vec P)) as A. pose proof (len_near (facing_vec P) (facing_vec D)) as B.
  rewrite (dist_sym_len (facing_vec P)), ReachProofs.len_minus_sym, <- dist_sym_len in B. apply Rabs_le. lra.
Qed.

(** ** in floating point *)
Section Fwd.
  Context (prec emax : Z) (Hp : Prec_gt_0 prec) (Hm : Prec_lt_emax prec emax) (L : libm) (Hprec : (11 <= prec)%Z).
  Notation val := (val prec emax).
  Notation vval := (vval prec emax).
  Notation qval := (qval prec emax).
  Notation u := (unit_roundoff prec).
  Notation mu := (tiny emax).
  Notation fx := (SpecFloat.fexp prec emax).
  Notation rnd := (round radix2 fx ZnearestE).
  Notation FS := (FScalar prec emax L).
  Notation f := (R_sqrt.sqrt (u * mu)).
  Notation BIG := (bpow radix2 (emax - 2)).

  Lemma ge_zero x r : val x r -> @sge _ FS x (@szero _ FS) = @sge _ RScalar r 0.
  Proof.
    intros Hx. pose proof (val_zero prec emax L) as H0. unfold sge. cbn [sle FScalar RScalar].
    pose proof (SFleb_value prec emax (@szero _ FS) x (proj1 H0) (proj1 Hx)) as H. rewrite (proj2 H0), (proj2 Hx) in H. cbn [val_le ext_le] in H.
    unfold Rleb. destruct (Rle_dec 0 r) as [Hr|Hr]; [apply H, Hr|]. apply not_true_is_false. intros E. apply Hr, H, E.
  Qed.
  (** a float that is positive is not too small *)
  Lemma positive_big x r : val x r -> 0 < r -> 2 * (u * mu) <= r.
  Proof.
    intros Hx Hr. apply val_format in Hx. apply (FLT_format_generic radix2 (SpecFloat.emin prec emax) prec) in Hx as [[m ex] E1 E2 E3]. cbn [Fnum Fexp] in *.
    rewrite <- half_emin. replace (2 * (/ 2 * bpow radix2 (SpecFloat.emin prec emax))) with (bpow radix2 (SpecFloat.emin prec emax)) by field.
    assert (Hm0 : (0 < m)%Z) by (apply (gt_0_F2R radix2 m ex); unfold F2R in *; cbn [Fnum Fexp] in *; rewrite <- E1; exact Hr).
    rewrite E1. unfold F2R. cbn [Fnum Fexp]. apply Rle_trans with (1 * bpow radix2 ex); [rewrite Rmult_1_l; apply bpow_le, E3|].
    apply Rmult_le_compat_r; [apply bpow_ge_0|]. apply IZR_le. lia.
  Qed.
  Lemma norm_big e n : SpecFloat.valid_binary prec emax (@vdot _ FS e e) = true -> val (@vnorm _ FS e) n -> 0 < n -> f <= n.
  Proof.
    intros Hv H Hn. unfold vnorm in H. cbn [ssqrt FScalar] in H. apply sqrt_back in H as (s & Hs & S0 & E); try assumption.
    pose proof (u_small prec Hprec) as [U0 U1]. pose proof (mu_small prec emax Hm Hprec) as [M0 M1]. destruct (f_facts prec emax Hm Hprec) as (F0 & FF & Ff).
    destruct S0 as [S0|<-]; [|rewrite sqrt_0, round_0 in E by apply valid_rnd_N; lra].
    pose proof (positive_big _ _ Hs S0) as Hb. pose proof (sqrt_sqrt s ltac:(lra)) as Q. pose proof (sqrt_lt_R0 s S0) as Q0. set (q := R_sqrt.sqrt s) in *. clearbody q.
    pose proof (rnd_bounds prec emax Hp q ltac:(lra)) as [R1 _]. rewrite <- E, <- FF in R1. rewrite <- FF in Hb, Ff.
    assert (Qf : 7 / 5 * f <= q). { destruct (Rle_or_lt (7 / 5 * f) q); [assumption|]. assert (q * q < 7 / 5 * f * (7 / 5 * f)) by (apply Rmult_le_0_lt_compat; lra). nra. }
    assert (u * q <= / 2048 * q) by (apply Rmult_le_compat_r; lra).
    assert (f <= / 1024). { destruct (Rle_or_lt f (/ 1024)); [assumption|]. assert (u * mu <= / 2048 * / 1024) by (apply Rmult_le_compat; lra). nra. }
    assert (f * f <= / 1024 * f) by (apply Rmult_le_compat_r; lra). lra.
  Qed.
  Lemma facing_val q D : qval q D -> vval (if @sge _ FS (qw q) (@szero _ FS) then qvec q else @vneg _ FS (qvec q)) (facing_vec D).
  Proof.
    intros (Qi & Qj & Qk & Qw). rewrite (ge_zero _ _ Qw). unfold facing_vec. destruct (@sge _ RScalar (qw D) 0).
    - split; [exact Qi|]. split; [exact Qj|exact Qk].
    - split; [exact (val_opp _ _ _ _ Qi)|]. split; [exact (val_opp _ _ _ _ Qj)|exact (val_opp _ _ _ _ Qk)].
  Qed.
  Lemma norm_facing q : @vnorm _ FS (qvec q) = @vnorm _ FS (if @sge _ FS (qw q) (@szero _ FS) then qvec q else @vneg _ FS (qvec q)).
  Proof.
    destruct (sge _ _); [reflexivity|]. unfold vnorm, vdot, vneg. cbn [vx vy vz sneg smul sadd ssqrt FScalar].
    assert (E : forall x, SFmul prec emax (SFopp x) (SFopp x) = SFmul prec emax x x) by (intros [[]|[]| |[] ? ?]; reflexivity). rewrite !E. reflexivity.
  Qed.
  (** the rotation vector of a float quaternion near a unit quaternion whose angle is not near a half turn *)
  Lemma scaled_axis_fwd q D P d E : qval q D -> unit_quat P -> qdist D P <= E -> E <= / 8 -> / 2 <= Rabs (qw P) -> 0 <= d <= 1 -> atan2_within prec emax d L ->
    exists v, vval (@qscaled_axis _ FS q) v /\ let w := qscaled_axis P in let k := 128 * (E + 16 * u + d + faint prec emax) in
      Rabs (vx v - vx w) <= k /\ Rabs (vy v - vy w) <= k /\ Rabs (vz v - vz w) <= k.
  Proof.
    intros HD HP HE HE1 HW Hd Hat. cbv zeta.
    pose proof (u_small prec Hprec) as [U0 U1]. pose proof (mu_small prec emax Hm Hprec) as [M0 M1]. destruct (f_facts prec emax Hm Hprec) as (F0 & FF & Ff).
    pose proof (faint_f prec emax Hm Hprec) as FN. set (fn := faint prec emax) in *. pose proof (big prec emax Hm Hprec) as BB. pose proof (big_double emax) as B2.
    assert (N0 : 0 < fn) by (destruct (Rlt_or_le 0 fn) as [|Hn]; [assumption|]; assert (fn * u <= 0 * u) by (apply Rmult_le_compat_r; lra); lra).
    assert (FfN : f <= / 2048 * fn) by (rewrite <- FN, Rmult_comm; apply Rmult_le_compat_r; lra).
    assert (UM : 0 < u * mu <= u) by (split; [apply Rmult_lt_0_compat; lra|]; rewrite <- (Rmult_1_r u) at 2; apply Rmult_le_compat_l; lra).
    assert (E0 : 0 <= E) by (eapply Rle_trans; [apply sqrt_pos|exact HE]).
    destruct (facing_diff D P E HE ltac:(lra)) as [Hdv Hdl]. set (V := facing_vec D) in *. set (W := facing_vec P) in *.
    assert (EVD : len V = len (qvec D)) by apply facing_vec_len. assert (EWP : len W = len (qvec P)) by apply facing_vec_len.
    set (b := ang P / 2). destruct (ang_range P HP) as [A0 A1].
    assert (Hb : 0 <= b <= PI / 2) by (unfold b; lra). assert (Sb : sin b = len W) by (rewrite EWP; symmetry; apply qvec_sin, HP).
    assert (Cb : cos b = Rabs (qw P)) by (apply cos_ang, HP). pose proof (jordan b Hb) as J. pose proof PI_4 as P4.
    destruct (scaled_axis_form P HP) as [Z0 Z1]. rewrite <- EWP in Z0, Z1. fold W in Z1. replace (ang P) with (2 * b) in Z1 by (unfold b; field).
    pose proof (len_nonneg V) as V0. pose proof (len_nonneg W) as W0.
    assert (LW : len W <= 1) by (rewrite <- Sb; apply SIN_bound). apply Rabs_le_inv in Hdl.
    set (vf := if @sge _ FS (qw q) (@szero _ FS) then qvec q else @vneg _ FS (qvec q)).
    assert (HV : vval vf V) by exact (facing_val q D HD).
    destruct (norm_fwd prec emax Hp Hm L Hprec vf V HV ltac:(lra)) as (N & HN).
    pose proof HV as (Vx & Vy & Vz). pose proof (val_valid _ _ _ _ Vx) as Wx. pose proof (val_valid _ _ _ _ Vy) as Wy. pose proof (val_valid _ _ _ _ Vz) as Wz.
    destruct (norm_back prec emax Hp Hm L Hprec vf N Wx Wy Wz HN) as (V' & HV' & NN & Nlo & Nhi).
    assert (V' = V) as -> by (destruct V', V, HV' as (X1 & X2 & X3), HV as (Y1 & Y2 & Y3); cbn in *; f_equal; eapply val_fun; eassumption). clear HV'.
    assert (P3 : 1 - 3 * u <= (1 - u) ^ 3 /\ (1 + u) ^ 3 <= 1 + 3 * u + u / 8).
    { assert (0 <= u * u) by (apply Rmult_le_pos; lra). assert (u * u <= / 2048 * u) by (apply Rmult_le_compat_r; lra).
      assert (0 <= u * u * u) by (apply Rmult_le_pos; lra). assert (u * u * u <= / 2048 * (/ 2048 * u)) by (apply Rle_trans with (/ 2048 * u * u); [apply Rmult_le_compat_r; lra|lra]).
      replace ((1 - u) ^ 3) with (1 - 3 * u + 3 * (u * u) - u * u * u) by ring. replace ((1 + u) ^ 3) with (1 + 3 * u + 3 * (u * u) + u * u * u) by ring.
      assert (u * (u * u) <= 1 * (u * u)) by (apply Rmult_le_compat_r; lra). split; lra. }
    destruct P3 as [P3 P3'].
    assert (Q1 : (1 - 3 * u) * len V <= N + 3 * f) by (eapply Rle_trans; [apply Rmult_le_compat_r; [lra|exact P3]|exact Nlo]).
    assert (Q2 : N <= (1 + 3 * u + u / 8) * len V + 4 * f) by (eapply Rle_trans; [exact Nhi|]; apply Rplus_le_compat_r, Rmult_le_compat_r; lra).
    clear P3 P3' Nlo Nhi.
    assert (UV : 0 <= u * len V <= 2 * u) by (split; [apply Rmult_le_pos; lra|]; rewrite Rmult_comm; apply Rmult_le_compat_r; lra).
    assert (UV2 : u * len V <= / 2048 * len V) by (apply Rmult_le_compat_r; lra).
    set (wP := @qscaled_axis R RScalar P) in *. assert (LwP : len wP = 2 * b) by (change (ang P = 2 * b); unfold b; field). clearbody wP.
    unfold qscaled_axis, qaxis. fold vf. destruct NN as [NP|<-].
    2:{ replace (@sgt _ FS (@vnorm _ FS vf) (@szero _ FS)) with false.
        2:{ symmetry. apply not_true_is_false. intros H. apply (gt_fwd prec emax _ _ _ _ (val_zero prec emax L) HN) in H. lra. }
        exists (V3 0 0 0). pose proof (val_zero prec emax L) as VZ. split; [split; [exact VZ|split; exact VZ]|]. cbn [vx vy vz].
        assert (len wP <= 128 * (E + 16 * u + d + fn)) by lra.
        destruct (comp_len (wP)) as (C1 & C2 & C3). rewrite !Rminus_0_l, !Rabs_Ropp. split; [lra|]. split; lra. }
    replace (@sgt _ FS (@vnorm _ FS vf) (@szero _ FS)) with true by (symmetry; apply (proj2 (gt_fwd prec emax _ _ _ _ (val_zero prec emax L) HN)); exact NP).
    assert (NF : f <= N).
    { apply (norm_big vf N); try assumption. unfold vdot. cbn [sadd smul FScalar]. repeat apply add_valid; try apply mul_valid; assumption. }
    assert (V5 : len V <= 5 * N) by lra.
    (* the angle *)
    set (e := E + (7 * u + 4 * f)).
    destruct (polar N (Rabs (qw D)) NP (Rabs_pos _)) as (r & p & R0 & Hpp & EN & EX).
    assert (Hnear : Rabs (p - b) <= 4 * e).
    { apply (near_angle b p r e Hb Hpp ltac:(unfold e; lra) R0). rewrite <- EN, <- EX.
      replace (sin b - N) with (sin b - len (qvec D) + (len (qvec D) - N)) by ring. apply shift_sq; [exact E0| |rewrite <- EVD; apply Rabs_le; lra].
      rewrite Sb, Cb, EWP. eapply Rle_trans; [apply parts_error|]. apply Rmult_le_compat; try apply sqrt_pos; exact HE. }
    destruct HD as (Qi & Qj & Qk & Qw).
    destruct (Hat (@sabs _ FS (qw q)) (@vnorm _ FS (qvec q)) r p R0 Hpp) as (at2 & Hat2 & Eat2).
    { rewrite <- EN, (norm_facing q). exact HN. }
    { rewrite <- EX. apply val_abs, Qw. }
    assert (Bat : Rabs (at2 * 2) <= 6) by (apply Rabs_le_inv in Eat2; apply Rabs_le; lra).
    destruct (mul_ok prec emax Hp Hm _ _ _ _ Hat2 (val_two prec emax Hp Hm L Hprec) ltac:(lra)) as (al & Hal & Eal).
    change (SFmul prec emax (lm_atan2 L (@vnorm _ FS (qvec q)) (@sabs _ FS (qw q))) (@stwo _ FS)) with (@qangle _ FS q) in Hal. set (A := 2 * d + 8 * e + 7 * u).
    assert (U6 : u * Rabs (at2 * 2) <= 6 * u) by (rewrite Rmult_comm; apply Rmult_le_compat_r; lra).
    assert (HA : Rabs (al - 2 * b) <= A).
    { replace (al - 2 * b) with ((al - at2 * 2) + 2 * ((at2 - p) + (p - b))) by ring. eapply Rle_trans; [apply Rabs_triang|]. rewrite Rabs_mult, (Rabs_pos_eq 2) by lra.
      pose proof (Rabs_triang (at2 - p) (p - b)). unfold A. lra. }
    assert (Bal : Rabs al <= 7).
    { replace al with (at2 * 2 + (al - at2 * 2)) by ring. eapply Rle_trans; [apply Rabs_triang|]. lra. }
    assert (A0' : 0 <= A) by (unfold A, e; lra).
    assert (Fu : 4 * f <= u * len V \/ len V <= 4 * fn).
    { destruct (Rle_or_lt (4 * f) (u * len V)) as [|Hs]; [left; assumption|right]. apply Rmult_le_reg_l with u; [exact U0|]. rewrite <- FN in Hs. lra. }
    assert (Al2 : Rabs al <= 2 * b + A).
    { replace al with (2 * b + (al - 2 * b)) by ring. eapply Rle_trans; [apply Rabs_triang|]. rewrite (Rabs_pos_eq (2 * b)) by lra. lra. }
    (* one component *)
    assert (Hcomp : forall x y w c, val x y -> Rabs y <= len V -> Rabs w <= len W -> Rabs (y - w) <= E -> (len W = 0 -> c = 0) -> (0 < len W -> c = 2 * b / len W * w) ->
      exists s, val (SFmul prec emax (SFdiv prec emax x (@vnorm _ FS vf)) (@qangle _ FS q)) s /\ Rabs (s - c) <= 128 * (E + 16 * u + d + fn)).
    { intros x y w c Hx Hy Hw Hyw C0 C1. assert (IN : 0 < / N) by (apply Rinv_0_lt_compat, NP).
      assert (Ey : Rabs (y / N) = Rabs y / N) by (unfold Rdiv; rewrite Rabs_mult, (Rabs_pos_eq (/ N)) by lra; reflexivity).
      assert (B5 : Rabs (y / N) <= 5).
      { rewrite Ey. apply Rmult_le_reg_r with N; [exact NP|]. unfold Rdiv. rewrite Rmult_assoc, Rinv_l, Rmult_1_r by lra. lra. }
      destruct (div_ok prec emax Hp Hm _ _ _ _ Hx HN ltac:(lra) ltac:(lra)) as (ax & Hax & Eax).
      assert (U5 : u * Rabs (y / N) <= 5 * u) by (rewrite Rmult_comm; apply Rmult_le_compat_r; lra).
      assert (Bax : Rabs ax <= 6) by (replace ax with (y / N + (ax - y / N)) by ring; eapply Rle_trans; [apply Rabs_triang|]; lra).
      assert (Bm : Rabs (ax * al) <= 42) by (rewrite Rabs_mult; replace 42 with (6 * 7) by ring; apply Rmult_le_compat; try apply Rabs_pos; assumption).
      destruct (mul_ok prec emax Hp Hm _ _ _ _ Hax Hal ltac:(lra)) as (s & Hs & Es). exists s. split; [exact Hs|].
      assert (U42 : u * Rabs (ax * al) <= 42 * u) by (rewrite Rmult_comm; apply Rmult_le_compat_r; lra).
      assert (Hcl : Rabs c <= 2 * b).
      { destruct (Rle_lt_or_eq_dec _ _ W0) as [W1|W1]; [|rewrite (C0 (eq_sym W1)), Rabs_R0; lra]. rewrite (C1 W1). assert (0 < / len W) by (apply Rinv_0_lt_compat, W1).
        unfold Rdiv. rewrite !Rabs_mult, (Rabs_pos_eq (/ len W)), (Rabs_pos_eq b), (Rabs_pos_eq 2) by lra. apply Rle_trans with (2 * b * / len W * len W); [|right; field; lra].
        apply Rmult_le_compat_l; [apply Rmult_le_pos; lra|exact Hw]. }
      destruct Fu as [Hbig|Hsmall].
      - assert (V1 : 0 < len V). { apply Rmult_lt_reg_l with u; lra. }
        assert (HaxV : Rabs (ax - y / len V) <= 28 * u).
        { replace (ax - y / len V) with ((ax - y / N) + (y / N) * ((len V - N) / len V)) by (field; lra). eapply Rle_trans; [apply Rabs_triang|]. rewrite (Rabs_mult (y / N)).
          assert (Rabs ((len V - N) / len V) <= 17 / 4 * u).
          { unfold Rdiv. rewrite Rabs_mult, (Rabs_pos_eq (/ len V)) by (left; apply Rinv_0_lt_compat; lra). apply Rmult_le_reg_r with (len V); [exact V1|].
            rewrite Rmult_assoc, Rinv_l, Rmult_1_r by lra. apply Rabs_le. lra. }
          assert (Rabs (y / N) * Rabs ((len V - N) / len V) <= 5 * (17 / 4 * u)) by (apply Rmult_le_compat; try apply Rabs_pos; assumption). lra. }
        destruct (Rle_lt_or_eq_dec _ _ W0) as [W1|W1].
        + rewrite (C1 W1). pose proof (direction_diff y w (len V) (len W) E V1 W1 Hy Hyw ltac:(apply Rabs_le; lra)) as Hdir. set (n := w / len W) in *.
          replace (2 * b / len W * w) with (2 * b * n) by (unfold n; field; lra).
          replace (s - 2 * b * n) with ((s - ax * al) + (ax * (al - 2 * b) + 2 * b * ((ax - y / len V) + (y / len V - n)))) by ring.
          eapply Rle_trans; [apply Rabs_triang|]. eapply Rle_trans; [apply Rplus_le_compat_l, Rabs_triang|]. rewrite (Rabs_mult ax), (Rabs_mult (2 * b)), (Rabs_pos_eq (2 * b)) by lra.
          assert (T1 : Rabs ax * Rabs (al - 2 * b) <= 6 * A) by (apply Rmult_le_compat; try apply Rabs_pos; assumption).
          assert (T2 : 2 * b * Rabs (ax - y / len V + (y / len V - n)) <= 2 * b * (28 * u + 2 * E / len W)).
          { apply Rmult_le_compat_l; [lra|]. eapply Rle_trans; [apply Rabs_triang|]. lra. }
          assert (T3 : 2 * b * (28 * u) <= 4 * (28 * u)) by (apply Rmult_le_compat_r; lra).
          assert (T4 : 2 * b * (2 * E / len W) <= 8 * E).
          { apply Rmult_le_reg_r with (len W); [exact W1|]. replace (2 * b * (2 * E / len W) * len W) with (4 * E * b) by (field; lra).
            replace (8 * E * len W) with (4 * E * (2 * len W)) by ring. apply Rmult_le_compat_l; lra. }
          unfold A, e in *. lra.
        + rewrite (C0 (eq_sym W1)). assert (b = 0) as Eb by lra. rewrite Eb in *. replace (s - 0) with ((s - ax * al) + ax * al) by ring.
          eapply Rle_trans; [apply Rabs_triang|]. rewrite (Rabs_mult ax al). assert (Rabs ax * Rabs al <= 6 * (2 * 0 + A)) by (apply Rmult_le_compat; try apply Rabs_pos; assumption).
          unfold A, e in *. lra.
      - replace (s - c) with ((s - ax * al) + (ax * al + - c)) by ring. eapply Rle_trans; [apply Rabs_triang|].
        eapply Rle_trans; [apply Rplus_le_compat_l, Rabs_triang|]. rewrite Rabs_Ropp, (Rabs_mult ax al).
        assert (Rabs ax * Rabs al <= 6 * (2 * b + A)) by (apply Rmult_le_compat; try apply Rabs_pos; assumption).
        unfold A, e in *. lra. }
    destruct (comp_len V) as (K1 & K2 & K3). destruct (comp_len W) as (K4 & K5 & K6). rewrite dist_sym_len in Hdv. destruct (comp_len (minus V W)) as (K7 & K8 & K9). cbn [vx vy vz minus] in K7, K8, K9.
    destruct (Hcomp _ _ (vx W) (vx (wP)) Vx K1 K4 ltac:(lra)) as (sx & Sx & Ex); [intros H; rewrite (Z0 H); reflexivity|intros H; rewrite (Z1 H); reflexivity|].
    destruct (Hcomp _ _ (vy W) (vy (wP)) Vy K2 K5 ltac:(lra)) as (sy & Sy & Ey); [intros H; rewrite (Z0 H); reflexivity|intros H; rewrite (Z1 H); reflexivity|].
    destruct (Hcomp _ _ (vz W) (vz (wP)) Vz K3 K6 ltac:(lra)) as (sz & Sz & Ez); [intros H; rewrite (Z0 H); reflexivity|intros H; rewrite (Z1 H); reflexivity|].
    exists (V3 sx sy sz). split; [split; [exact Sx|]; split; [exact Sy|exact Sz]|]. cbn [vx vy vz]. split; [exact Ex|]. split; [exact Ey|exact Ez].
  Qed.
  (** the quotient of two float quaternions near unit quaternions *)
  Lemma quotient_fwd (tg x : quat spec_float) tq rq p w a e : qval tg tq -> qval x rq -> unit_quat p -> unit_quat w -> qdist tq p <= a -> qdist rq w <= e -> a <= 1 -> e <= 1 ->
    exists D, qval (@qmul _ FS tg (@qconj _ FS x)) D /\ qdist D (qmul p (qconj w)) <= 2 * a + e + 34 * u.
  Proof.
    intros Htq Hrq Up Uw Da De A1 E1. pose proof (u_small prec Hprec) as [U0 U1]. pose proof (mu_small prec emax Hm Hprec) as [M0 M1]. pose proof (big prec emax Hm Hprec) as B.
    assert (Hcq : qval (@qconj _ FS x) (qconj rq)) by (destruct Hrq as (C1 & C2 & C3 & C4); split; [|split; [|split]]; [exact (val_opp _ _ _ _ C1)|exact (val_opp _ _ _ _ C2)|exact (val_opp _ _ _ _ C3)|exact C4]).
    assert (Uc : unit_quat (qconj w)) by (revert Uw; unfold unit_quat, qconj; cbn; intros <-; ring).
    assert (Dc : qdist (qconj rq) (qconj w) = qdist rq w) by (unfold qdist, qconj; cbn; f_equal; ring).
    pose proof (qlen_near tq p a Up Da) as Lt. pose proof (qlen_near (qconj rq) (qconj w) e Uc ltac:(rewrite Dc; exact De)) as Lr.
    assert (a0 : 0 <= a) by (eapply Rle_trans; [apply sqrt_pos|exact Da]). assert (e0 : 0 <= e) by (eapply Rle_trans; [apply sqrt_pos|exact De]).
    destruct (qmul_T prec emax Hp Hm L Hprec _ _ _ _ 2 2 Htq Hcq ltac:(lra) ltac:(lra) ltac:(lra)) as (D & HD & ED).
    exists D. split; [exact HD|].
    assert (ED' : qdist D (qmul tq (qconj rq)) <= 34 * u).
    { eapply Rle_trans; [exact ED|]. assert (0 <= u * u) by (apply Rmult_le_pos; lra). assert (u * u <= / 2048 * u) by (apply Rmult_le_compat_r; lra).
      assert (u * (u * u) <= / 2048 * (u * u)) by (apply Rmult_le_compat_r; lra). assert (0 <= u * (u * u)) by (apply Rmult_le_pos; lra).
      assert (u * (u * (u * u)) <= / 2048 * (u * (u * u))) by (apply Rmult_le_compat_r; lra).
      assert (P : (1 + u) ^ 4 - 1 <= 4 * u + / 100 * u) by (replace ((1 + u) ^ 4 - 1) with (4 * u + 6 * (u * u) + 4 * (u * (u * u)) + u * (u * (u * u))) by ring; lra).
      assert (((1 + u) ^ 4 - 1) * (2 * 2 + 4 * mu) <= (4 * u + / 100 * u) * (2 * 2 + 4 * mu)) by (apply Rmult_le_compat_r; lra).
      assert ((4 * u + / 100 * u) * (2 * 2 + 4 * mu) <= (4 * u + / 100 * u) * (4 + 4 / 1024)) by (apply Rmult_le_compat_l; lra). lra. }
    set (P := qmul p (qconj w)). pose proof (qdist_tri D (qmul tq (qconj rq)) P) as T1. pose proof (qmul_diff tq (qconj rq) p (qconj w)) as T2. fold P in T2. rewrite Dc, (qlen_unit p Up) in T2.
    assert (qdist tq p * qlen (qconj rq) <= a * 2) by (apply Rmult_le_compat; [apply sqrt_pos|apply n4_pos|exact Da|lra]). lra.
  Qed.
  (** the rotation part of the pose error *)
  Lemma rotation_fwd (tg x : quat spec_float) tq rq p w a e d : qval tg tq -> qval x rq -> unit_quat p -> unit_quat w -> qdist tq p <= a -> qdist rq w <= e ->
    2 * a + e + 34 * u <= / 8 -> / 2 <= Rabs (qw (qmul p (qconj w))) -> 0 <= d <= 1 -> atan2_within prec emax d L ->
    exists v, vval (@qscaled_axis _ FS (@qrotation_to _ FS x tg)) v /\ let g := qscaled_axis (qmul p (qconj w)) in let k := 128 * (2 * a + e + 50 * u + d + faint prec emax) in
      Rabs (vx v - vx g) <= k /\ Rabs (vy v - vy g) <= k /\ Rabs (vz v - vz g) <= k.
  Proof.
    intros Htq Hrq Up Uw Da De HE Hw Hd Hat. pose proof (u_small prec Hprec) as [U0 U1].
    assert (a0 : 0 <= a) by (eapply Rle_trans; [apply sqrt_pos|exact Da]). assert (e0 : 0 <= e) by (eapply Rle_trans; [apply sqrt_pos|exact De]).
    destruct (quotient_fwd tg x tq rq p w a e Htq Hrq Up Uw Da De ltac:(lra) ltac:(lra)) as (D & HD & ED).
    assert (UP : unit_quat (qmul p (qconj w))) by (apply unit_qmul; [exact Up|apply unit_qconj, Uw]).
    destruct (scaled_axis_fwd _ D _ d _ HD UP ED HE Hw Hd Hat) as (v & Hv & Hk). exists v. split; [exact Hv|]. cbv zeta in *.
    replace (2 * a + e + 50 * u + d + faint prec emax) with (2 * a + e + 34 * u + 16 * u + d + faint prec emax) by ring. exact Hk.
  Qed.
  (** ... and its translation part *)
  Lemma translation_fwd (tg x : vec3 spec_float) a b : vval tg a -> vval x b -> len (minus a b) <= bpow radix2 (emax - 1) ->
    exists v, vval (@vsub _ FS tg x) v /\
      Rabs (vx v - (vx a - vx b)) <= u * Rabs (vx a - vx b) /\ Rabs (vy v - (vy a - vy b)) <= u * Rabs (vy a - vy b) /\ Rabs (vz v - (vz a - vz b)) <= u * Rabs (vz a - vz b).
  Proof.
    intros (Ax & Ay & Az) (Bx & By & Bz) Hl. destruct (comp_len (minus a b)) as (C1 & C2 & C3). cbn [minus vx vy vz] in C1, C2, C3.
    destruct (sub_ok prec emax Hp Hm _ _ _ _ Ax Bx ltac:(lra)) as (x1 & X1 & E1). destruct (sub_ok prec emax Hp Hm _ _ _ _ Ay By ltac:(lra)) as (x2 & X2 & E2).
    destruct (sub_ok prec emax Hp Hm _ _ _ _ Az Bz ltac:(lra)) as (x3 & X3 & E3). exists (V3 x1 x2 x3). split; [split; [exact X1|split; [exact X2|exact X3]]|]. auto.
  Qed.
End Fwd.
