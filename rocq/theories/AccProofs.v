(** * Rounding errors of poses *)
From Coq Require Import Reals ZArith Lra Lia Psatz Floats.SpecFloat.
From Flocq Require Import Core IEEE754.BinarySingleNaN.
From stdpp Require Import gmap.
From Verif Require Import Scalar ScalarR ScalarF Geometry Joint Link Prog NodeM ChainM SpecValues SpecFloatErr FloatErr
  SpecGraph SpecFK SpecGeom RGeom GeomProofs SpecReach ReachProofs SpecAcc.
Local Open Scope R_scope.

(** ** lengths in three and four dimensions *)
Definition n4 (a b c d : R) : R := R_sqrt.sqrt (a * a + b * b + c * c + d * d).
Definition qlen (q : quat R) : R := n4 (qi q) (qj q) (qk q) (qw q).
Definition qminus (a b : quat R) : quat R := Qt (qi a - qi b) (qj a - qj b) (qk a - qk b) (qw a - qw b).
Lemma sq_nonneg4 a b c d : 0 <= a * a + b * b + c * c + d * d.
Proof. pose proof (Rle_0_sqr a). pose proof (Rle_0_sqr b). pose proof (Rle_0_sqr c). pose proof (Rle_0_sqr d). unfold Rsqr in *. lra. Qed.
Lemma n4_sqr a b c d : n4 a b c d * n4 a b c d = a * a + b * b + c * c + d * d.
Proof. apply sqrt_sqrt, sq_nonneg4. Qed.
Lemma n4_pos a b c d : 0 <= n4 a b c d.
Proof. apply sqrt_pos. Qed.
Lemma n4_le a b c d x : 0 <= x -> a * a + b * b + c * c + d * d <= x * x -> n4 a b c d <= x.
Proof. intros Hx H. unfold n4. rewrite <- (sqrt_square x) by exact Hx. apply sqrt_le_1_alt, H. Qed.
Lemma cauchy4 a b c d a' b' c' d' : a * a' + b * b' + c * c' + d * d' <= n4 a b c d * n4 a' b' c' d'.
Proof.
  unfold n4. rewrite <- sqrt_mult by apply sq_nonneg4.
  destruct (Rle_dec (a * a' + b * b' + c * c' + d * d') 0) as [H|H]; [eapply Rle_trans; [exact H|apply sqrt_pos]|].
  rewrite <- (sqrt_square (a * a' + b * b' + c * c' + d * d')) by lra. apply sqrt_le_1_alt.
  pose proof (Rle_0_sqr (a * b' - b * a')). pose proof (Rle_0_sqr (a * c' - c * a')). pose proof (Rle_0_sqr (a * d' - d * a')).
  pose proof (Rle_0_sqr (b * c' - c * b')). pose proof (Rle_0_sqr (b * d' - d * b')). pose proof (Rle_0_sqr (c * d' - d * c')).
  unfold Rsqr in *. lra.
Qed.
Lemma n4_abs a b c d : n4 (Rabs a) (Rabs b) (Rabs c) (Rabs d) = n4 a b c d.
Proof. unfold n4. f_equal. rewrite <- !Rabs_mult. rewrite !Rabs_pos_eq by apply Rle_0_sqr. reflexivity. Qed.
Lemma cauchy4_abs a b c d a' b' c' d' :
  Rabs a * Rabs a' + Rabs b * Rabs b' + Rabs c * Rabs c' + Rabs d * Rabs d' <= n4 a b c d * n4 a' b' c' d'.
Proof. rewrite <- (n4_abs a), <- (n4_abs a'). apply cauchy4. Qed.
Lemma n4_plus a b c d a' b' c' d' : n4 (a + a') (b + b') (c + c') (d + d') <= n4 a b c d + n4 a' b' c' d'.
Proof.
  pose proof (n4_pos a b c d). pose proof (n4_pos a' b' c' d'). apply n4_le; [lra|].
  pose proof (cauchy4 a b c d a' b' c' d'). pose proof (n4_sqr a b c d). pose proof (n4_sqr a' b' c' d'). nra.
Qed.
Lemma qdist_len a b : qdist a b = qlen (qminus a b).
Proof. reflexivity. Qed.
Lemma qdist_pos a b : 0 <= qdist a b.
Proof. apply sqrt_pos. Qed.
Lemma qdist_tri a b c : qdist a c <= qdist a b + qdist b c.
Proof.
  rewrite !qdist_len. unfold qlen. cbn [qminus qi qj qk qw].
  eapply Rle_trans; [|apply n4_plus]. right. unfold n4. f_equal. ring.
Qed.
Lemma qlen_mul a b : qlen (qmul a b) = qlen a * qlen b.
Proof.
  unfold qlen, n4. rewrite <- sqrt_mult by apply sq_nonneg4. f_equal.
  pose proof (qn2_mul a b) as H. unfold qn2 in H. rewrite H. reflexivity.
Qed.
Lemma qlen_unit q : unit_quat q -> qlen q = 1.
Proof. intros H. unfold qlen, n4. rewrite H. apply sqrt_1. Qed.
Lemma qlen_near a b e : unit_quat b -> qdist a b <= e -> qlen a <= 1 + e.
Proof.
  intros Hb H. pose proof (n4_plus (qi b) (qj b) (qk b) (qw b) (qi a - qi b) (qj a - qj b) (qk a - qk b) (qw a - qw b)) as H1.
  replace (n4 (qi b) (qj b) (qk b) (qw b)) with 1 in H1 by (symmetry; apply (qlen_unit b Hb)).
  change (n4 (qi a - qi b) (qj a - qj b) (qk a - qk b) (qw a - qw b)) with (qdist a b) in H1.
  replace (qlen a) with (n4 (qi b + (qi a - qi b)) (qj b + (qj a - qj b)) (qk b + (qk a - qk b)) (qw b + (qw a - qw b))); [lra|].
  unfold qlen. f_equal; ring.
Qed.
Lemma qmul_diff a b a' b' : qdist (qmul a b) (qmul a' b') <= qdist a a' * qlen b + qlen a' * qdist b b'.
Proof.
  rewrite !qdist_len, <- !qlen_mul. unfold qlen. eapply Rle_trans; [|apply n4_plus]. right. destruct a, b, a', b'. unfold n4. f_equal. cbn. ring.
Qed.
Lemma comp_len4 a b c d : Rabs a <= n4 a b c d /\ Rabs b <= n4 a b c d /\ Rabs c <= n4 a b c d /\ Rabs d <= n4 a b c d.
Proof.
  pose proof (Rle_0_sqr a). pose proof (Rle_0_sqr b). pose proof (Rle_0_sqr c). pose proof (Rle_0_sqr d). unfold Rsqr in *.
  repeat split; rewrite <- sqrt_Rsqr_abs; apply sqrt_le_1_alt; unfold Rsqr; lra.
Qed.
Lemma comp_len a : Rabs (vx a) <= len a /\ Rabs (vy a) <= len a /\ Rabs (vz a) <= len a.
Proof.
  pose proof (Rle_0_sqr (vx a)). pose proof (Rle_0_sqr (vy a)). pose proof (Rle_0_sqr (vz a)). unfold Rsqr in *.
  repeat split; rewrite <- sqrt_Rsqr_abs; apply sqrt_le_1_alt; unfold Rsqr, inner; lra.
Qed.
Lemma qvec_len q : len (qvec q) <= qlen q.
Proof. apply sqrt_le_1_alt. pose proof (Rle_0_sqr (qw q)). unfold Rsqr, inner, qvec in *. cbn. lra. Qed.
Lemma Rabs_sq e x : Rabs x <= e -> x * x <= e * e.
Proof. intros H. pose proof (Rabs_pos x). rewrite <- (Rabs_pos_eq (x * x)) by apply Rle_0_sqr. rewrite Rabs_mult. nra. Qed.
Lemma len_comps a e : Rabs (vx a) <= e -> Rabs (vy a) <= e -> Rabs (vz a) <= e -> len a <= 2 * e.
Proof.
  intros Hx Hy Hz. pose proof (Rabs_pos (vx a)). apply len_le_of_sqr; [lra|]. unfold inner.
  pose proof (Rabs_sq _ _ Hx). pose proof (Rabs_sq _ _ Hy). pose proof (Rabs_sq _ _ Hz). nra.
Qed.
Lemma n4_comps a b c d e : Rabs a <= e -> Rabs b <= e -> Rabs c <= e -> Rabs d <= e -> n4 a b c d <= 2 * e.
Proof.
  intros Ha Hb Hc Hd. pose proof (Rabs_pos a). apply n4_le; [lra|].
  pose proof (Rabs_sq _ _ Ha). pose proof (Rabs_sq _ _ Hb). pose proof (Rabs_sq _ _ Hc). pose proof (Rabs_sq _ _ Hd). lra.
Qed.
Lemma len_cross a b : len (cross a b) <= len a * len b.
Proof.
  unfold len. rewrite <- sqrt_mult by apply inner_nonneg. apply sqrt_le_1_alt.
  pose proof (Rle_0_sqr (inner a b)) as H. unfold Rsqr in H.
  replace (inner a a * inner b b) with (inner (cross a b) (cross a b) + inner a b * inner a b); [lra|].
  destruct a, b. unfold inner. cbn. ring.
Qed.
Lemma dist_sym_len a b : dist a b = len (minus a b).
Proof. reflexivity. Qed.
Lemma dist_tri a b c : dist a c <= dist a b + dist b c.
Proof. apply len_minus_tri. Qed.
Lemma len_near a b : len a <= len b + dist a b.
Proof. unfold dist. assert (E : a = plus b (minus a b)) by (destruct a, b; gv; ring). rewrite E at 1. apply len_plus. Qed.

(** ** a quaternion that is nearly unit turns nearly like the unit one *)
Lemma qrot_diff q q' v e : unit_quat q -> qdist q' q <= e -> dist (qrot q' v) (qrot q v) <= 4 * ((1 + e) ^ 2 - 1) * len v.
Proof.
  intros Hu He. pose proof (qdist_pos q' q) as H0. pose proof (len_nonneg v) as Hv.
  set (d := minus (qvec q') (qvec q)). set (w := qw q' - qw q).
  assert (Hd : len d <= e).
  { eapply Rle_trans; [|exact He]. apply sqrt_le_1_alt. pose proof (Rle_0_sqr (qw q' - qw q)). unfold Rsqr, inner, d, minus, qvec in *. cbn. lra. }
  assert (Hw : Rabs w <= e) by (eapply Rle_trans; [|exact He]; apply (comp_len4 (qi q' - qi q) (qj q' - qj q) (qk q' - qk q) (qw q' - qw q))).
  assert (H1 : len (qvec q) <= 1) by (rewrite <- (qlen_unit q Hu); apply qvec_len).
  assert (H1w : Rabs (qw q) <= 1) by (rewrite <- (qlen_unit q Hu); apply (comp_len4 (qi q) (qj q) (qk q) (qw q))).
  assert (H2 : len (qvec q') <= 1 + e) by (eapply Rle_trans; [apply qvec_len|eapply qlen_near; eauto]).
  assert (E : minus (qrot q' v) (qrot q v) = plus (plus (times (2 * w) (cross (qvec q') v)) (times (2 * qw q) (cross d v)))
     (plus (times 2 (cross d (cross (qvec q') v))) (times 2 (cross (qvec q) (cross d v))))).
  { unfold d, w. destruct q, q', v. gv; ring. }
  unfold dist. rewrite E.
  pose proof (len_plus (plus (times (2 * w) (cross (qvec q') v)) (times (2 * qw q) (cross d v)))
     (plus (times 2 (cross d (cross (qvec q') v))) (times 2 (cross (qvec q) (cross d v))))) as A0.
  pose proof (len_plus (times (2 * w) (cross (qvec q') v)) (times (2 * qw q) (cross d v))) as A1.
  pose proof (len_plus (times 2 (cross d (cross (qvec q') v))) (times 2 (cross (qvec q) (cross d v)))) as A2.
  rewrite !len_times, !Rabs_mult, !(Rabs_pos_eq 2) in A1 by lra. rewrite !len_times, !(Rabs_pos_eq 2) in A2 by lra.
  pose proof (len_cross (qvec q') v) as B1. pose proof (len_cross d v) as B2.
  pose proof (len_cross d (cross (qvec q') v)) as B3. pose proof (len_cross (qvec q) (cross d v)) as B4.
  pose proof (len_nonneg d). pose proof (len_nonneg (qvec q)). pose proof (len_nonneg (qvec q')).
  pose proof (len_nonneg (cross (qvec q') v)). pose proof (len_nonneg (cross d v)). pose proof (Rabs_pos w). pose proof (Rabs_pos (qw q)).
  set (V := len v) in *.
  assert (C1 : len (cross (qvec q') v) <= (1 + e) * V) by nra.
  assert (C2 : len (cross d v) <= e * V) by nra.
  assert (D1 : Rabs w * len (cross (qvec q') v) <= e * ((1 + e) * V)) by (apply Rmult_le_compat; assumption).
  assert (D2 : Rabs (qw q) * len (cross d v) <= 1 * (e * V)) by (apply Rmult_le_compat; assumption).
  assert (D3 : len d * len (cross (qvec q') v) <= e * ((1 + e) * V)) by (apply Rmult_le_compat; assumption).
  assert (D4 : len (qvec q) * len (cross d v) <= 1 * (e * V)) by (apply Rmult_le_compat; assumption).
  nra.
Qed.

(** ** powers *)
Lemma pow_ge_1 x n : 1 <= x -> 1 <= x ^ n.
Proof. intros H. apply pow_R1_Rle, H. Qed.
Lemma pow_mono x n m : 1 <= x -> (n <= m)%nat -> x ^ n <= x ^ m.
Proof. intros. apply Rle_pow; assumption. Qed.
Lemma bernoulli x n : 0 <= x -> 1 + INR n * x <= (1 + x) ^ n.
Proof.
  intros Hx. induction n as [|n IH]; [cbn; lra|]. rewrite S_INR. cbn [Rpow_def.pow]. pose proof (pow_ge_1 (1 + x) n ltac:(lra)). nra.
Qed.
Lemma pow8_sq X : 1 <= X -> 4 * (X ^ 2 - 1) <= X ^ 8 - 1.
Proof.
  intros H. replace (X ^ 8 - 1) with ((X ^ 2 - 1) * (X ^ 6 + X ^ 4 + X ^ 2 + 1)) by ring.
  pose proof (pow_ge_1 X 2 H). pose proof (pow_ge_1 X 4 H). pose proof (pow_ge_1 X 6 H). nra.
Qed.

Section Acc.
  Context (prec emax : Z) (Hp : Prec_gt_0 prec) (Hm : Prec_lt_emax prec emax) (L : libm).
  Notation val := (val prec emax).
  Notation vval := (vval prec emax).
  Notation qval := (qval prec emax).
  Notation ival := (ival prec emax).
  Notation u := (unit_roundoff prec).
  Notation mu := (tiny emax).
  Notation BIG := (bpow radix2 (emax - 2)).
  Notation FS := (FScalar prec emax L).
  Context (Hprec : (11 <= prec)%Z).

  Lemma u_small : 0 < u <= / 2048.
  Proof. split; [apply u_pos|]. unfold unit_roundoff. change (/ 2048) with (bpow radix2 (- 11)). apply bpow_le. lia. Qed.
  Lemma mu_small : 0 < mu <= / 1024.
  Proof.
    split; [apply mu_pos|]. red in Hm. unfold tiny. change (/ 1024) with (bpow radix2 (- 10)). apply bpow_le. lia.
  Qed.
  Lemma u_pow k : (k <= 16)%nat -> 1 <= (1 + u) ^ k <= 2.
  Proof.
    intros Hk. pose proof u_small. split; [apply pow_ge_1; lra|]. eapply Rle_trans; [apply (pow_mono _ k 16); [lra|exact Hk]|].
    eapply Rle_trans; [apply (pow_incr _ (1 + / 2048)); lra|]. lra.
  Qed.
  Lemma big_double : bpow radix2 (emax - 1) = 2 * BIG.
  Proof. replace (emax - 2)%Z with (emax - 1 - 1)%Z by lia. rewrite (bpow_pred (emax - 1)). field. Qed.

  (** [x] is [r] up to [k] roundings of numbers no larger than [m] *)
  Definition T (k : nat) (m : R) (x : spec_float) (r : R) : Prop :=
    exists a, val x a /\ Rabs r <= m /\ Rabs (a - r) <= ((1 + u) ^ k - 1) * m.
  Lemma T_val x r m : val x r -> Rabs r <= m -> T 0 m x r.
  Proof. intros H Hr. exists r. split; [exact H|]. split; [exact Hr|]. replace (r - r) with 0 by ring. rewrite Rabs_R0. cbn. lra. Qed.
  Lemma T_weak k m k' m' x r : T k m x r -> (k <= k')%nat -> m <= m' -> T k' m' x r.
  Proof.
    intros (a & Ha & Hr & He) Hk Hm'. exists a. split; [exact Ha|]. split; [lra|]. pose proof u_small. pose proof (Rabs_pos r).
    pose proof (pow_mono (1 + u) k k' ltac:(lra) Hk). pose proof (pow_ge_1 (1 + u) k ltac:(lra)). nra.
  Qed.
  Lemma T_abs k m x r a : val x a -> Rabs r <= m -> Rabs (a - r) <= ((1 + u) ^ k - 1) * m -> Rabs a <= (1 + u) ^ k * m.
  Proof. intros _ Hr He. replace a with ((a - r) + r) by ring. eapply Rle_trans; [apply Rabs_triang|]. lra. Qed.
  Lemma T_add k m1 m2 x y r s : (k < 16)%nat -> m1 + m2 <= BIG -> T k m1 x r -> T k m2 y s -> T (S k) (m1 + m2) (SFadd prec emax x y) (r + s).
  Proof.
    intros Hk HB (a & Ha & Hr & He) (b & Hb & Hs & Hf).
    assert (Hab : Rabs (a + b) <= (1 + u) ^ k * (m1 + m2)).
    { eapply Rle_trans; [apply Rabs_triang|]. pose proof (T_abs _ _ _ _ _ Ha Hr He). pose proof (T_abs _ _ _ _ _ Hb Hs Hf). lra. }
    pose proof (Rabs_pos r). pose proof (Rabs_pos s). destruct (u_pow k) as [P1 P2]; [lia|]. pose proof u_small.
    destruct (add_ok prec emax Hp Hm _ _ _ _ Ha Hb) as (c & Hc & He'); [rewrite big_double; nra|].
    exists c. split; [exact Hc|]. split; [eapply Rle_trans; [apply Rabs_triang|]; lra|].
    replace (c - (r + s)) with ((c - (a + b)) + ((a - r) + (b - s))) by ring.
    eapply Rle_trans; [apply Rabs_triang|]. pose proof (Rabs_triang (a - r) (b - s)). cbn [Rpow_def.pow].
    assert (u * Rabs (a + b) <= u * ((1 + u) ^ k * (m1 + m2))) by (apply Rmult_le_compat_l; lra). lra.
  Qed.
  Lemma T_sub k m1 m2 x y r s : (k < 16)%nat -> m1 + m2 <= BIG -> T k m1 x r -> T k m2 y s -> T (S k) (m1 + m2) (SFsub prec emax x y) (r - s).
  Proof.
    intros Hk HB (a & Ha & Hr & He) (b & Hb & Hs & Hf).
    assert (Hab : Rabs (a - b) <= (1 + u) ^ k * (m1 + m2)).
    { unfold Rminus. eapply Rle_trans; [apply Rabs_triang|]. rewrite Rabs_Ropp. pose proof (T_abs _ _ _ _ _ Ha Hr He). pose proof (T_abs _ _ _ _ _ Hb Hs Hf). lra. }
    pose proof (Rabs_pos r). pose proof (Rabs_pos s). destruct (u_pow k) as [P1 P2]; [lia|]. pose proof u_small.
    destruct (sub_ok prec emax Hp Hm _ _ _ _ Ha Hb) as (c & Hc & He'); [rewrite big_double; nra|].
    exists c. split; [exact Hc|]. split; [unfold Rminus; eapply Rle_trans; [apply Rabs_triang|]; rewrite Rabs_Ropp; lra|].
    replace (c - (r - s)) with ((c - (a - b)) + ((a - r) + - (b - s))) by ring.
    eapply Rle_trans; [apply Rabs_triang|]. pose proof (Rabs_triang (a - r) (- (b - s))) as Ht. rewrite Rabs_Ropp in Ht. cbn [Rpow_def.pow].
    assert (u * Rabs (a - b) <= u * ((1 + u) ^ k * (m1 + m2))) by (apply Rmult_le_compat_l; lra). lra.
  Qed.
  Lemma T_mul k1 k2 m1 m2 x y r s : (k1 + k2 < 16)%nat -> m1 * m2 <= BIG -> T k1 m1 x r -> T k2 m2 y s ->
    T (S (k1 + k2)) (m1 * m2 + mu) (SFmul prec emax x y) (r * s).
  Proof.
    intros Hk HB (a & Ha & Hr & He) (b & Hb & Hs & Hf).
    pose proof (T_abs _ _ _ _ _ Ha Hr He) as Aa. pose proof (T_abs _ _ _ _ _ Hb Hs Hf) as Ab.
    pose proof (Rabs_pos a). pose proof (Rabs_pos b). pose proof (Rabs_pos r). pose proof (Rabs_pos s).
    destruct (u_pow (k1 + k2)) as [P1 P2]; [lia|]. destruct (u_pow k1) as [Q1 _]; [lia|]. destruct (u_pow k2) as [Q2 _]; [lia|].
    pose proof u_small. pose proof mu_small. rewrite pow_add in P1, P2.
    set (X := (1 + u) ^ k1) in *. set (Y := (1 + u) ^ k2) in *.
    assert (Hm12 : 0 <= m1 * m2) by (apply Rmult_le_pos; lra).
    assert (Hab : Rabs (a * b) <= X * Y * (m1 * m2)).
    { rewrite Rabs_mult. replace (X * Y * (m1 * m2)) with ((X * m1) * (Y * m2)) by ring. apply Rmult_le_compat; assumption. }
    destruct (mul_ok prec emax Hp Hm _ _ _ _ Ha Hb) as (c & Hc & He'); [rewrite big_double; nra|].
    exists c. split; [exact Hc|]. split; [rewrite Rabs_mult; assert (Rabs r * Rabs s <= m1 * m2) by (apply Rmult_le_compat; assumption); lra|].
    replace (c - r * s) with ((c - a * b) + ((a - r) * b + r * (b - s))) by ring.
    eapply Rle_trans; [apply Rabs_triang|]. pose proof (Rabs_triang ((a - r) * b) (r * (b - s))) as Ht. rewrite !Rabs_mult in Ht.
    assert (E1 : Rabs (a - r) * Rabs b <= ((X - 1) * m1) * (Y * m2)) by (apply Rmult_le_compat; try assumption; apply Rabs_pos).
    assert (E2 : Rabs r * Rabs (b - s) <= m1 * ((Y - 1) * m2)) by (apply Rmult_le_compat; try assumption; apply Rabs_pos).
    assert (E3 : u * Rabs (a * b) <= u * (X * Y * (m1 * m2))) by (apply Rmult_le_compat_l; lra).
    cbn [Rpow_def.pow]. rewrite pow_add. fold X Y.
    assert (E4 : u * mu <= ((1 + u) * (X * Y) - 1) * mu) by (apply Rmult_le_compat_r; nra). nra.
  Qed.
  Lemma T_err k m x r : T k m x r -> exists a, val x a /\ Rabs (a - r) <= ((1 + u) ^ k - 1) * m.
  Proof. intros (a & Ha & _ & He). eauto. Qed.

  (** the constants *)
  Lemma val_zero : val (@szero _ FS) 0.
  Proof. split; reflexivity. Qed.
  Lemma val_one : val (@sone _ FS) 1.
  Proof.
    pose proof (fexp_correct prec emax Hp) as Vf. pose proof Hp as Hp'. pose proof Hm as Hm'. red in Hp', Hm'.
    cbn [sone FScalar]. unfold SFofZ. apply val_B.
    assert (G1 : generic_format radix2 (SpecFloat.fexp prec emax) 1).
    { change 1 with (bpow radix2 0). apply generic_format_bpow. unfold SpecFloat.fexp, SpecFloat.emin. lia. }
    pose proof (binary_normalize_correct prec emax Hp Hm mode_NE 1 0 false) as HC. change (round_mode mode_NE) with ZnearestE in HC.
    assert (E1 : F2R (Float radix2 1 0) = 1) by (unfold F2R; cbn; lra). rewrite E1 in HC.
    cbv zeta in HC. rewrite round_generic in HC by (try apply valid_rnd_N; exact G1).
    rewrite Rabs_pos_eq, Rlt_bool_true in HC; [|change 1 with (bpow radix2 0); apply bpow_lt; lia|lra].
    destruct HC as (H1 & H2 & _). eexists. split; [apply FloatSub.normalize_equiv|]. split; [exact H2|exact H1].
  Qed.
  Lemma val_two : val (@stwo _ FS) 2.
  Proof.
    pose proof (fexp_correct prec emax Hp) as Vf. pose proof Hp as Hp'. pose proof Hm as Hm'. red in Hp', Hm'.
    pose proof val_one as H. apply val_B in H as (b & E & Hf & Hb). unfold stwo. rewrite E. cbn [sadd FScalar]. apply val_B.
    pose proof (Bplus_correct prec emax Hp Hm mode_NE b b Hf Hf) as HC. change (round_mode mode_NE) with ZnearestE in HC. rewrite Hb in HC.
    assert (G1 : generic_format radix2 (SpecFloat.fexp prec emax) (1 + 1)).
    { change (1 + 1) with (bpow radix2 1). apply generic_format_bpow. unfold SpecFloat.fexp, SpecFloat.emin. lia. }
    rewrite round_generic in HC by (try apply valid_rnd_N; exact G1).
    rewrite Rabs_pos_eq, Rlt_bool_true in HC; [|change (1 + 1) with (bpow radix2 1); apply bpow_lt; lia|lra].
    destruct HC as (H1 & H2 & _). eexists. split; [apply add_equiv|]. split; [exact H2|]. rewrite H1. ring.
  Qed.

  (** ** vectors *)
  Definition VT (k : nat) (m : R) (x : vec3 spec_float) (r : vec3 R) : Prop :=
    T k m (vx x) (vx r) /\ T k m (vy x) (vy r) /\ T k m (vz x) (vz r).
  Lemma VT_weak k m k' m' x r : VT k m x r -> (k <= k')%nat -> m <= m' -> VT k' m' x r.
  Proof. intros (A & B & C) Hk Hm'. repeat split; eapply T_weak; eauto. Qed.
  Lemma VT_val x r : vval x r -> VT 0 (len r) x r.
  Proof. intros (A & B & C). destruct (comp_len r) as (X & Y & Z). repeat split; apply T_val; assumption. Qed.
  Lemma VT_err k m x r : VT k m x r -> exists a, vval x a /\ dist a r <= 2 * (((1 + u) ^ k - 1) * m).
  Proof.
    intros (A & B & C). apply T_err in A as (a & Va & Ea), B as (b & Vb & Eb), C as (c & Vc & Ec).
    exists (V3 a b c). split; [hnf; cbn; auto|]. apply len_comps; assumption.
  Qed.
  Lemma VT_add k m1 m2 x y r s : (k < 16)%nat -> m1 + m2 <= BIG -> VT k m1 x r -> VT k m2 y s -> VT (S k) (m1 + m2) (@vadd _ FS x y) (vadd r s).
  Proof. intros Hk HB (A & B & C) (A' & B' & C'). repeat split; apply T_add; assumption. Qed.
  Lemma VT_scale k m1 m2 x y r s : (k < 16)%nat -> m1 * m2 <= BIG -> VT k m1 x r -> T 0 m2 y s -> VT (S k) (m1 * m2 + mu) (@vscale _ FS x y) (vscale r s).
  Proof. intros Hk HB (A & B & C) D. replace k with (k + 0)%nat at 1 by lia. repeat split; apply T_mul; try assumption; lia. Qed.
  Lemma VT_cross k m1 m2 x y r s : (S k < 16)%nat -> 2 * (m1 * m2 + mu) <= BIG -> VT 0 m1 x r -> VT k m2 y s ->
    VT (S (S k)) (2 * (m1 * m2 + mu)) (@vcross _ FS x y) (vcross r s).
  Proof.
    intros Hk HB (A & B & C) (A' & B' & C'). pose proof mu_small. rewrite double in HB |- *.
    repeat split; apply T_sub; try lia; try assumption; apply (T_mul 0 k); try assumption; try lia; try lra.
    all: assert (0 <= m1 * m2); [|lra].
    all: destruct A as (? & _ & A & _), A' as (? & _ & A' & _); pose proof (Rabs_pos (vx r)); pose proof (Rabs_pos (vx s)); apply Rmult_le_pos; lra.
  Qed.
  Lemma qrot_T q v q' v' Q V : qval q q' -> vval v v' -> qlen q' <= Q -> len v' <= V -> 1 <= Q ->
    12 * Q ^ 2 * V + 15 * Q * mu + 3 * mu + V <= BIG ->
    VT 7 (12 * Q ^ 2 * V + 15 * Q * mu + 3 * mu + V) (@qrot _ FS q v) (qrot q' v').
  Proof.
    intros Hq Hv HQ HV H1 HB. pose proof mu_small. pose proof (len_nonneg v') as Hv0.
    destruct (comp_len4 (qi q') (qj q') (qk q') (qw q')) as (Bi & Bj & Bk & Bw). fold (qlen q') in *.
    assert (Vq : VT 0 Q (@qvec _ q) (qvec q')).
    { destruct Hq as (A & B & C & _). repeat split; apply T_val; try assumption; cbn; lra. }
    assert (Tw : T 0 Q (qw q) (qw q')) by (apply T_val; [apply Hq|lra]).
    assert (Vv : VT 0 V v v') by (eapply VT_weak; [apply VT_val, Hv|lia|exact HV]).
    assert (T2 : T 0 2 (@stwo _ FS) 2) by (apply T_val; [apply val_two|rewrite Rabs_pos_eq; lra]).
    assert (P0 : 0 <= Q * V) by nra. assert (P1 : Q * V <= Q ^ 2 * V) by nra. assert (P2 : mu <= Q * mu) by nra.
    assert (Vc : VT 2 (2 * (Q * V + mu)) (@vcross _ FS (qvec q) v) (vcross (qvec q') v')) by (apply VT_cross; [lia|lra|exact Vq|exact Vv]).
    assert (Vt : VT 3 (2 * (Q * V + mu) * 2 + mu) (@vscale _ FS (@vcross _ FS (qvec q) v) (@stwo _ FS)) (vscale (vcross (qvec q') v') stwo)).
    { apply VT_scale; [lia|lra|exact Vc|exact T2]. }
    set (t := @vscale _ FS (@vcross _ FS (qvec q) v) (@stwo _ FS)) in *. set (t' := vscale (vcross (qvec q') v') stwo) in *.
    assert (Et : 2 * (Q * V + mu) * 2 + mu = 4 * (Q * V) + 5 * mu) by ring. rewrite Et in Vt. clear Et.
    assert (Em : (4 * (Q * V) + 5 * mu) * Q = 4 * (Q ^ 2 * V) + 5 * (Q * mu)) by ring.
    assert (V1 : VT 4 (4 * (Q ^ 2 * V) + 5 * (Q * mu) + mu) (@vscale _ FS t (qw q)) (vscale t' (qw q'))).
    { rewrite <- Em. apply VT_scale; [lia|lra|exact Vt|exact Tw]. }
    assert (V2 : VT 5 (2 * (4 * (Q ^ 2 * V) + 5 * (Q * mu) + mu)) (@vcross _ FS (qvec q) t) (vcross (qvec q') t')).
    { rewrite <- Em, (Rmult_comm (4 * _ + _) Q). apply VT_cross; [lia| |exact Vq|exact Vt]. rewrite (Rmult_comm Q), Em. lra. }
    assert (V3' : VT 6 (4 * (Q ^ 2 * V) + 5 * (Q * mu) + mu + 2 * (4 * (Q ^ 2 * V) + 5 * (Q * mu) + mu))
       (@vadd _ FS (@vscale _ FS t (qw q)) (@vcross _ FS (qvec q) t)) (vadd (vscale t' (qw q')) (vcross (qvec q') t'))).
    { apply VT_add; [lia|lra|eapply VT_weak; [exact V1|lia|lra]|exact V2]. }
    assert (E : 12 * Q ^ 2 * V + 15 * Q * mu + 3 * mu + V = 4 * (Q ^ 2 * V) + 5 * (Q * mu) + mu + 2 * (4 * (Q ^ 2 * V) + 5 * (Q * mu) + mu) + V) by ring.
    rewrite E in HB |- *. unfold qrot. fold t t'. apply VT_add; [lia|exact HB|exact V3'|eapply VT_weak; [exact Vv|lia|lra]].
  Qed.

  (** ** quaternions *)
  Lemma sum4_T x1 x2 x3 x4 y1 y2 y3 y4 a1 a2 a3 a4 b1 b2 b3 b4 M (o2 o3 o4 : bool) :
    let op (o : bool) := if o then SFadd prec emax else SFsub prec emax in
    let rop (o : bool) := if o then Rplus else Rminus in
    val x1 a1 -> val x2 a2 -> val x3 a3 -> val x4 a4 -> val y1 b1 -> val y2 b2 -> val y3 b3 -> val y4 b4 ->
    Rabs a1 * Rabs b1 + Rabs a2 * Rabs b2 + Rabs a3 * Rabs b3 + Rabs a4 * Rabs b4 <= M -> M + 4 * mu <= BIG ->
    T 4 (M + 4 * mu) (op o4 (op o3 (op o2 (SFmul prec emax x1 y1) (SFmul prec emax x2 y2)) (SFmul prec emax x3 y3)) (SFmul prec emax x4 y4))
       (rop o4 (rop o3 (rop o2 (a1 * b1) (a2 * b2)) (a3 * b3)) (a4 * b4)).
  Proof.
    intros op rop X1 X2 X3 X4 Y1 Y2 Y3 Y4 HM HB. pose proof mu_small.
    pose proof (Rmult_le_pos _ _ (Rabs_pos a1) (Rabs_pos b1)). pose proof (Rmult_le_pos _ _ (Rabs_pos a2) (Rabs_pos b2)).
    pose proof (Rmult_le_pos _ _ (Rabs_pos a3) (Rabs_pos b3)). pose proof (Rmult_le_pos _ _ (Rabs_pos a4) (Rabs_pos b4)).
    assert (Hop : forall o k m1 m2 x y r s, (k < 16)%nat -> m1 + m2 <= BIG -> T k m1 x r -> T k m2 y s -> T (S k) (m1 + m2) (op o x y) (rop o r s)).
    { intros [] *; [apply T_add|apply T_sub]. }
    assert (Hmul : forall k x y a b, val x a -> val y b -> Rabs a * Rabs b <= BIG -> T (S k) (Rabs a * Rabs b + mu) (SFmul prec emax x y) (a * b)).
    { intros k x y a b Hx Hy Hb. eapply T_weak; [apply (T_mul 0 0); [lia|exact Hb|apply T_val; [exact Hx|lra]|apply T_val; [exact Hy|lra]]|lia|lra]. }
    eapply T_weak; [|apply Nat.le_refl|].
    - apply Hop; [lia| |apply Hop; [lia| |apply Hop; [lia| | |]|]|]; try (apply Hmul; try eassumption; lra); lra.
    - lra.
  Qed.
  Lemma qmul_T x y a b X Y : qval x a -> qval y b -> qlen a <= X -> qlen b <= Y -> X * Y + 4 * mu <= BIG ->
    exists r, qval (@qmul _ FS x y) r /\ qdist r (qmul a b) <= 2 * (((1 + u) ^ 4 - 1) * (X * Y + 4 * mu)).
  Proof.
    intros (Xi & Xj & Xk & Xw) (Yi & Yj & Yk & Yw) HX HY HB.
    assert (HXY : qlen a * qlen b <= X * Y).
    { apply Rmult_le_compat; try assumption; apply n4_pos. }
    pose proof (cauchy4_abs (qw a) (qi a) (qj a) (qk a) (qi b) (qw b) (qk b) (qj b)) as C1.
    pose proof (cauchy4_abs (qw a) (qi a) (qj a) (qk a) (qj b) (qk b) (qw b) (qi b)) as C2.
    pose proof (cauchy4_abs (qw a) (qi a) (qj a) (qk a) (qk b) (qj b) (qi b) (qw b)) as C3.
    pose proof (cauchy4_abs (qw a) (qi a) (qj a) (qk a) (qw b) (qi b) (qj b) (qk b)) as C4.
    assert (Ea : n4 (qw a) (qi a) (qj a) (qk a) = qlen a) by (unfold qlen, n4; f_equal; ring).
    assert (E1 : n4 (qi b) (qw b) (qk b) (qj b) = qlen b) by (unfold qlen, n4; f_equal; ring).
    assert (E2 : n4 (qj b) (qk b) (qw b) (qi b) = qlen b) by (unfold qlen, n4; f_equal; ring).
    assert (E3 : n4 (qk b) (qj b) (qi b) (qw b) = qlen b) by (unfold qlen, n4; f_equal; ring).
    assert (E4 : n4 (qw b) (qi b) (qj b) (qk b) = qlen b) by (unfold qlen, n4; f_equal; ring).
    rewrite Ea, ?E1, ?E2, ?E3, ?E4 in *.
    pose proof (sum4_T _ _ _ _ _ _ _ _ _ _ _ _ _ _ _ _ (X * Y) true true false Xw Xi Xj Xk Yi Yw Yk Yj ltac:(lra) HB) as T1.
    pose proof (sum4_T _ _ _ _ _ _ _ _ _ _ _ _ _ _ _ _ (X * Y) false true true Xw Xi Xj Xk Yj Yk Yw Yi ltac:(lra) HB) as T2.
    pose proof (sum4_T _ _ _ _ _ _ _ _ _ _ _ _ _ _ _ _ (X * Y) true false true Xw Xi Xj Xk Yk Yj Yi Yw ltac:(lra) HB) as T3.
    pose proof (sum4_T _ _ _ _ _ _ _ _ _ _ _ _ _ _ _ _ (X * Y) false false false Xw Xi Xj Xk Yw Yi Yj Yk ltac:(lra) HB) as T4.
    cbv beta iota zeta in *.
    apply T_err in T1 as (r1 & V1 & B1), T2 as (r2 & V2 & B2), T3 as (r3 & V3 & B3), T4 as (r4 & V4 & B4).
    exists (Qt r1 r2 r3 r4). split; [hnf; cbn; auto|]. apply n4_comps; assumption.
  Qed.

  (** ** poses *)
  Notation rho := (32 * u).
  (** [x] is the pose [a], whose offset is at most [l] long, up to a relative error [X - 1] *)
  Definition approx (X l : R) (x : iso spec_float) (a : iso R) : Prop :=
    proper a /\ len (tr a) <= l /\
    exists r, ival x r /\ qdist (rt r) (rt a) <= X - 1 /\ dist (tr r) (tr a) <= (X ^ 8 - 1) * l.
  Lemma approx_weak X l X' l' x a : approx X l x a -> 1 <= X -> X <= X' -> l <= l' -> approx X' l' x a.
  Proof.
    intros (Ha & Hl & r & Hr & Hq & Hd) H1 HX Hl'. split; [exact Ha|]. split; [lra|]. exists r. split; [exact Hr|]. split; [lra|].
    eapply Rle_trans; [exact Hd|]. pose proof (len_nonneg (tr a)). apply Rmult_le_compat; try lra.
    - pose proof (pow_ge_1 X 8 H1). lra.
    - pose proof (pow_incr X X' 8 ltac:(lra)). lra.
  Qed.
  Lemma u8 : (1 + u) ^ 8 - 1 <= 9 * u.
  Proof.
    pose proof u_small as [H0 H1]. assert (E : (1 + u) ^ 8 - 1 = u * (8 + u * (28 + u * (56 + u * (70 + u * (56 + u * (28 + u * (8 + u)))))))) by ring.
    rewrite E, (Rmult_comm 9). apply Rmult_le_compat_l; [lra|].
    assert (forall y, 0 <= y <= 100 -> 0 <= u * y <= 1) as F by (intros; split; nra).
    pose proof (F (8 + u) ltac:(lra)). pose proof (F (28 + u * (8 + u)) ltac:(lra)).
    pose proof (F (56 + u * (28 + u * (8 + u))) ltac:(lra)).
    pose proof (F (70 + u * (56 + u * (28 + u * (8 + u)))) ltac:(lra)).
    pose proof (F (56 + u * (70 + u * (56 + u * (28 + u * (8 + u))))) ltac:(lra)).
    pose proof (F (28 + u * (56 + u * (70 + u * (56 + u * (28 + u * (8 + u)))))) ltac:(lra)). lra.
  Qed.
  Lemma approx_mul X Y l s x y a b : 1 <= X -> 1 <= Y -> 32 * mu <= s ->
    approx X l x a -> approx Y s y b -> 15 * (X * Y) ^ 8 * (l + s + 1) <= BIG ->
    approx (X * Y * (1 + rho)) (l + s) (@iso_mul _ FS x y) (iso_mul a b).
  Proof.
    intros HX HY Hs (Pa & La & a' & (Ta & Qa) & Ea & Da) (Pb & Lb & b' & (Tb & Qb) & Eb & Db) HB.
    pose proof u_small as [U0 U1]. pose proof mu_small as [M0 M1].
    pose proof (len_nonneg (tr a)) as La0. pose proof (len_nonneg (tr b)) as Lb0.
    pose proof (pow_ge_1 X 8 HX) as X8. pose proof (pow_ge_1 Y 8 HY) as Y8. pose proof (pow_ge_1 X 6 HX) as X6.
    assert (HXY : 1 <= X * Y) by nra. pose proof (pow_ge_1 (X * Y) 7 HXY) as XY7.
    pose proof (Rpow_mult_distr X Y 8) as EXY. set (W := (X * Y) ^ 8) in *.
    assert (HW : 1 <= W) by (rewrite EXY; nra).
    assert (WXY : X * Y <= W) by (unfold W; replace ((X * Y) ^ 8) with (X * Y * (X * Y) ^ 7) by ring; nra).
    assert (WX : X ^ 8 <= W) by (rewrite EXY; nra).
    assert (WX1 : X <= X ^ 8) by (replace (X ^ 8) with (X * X ^ 7) by ring; pose proof (pow_ge_1 X 7 HX); nra).
    assert (qa : qlen (rt a') <= X) by (replace X with (1 + (X - 1)) by ring; eapply qlen_near; [exact Pa|exact Ea]).
    assert (qb : qlen (rt b') <= Y) by (replace Y with (1 + (Y - 1)) by ring; eapply qlen_near; [exact Pb|exact Eb]).
    assert (ta : len (tr a') <= X ^ 8 * l) by (pose proof (len_near (tr a') (tr a)); lra).
    assert (tb : len (tr b') <= Y ^ 8 * s) by (pose proof (len_near (tr b') (tr b)); lra).
    assert (WL : X ^ 8 * l <= W * l) by (apply Rmult_le_compat_r; lra).
    assert (WYs : Y ^ 8 * s <= W * s) by (rewrite EXY; apply Rmult_le_compat_r; nra).
    assert (WXYs : X ^ 2 * (Y ^ 8 * s) <= W * s).
    { rewrite EXY. replace (X ^ 8 * Y ^ 8 * s) with (X ^ 6 * (X ^ 2 * (Y ^ 8 * s))) by ring.
      assert (0 <= X ^ 2 * (Y ^ 8 * s)) by (apply Rmult_le_pos; [apply pow2_ge_0|apply Rmult_le_pos; lra]).
      rewrite <- (Rmult_1_l (X ^ 2 * _)) at 1. apply Rmult_le_compat_r; lra. }
    assert (WXmu : X * (32 * mu) <= W * s) by (apply Rmult_le_compat; lra).
    assert (Wl : 0 <= W * l) by (apply Rmult_le_pos; lra). assert (Ws : 0 <= W * s) by (apply Rmult_le_pos; lra).
    assert (mu1 : 1 * mu <= X * mu) by (apply Rmult_le_compat_r; lra).
    assert (HB' : 15 * (W * l) + 15 * (W * s) + 15 * W <= BIG) by lra.
    split; [apply proper_mul; assumption|]. split.
    { cbn [tr iso_mul]. change (vadd (tr a) (qrot (rt a) (tr b))) with (plus (tr a) (qrot (rt a) (tr b))).
      eapply Rle_trans; [apply len_plus|]. rewrite qrot_turn, len_turn by exact Pa. lra. }
    destruct (qmul_T _ _ _ _ X Y Qa Qb qa qb) as (rq & Vq & Dq); [lra|].
    assert (VR : VT 7 (12 * X ^ 2 * (Y ^ 8 * s) + 15 * X * mu + 3 * mu + Y ^ 8 * s) (@qrot _ FS (rt x) (tr y)) (qrot (rt a') (tr b'))).
    { apply qrot_T; try assumption. lra. }
    assert (VS : VT 8 (X ^ 8 * l + (12 * X ^ 2 * (Y ^ 8 * s) + 15 * X * mu + 3 * mu + Y ^ 8 * s)) (tr (@iso_mul _ FS x y)) (vadd (tr a') (qrot (rt a') (tr b')))).
    { apply VT_add; [lia|lra| |exact VR]. eapply VT_weak; [apply VT_val, Ta|lia|exact ta]. }
    apply VT_err in VS as (rv & Vv & Dv).
    exists (Iso rv rq). split; [split; assumption|]. cbn [tr rt iso_mul]. split.
    - pose proof (qdist_tri rq (qmul (rt a') (rt b')) (qmul (rt a) (rt b))) as Ht.
      pose proof (qmul_diff (rt a') (rt b') (rt a) (rt b)) as Hd. rewrite (qlen_unit (rt a) Pa) in Hd.
      assert (qdist (rt a') (rt a) * qlen (rt b') <= (X - 1) * Y).
      { apply Rmult_le_compat; try assumption; [apply qdist_pos|apply n4_pos]. }
      assert ((1 + u) ^ 4 - 1 <= (1 + u) ^ 8 - 1) by (pose proof (pow_mono (1 + u) 4 8 ltac:(lra) ltac:(lia)); lra).
      pose proof u8. pose proof (pow_ge_1 (1 + u) 4 ltac:(lra)).
      assert (((1 + u) ^ 4 - 1) * (X * Y + 4 * mu) <= 9 * u * (X * Y * (5 / 4))) by (apply Rmult_le_compat; lra). assert (0 <= u * (X * Y)) by (apply Rmult_le_pos; lra). lra.
    - change (vadd (tr a) (qrot (rt a) (tr b))) with (plus (tr a) (qrot (rt a) (tr b))).
      change (vadd (tr a') (qrot (rt a') (tr b'))) with (plus (tr a') (qrot (rt a') (tr b'))) in Dv.
      pose proof (dist_tri rv (plus (tr a') (qrot (rt a') (tr b'))) (plus (tr a) (qrot (rt a) (tr b)))) as H1.
      assert (H2 : dist (plus (tr a') (qrot (rt a') (tr b'))) (plus (tr a) (qrot (rt a) (tr b))) <=
        dist (tr a') (tr a) + (dist (qrot (rt a') (tr b')) (qrot (rt a) (tr b')) + dist (tr b') (tr b))).
      { unfold dist. rewrite <- (len_turn (rt a) (minus (tr b') (tr b)) Pa), turn_minus, !qrot_turn.
        eapply Rle_trans; [|apply Rplus_le_compat_l, len_plus]. eapply Rle_trans; [|apply len_plus]. right. f_equal.
        apply V3_eq; cbn [plus minus vx vy vz]; ring. }
      pose proof (qrot_diff (rt a) (rt a') (tr b') (X - 1) Pa Ea) as H3. replace (1 + (X - 1)) with X in H3 by ring.
      pose proof (pow8_sq X HX) as H4.
      assert (H5 : 4 * (X ^ 2 - 1) * len (tr b') <= (X ^ 8 - 1) * (Y ^ 8 * s)).
      { apply Rmult_le_compat; try lra; [pose proof (pow_ge_1 X 2 HX); lra|apply len_nonneg]. }
      assert (H6 : dist rv (plus (tr a') (qrot (rt a') (tr b'))) <= 2 * (9 * u * (14 * (W * (l + s))))).
      { eapply Rle_trans; [exact Dv|]. apply Rmult_le_compat_l; [lra|]. pose proof u8. pose proof (pow_ge_1 (1 + u) 8 ltac:(lra)).
        apply Rmult_le_compat; try lra.
        assert (0 <= X ^ 2 * (Y ^ 8 * s)) by (apply Rmult_le_pos; [apply pow2_ge_0|apply Rmult_le_pos; lra]).
        assert (0 <= X ^ 8 * l) by (apply Rmult_le_pos; lra). assert (0 <= Y ^ 8 * s) by (apply Rmult_le_pos; lra). lra. }
      assert (H7 : W * (1 + 252 * u) <= (X * Y * (1 + rho)) ^ 8).
      { rewrite (Rpow_mult_distr (X * Y)). fold W. apply Rmult_le_compat_l; [lra|].
        pose proof (bernoulli rho 8 ltac:(lra)) as Hb. cbn [INR] in Hb. lra. }
      assert (H8 : (W * (1 + 252 * u)) * (l + s) <= (X * Y * (1 + rho)) ^ 8 * (l + s)) by (apply Rmult_le_compat_r; lra).
      assert (H9 : W * s = X ^ 8 * (Y ^ 8 * s)) by (rewrite EXY; ring).
      lra.
  Qed.
End Acc.
