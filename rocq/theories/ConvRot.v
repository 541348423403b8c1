(** * Angles of rotations, over the reals *)
From Coq Require Import Reals Lra Psatz Nsatz.
From stdpp Require Import gmap.
From Verif Require Import Scalar ScalarR Geometry SpecGeom RGeom PoseDiff.
From Verif Require ReachProofs.
From Verif Require Import ConvGeom.
Local Open Scope R_scope.

Definition ang (q : quat R) : R := len (qscaled_axis q).
Definition trace (f : vec3 R -> vec3 R) : R := vx (f (V3 1 0 0)) + vy (f (V3 0 1 0)) + vz (f (V3 0 0 1)).
Lemma trace_turn q : unit_quat q -> trace (turn q) = 4 * (qw q * qw q) - 1.
Proof. intros H. destruct q as [i j k w]. unfold unit_quat, trace, turn in *. cbn in *. lra. Qed.
Lemma trace_rotate a p : unit_axis a -> trace (rotate a p) = 1 + 2 * cos p.
Proof.
  intros H. destruct a as [a b c]. unfold unit_axis, trace, rotate, inner in *. cbn in *.
  transitivity (3 * cos p + (1 - cos p) * (a * a + b * b + c * c)); [ring|]. rewrite H. ring.
Qed.
Lemma cos_half_sqr p : 1 + cos p = 2 * (cos (p / 2) * cos (p / 2)).
Proof. rewrite half_cos. pose proof (sc1 (p / 2)). lra. Qed.
Lemma half_cos_nonneg p : 0 <= p <= PI -> 0 <= cos (p / 2).
Proof. intros [H1 H2]. apply cos_ge_0; lra. Qed.
Lemma abs_of_sqr x y : 0 <= y -> x * x = y * y -> Rabs x = y.
Proof. intros Hy E. rewrite <- (Rabs_pos_eq y Hy). apply Rsqr_eq_abs_0. exact E. Qed.
Lemma turn_as_rotate q a p : unit_quat q -> unit_axis a -> 0 <= p <= PI -> (forall x, turn q x = rotate a p x) -> Rabs (qw q) = cos (p / 2).
Proof.
  intros Hq Ha Hp E. apply abs_of_sqr; [apply half_cos_nonneg, Hp|].
  assert (trace (turn q) = trace (rotate a p)) as Et by (unfold trace; rewrite !E; reflexivity).
  rewrite trace_turn, trace_rotate in Et by assumption. pose proof (cos_half_sqr p). lra.
Qed.
Lemma ang_range q : unit_quat q -> 0 <= ang q <= PI.
Proof. intros H. split; [apply len_nonneg|apply scaled_axis_len, H]. Qed.
Lemma cos_ang q : unit_quat q -> cos (ang q / 2) = Rabs (qw q).
Proof.
  intros Hq. unfold ang. destruct (scaled_axis_cases q Hq) as [[Hv ->]|(a & th & Ha & [Ht Hp] & -> & Hx)].
  - rewrite ReachProofs.len_0. replace (0 / 2) with 0 by field. rewrite cos_0. symmetry. apply abs_of_sqr; [lra|].
    destruct q as [i j k w]. unfold qvec, unit_quat in *. cbn in *. injection Hv as -> -> ->. lra.
  - rewrite ReachProofs.len_times, (ReachProofs.len_unit a Ha), Rmult_1_r, Rabs_pos_eq by lra. symmetry. apply (turn_as_rotate q a th); [assumption..|lra|assumption].
Qed.
Lemma ang_le q p : unit_quat q -> 0 <= p <= 2 * PI -> cos (p / 2) <= Rabs (qw q) -> ang q <= p.
Proof.
  intros Hq Hp Hc. rewrite <- cos_ang in Hc by exact Hq. destruct (ang_range q Hq) as [H1 H2].
  destruct (Rle_dec (ang q) p) as [|Hn]; [assumption|exfalso].
  assert (cos (ang q / 2) < cos (p / 2)); [|lra]. apply cos_decreasing_1; lra.
Qed.
Lemma ang_rotate q a p : unit_quat q -> unit_axis a -> 0 <= p <= PI -> (forall x, turn q x = rotate a p x) -> ang q <= p.
Proof. intros Hq Ha Hp E. apply ang_le; [exact Hq|pose proof PI_RGT_0; lra|]. rewrite (turn_as_rotate q a p); [lra|assumption..]. Qed.

(** the angle of a product *)
Lemma qvec_sin q : unit_quat q -> len (qvec q) = sin (ang q / 2).
Proof.
  intros Hq. destruct (ang_range q Hq) as [H1 H2]. assert (Hs : 0 <= sin (ang q / 2)) by (apply sin_ge_0; lra).
  rewrite <- (Rabs_pos_eq (len (qvec q))) by apply len_nonneg. apply abs_of_sqr; [exact Hs|]. rewrite len_sqr.
  pose proof (sc1 (ang q / 2)) as E. rewrite cos_ang, <- Rabs_mult, Rabs_pos_eq in E by (exact Hq || apply Rle_0_sqr).
  destruct q as [i j k w]. unfold unit_quat, qvec, inner in *. cbn in *. lra.
Qed.
Lemma ang_mul p q : unit_quat p -> unit_quat q -> ang (qmul p q) <= ang p + ang q.
Proof.
  intros Hp Hq. destruct (ang_range p Hp) as [P1 P2]. destruct (ang_range q Hq) as [Q1 Q2].
  apply ang_le; [apply unit_qmul; assumption|lra|].
  replace ((ang p + ang q) / 2) with (ang p / 2 + ang q / 2) by field.
  rewrite cos_plus, !cos_ang, <- !qvec_sin by assumption.
  assert (E : qw (qmul p q) = qw p * qw q - inner (qvec p) (qvec q)) by (destruct p, q; unfold qvec, inner; cbn; ring).
  rewrite E. pose proof (Rabs_triang_inv (qw p * qw q) (inner (qvec p) (qvec q))) as H. rewrite Rabs_mult in H.
  assert (Hi : Rabs (inner (qvec p) (qvec q)) <= len (qvec p) * len (qvec q)); [|lra].
  apply Rabs_le. split; [|apply ReachProofs.inner_le_len].
  pose proof (ReachProofs.inner_le_len (qvec p) (times (-1) (qvec q))) as H2. rewrite ReachProofs.len_times in H2.
  replace (Rabs (-1)) with 1 in H2 by (rewrite Rabs_left; lra).
  assert (inner (qvec p) (times (-1) (qvec q)) = - inner (qvec p) (qvec q)) as E2 by (destruct (qvec p), (qvec q); unfold inner; cbn; ring). lra.
Qed.

(** a rotation that moves no vector far is by a small angle *)
Lemma sin_low x : 0 <= x <= 1 -> 5 / 6 * x <= sin x.
Proof.
  intros [H0 H1]. pose proof PI2_1 as HP. pose proof (SIN x H0 ltac:(pose proof PI_RGT_0; lra)) as [HS _].
  unfold sin_lb, sin_approx, sin_term in HS. simpl in HS.
  assert (H : x - x * x * x / 6 + x * x * x * x * x / 120 - x * x * x * x * x * x * x / 5040 <= sin x) by lra. clear HS.
  assert (Hu : 0 <= x * x <= 1) by nra.
  assert (H2 : x * (1 - x * x / 6 + x * x * (x * x) / 120 - x * x * (x * x) * (x * x) / 5040) <= sin x) by lra. clear H.
  set (u := x * x) in *. clearbody u. assert (0 <= u * u / 120 - u * u * u / 5040) by nra. nra.
Qed.
Lemma sin_half_low t : 0 <= t <= PI / 2 -> t / 2 <= sin t.
Proof.
  intros [H0 H1]. pose proof PI_4 as HP. rewrite half_sin.
  pose proof (sin_low (t / 2) ltac:(lra)) as Hs.
  assert (Hc : 7 / 10 <= cos (t / 2)).
  { assert (Hle : cos (PI / 4) <= cos (t / 2)).
    { destruct (Req_dec (t / 2) (PI / 4)) as [-> |]; [lra|]. left. apply cos_decreasing_1; lra. }
    eapply Rle_trans; [|exact Hle]. rewrite cos_PI4. pose proof (R_sqrt.sqrt_lt_R0 2 ltac:(lra)) as Hp. pose proof (R_sqrt.sqrt_sqrt 2 ltac:(lra)) as Hq.
    set (r := R_sqrt.sqrt 2) in *. assert (r <= 10 / 7) by nra. apply (Rmult_le_reg_r r); [lra|]. field_simplify; [|lra]. lra. }
  nra.
Qed.
Lemma chord_trace q : unit_quat q -> forall c, 0 <= c -> (forall x, len (minus (turn q x) x) <= c * len x) -> 8 * (len (qvec q) * len (qvec q)) <= 3 * (c * c).
Proof.
  intros Hq c Hc H.
  assert (Hb : forall x, unit_axis x -> inner (minus (turn q x) x) (minus (turn q x) x) <= c * c).
  { intros x Hx. specialize (H x). rewrite (ReachProofs.len_unit x Hx), Rmult_1_r in H. rewrite <- len_sqr.
    pose proof (len_nonneg (minus (turn q x) x)). nra. }
  pose proof (Hb (V3 1 0 0) ltac:(unfold unit_axis; cbn; ring)) as H1.
  pose proof (Hb (V3 0 1 0) ltac:(unfold unit_axis; cbn; ring)) as H2.
  pose proof (Hb (V3 0 0 1) ltac:(unfold unit_axis; cbn; ring)) as H3. rewrite len_sqr. clear H Hb.
  assert (E : forall x, unit_axis x -> inner (minus (turn q x) x) (minus (turn q x) x) = 2 - 2 * inner x (turn q x)).
  { intros x Hx. pose proof (inner_turn q x x Hq) as Et. change (inner x x = 1) in Hx.
    transitivity (inner (turn q x) (turn q x) - 2 * inner x (turn q x) + inner x x); [generalize (turn q x); intros []; destruct x; unfold inner; cbn; ring|].
    rewrite Et, Hx. ring. }
  rewrite !E in * by (unfold unit_axis; cbn; ring). clear E.
  pose proof (trace_turn q Hq) as Ht. unfold trace in Ht.
  destruct q as [i j k w]. unfold unit_quat, turn, qvec, inner in *. cbn in *. nra.
Qed.
Lemma ang_chord q c : unit_quat q -> 0 <= c -> (forall x, len (minus (turn q x) x) <= c * len x) -> ang q <= 5 / 2 * c.
Proof.
  intros Hq Hc H. pose proof (chord_trace q Hq c Hc H) as H1. rewrite qvec_sin in H1 by exact Hq.
  destruct (ang_range q Hq) as [A1 A2]. pose proof (sin_half_low (ang q / 2) ltac:(lra)) as H2.
  set (s := sin (ang q / 2)) in *. assert (0 <= s) by lra.
  assert (ang q <= 4 * s) by lra. assert (s <= 5 / 8 * c); [|lra]. destruct (Rle_dec s (5 / 8 * c)); [assumption|]. nra.
Qed.

(** one Newton step of the rotation *)
Lemma rotation_step T Q Q' (m : R) (S : R) : unit_quat T -> unit_quat Q -> unit_quat Q' -> 0 <= m <= 1 -> 0 <= S ->
  let e := qscaled_axis (qmul T (qconj Q)) in
  m * len e <= S ->
  (forall v, len (minus (minus (turn Q' v) (turn Q v)) (cross (times m e) (turn Q v))) <= / 2 * (S * S) * len v) ->
  len (qscaled_axis (qmul T (qconj Q'))) <= (1 - m) * len e + 5 / 2 * (S * S).
Proof.
  intros HT HQ HQ' Hm HS e Hme Hv.
  assert (HU : unit_quat (qmul T (qconj Q))) by (apply unit_qmul; [|apply unit_qconj]; assumption).
  assert (Hax : exists a th, unit_axis a /\ 0 <= th <= PI /\ e = times th a /\ len e = th /\ forall x, turn (qmul T (qconj Q)) x = rotate a th x).
  { destruct (scaled_axis_cases _ HU) as [[Hv0 E]|(a & th & Ha & [Ht Hp] & E & Hx)].
    - exists (V3 1 0 0), 0. split; [unfold unit_axis; cbn; ring|]. split; [pose proof PI_RGT_0; lra|]. unfold e. rewrite E.
      split; [gv; ring|]. split; [apply ReachProofs.len_0|]. intros x. rewrite rotate_0. apply scaled_axis_zero; assumption.
    - exists a, th. split; [exact Ha|]. split; [lra|]. split; [exact E|]. split; [|exact Hx].
      unfold e. rewrite E, ReachProofs.len_times, (ReachProofs.len_unit a Ha), Rabs_pos_eq by lra. ring. }
  destruct Hax as (a & th & Ha & Hth & Ee & Hlen & Hx). clearbody e.
  set (D := qaxis_angle a (m * th)). assert (HD : unit_quat D) by (apply unit_axis_angle, Ha).
  set (E1 := qmul (qmul T (qconj Q)) (qconj D)). set (E2 := qmul D (qmul Q (qconj Q'))).
  assert (HE1 : unit_quat E1) by (apply unit_qmul; [exact HU|apply unit_qconj, HD]).
  assert (HE2 : unit_quat E2) by (apply unit_qmul; [exact HD|apply unit_qmul; [exact HQ|apply unit_qconj, HQ']]).
  assert (E : qmul T (qconj Q') = qmul E1 E2).
  { unfold E1, E2. rewrite <- !qmul_assoc. f_equal. rewrite (qmul_assoc (qconj D)), qmul_conj_l, qmul_1_l by exact HD.
    rewrite (qmul_assoc (qconj Q)), qmul_conj_l, qmul_1_l by exact HQ. reflexivity. }
  rewrite E. change (ang (qmul E1 E2) <= (1 - m) * len e + 5 / 2 * (S * S)). rewrite Hlen in *.
  eapply Rle_trans; [apply ang_mul; assumption|]. apply Rplus_le_compat.
  - apply (ang_rotate E1 a); [exact HE1|exact Ha|split; nra|]. intros x. unfold E1. rewrite turn_mul, Hx by (exact HU || apply unit_qconj, HD).
    replace ((1 - m) * th) with (th + - (m * th)) by ring. rewrite rotate_add by exact Ha. f_equal.
    rewrite <- (rotate_0 a (turn (qconj D) x)). replace 0 with (- (m * th) + m * th) by ring. rewrite rotate_add by exact Ha. f_equal.
    rewrite <- turn_axis_angle by exact Ha. fold D. rewrite <- turn_mul by (first [exact HD|apply unit_qconj, HD]).
    rewrite qmul_conj_r by exact HD. apply turn_q1.
  - apply ang_chord; [exact HE2|nra|]. intros x. set (z := turn (qconj Q') x).
    assert (Ez : x = turn Q' z).
    { unfold z. symmetry. rewrite <- turn_mul by (first [exact HQ'|apply unit_qconj, HQ']). rewrite qmul_conj_r by exact HQ'. apply turn_q1. }
    assert (Hz : len z = len x) by (apply len_turn, unit_qconj, HQ').
    unfold E2. rewrite turn_mul by (first [exact HD|apply unit_qmul; [exact HQ|apply unit_qconj, HQ']]).
    rewrite turn_mul by (first [exact HQ|apply unit_qconj, HQ']). fold z. rewrite <- Hz. rewrite Ez at 1. unfold D. rewrite turn_axis_angle by exact Ha.
    specialize (Hv z). set (f := turn Q z) in *. assert (Hf : len f = len z) by (apply len_turn, HQ).
    pose proof (rotate_second a (m * th) f Ha) as H2.
    assert (Ec : cross (times m e) f = times (m * th) (cross a f)) by (rewrite Ee; destruct a, f; gv; ring). rewrite Ec in Hv.
    set (g := turn Q' z) in *. set (c := times (m * th) (cross a f)) in *. set (k := rotate a (m * th) f) in *.
    assert (Eg : minus k g = minus (minus (minus k f) c) (minus (minus g f) c)) by (destruct k, g, f, c; gv; ring).
    rewrite Eg. pose proof (ReachProofs.len_minus_tri (minus (minus k f) c) (V3 0 0 0) (minus (minus g f) c)) as H3.
    rewrite (ReachProofs.len_minus_sym (V3 0 0 0)) in H3.
    assert (H0 : forall y, minus y (V3 0 0 0) = y) by (intros []; gv; ring). rewrite !H0 in H3.
    pose proof (len_nonneg z). rewrite Hf in H2. set (p := m * th) in *. assert (0 <= p) by (unfold p; nra).
    assert (p * p / 2 * len z <= / 2 * (S * S) * len z) by (apply Rmult_le_compat_r; nra). lra.
Qed.
