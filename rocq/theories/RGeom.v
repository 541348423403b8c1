(** * Quaternion algebra over the reals *)
From Coq Require Import Reals Lra Psatz Nsatz List QArith.
From Verif Require Import Scalar ScalarR Geometry SpecGeom.
Local Open Scope R_scope.

Lemma V3_eq {T} (a b : vec3 T) : vx a = vx b -> vy a = vy b -> vz a = vz b -> a = b.
Proof. destruct a, b; simpl; congruence. Qed.
Lemma Qt_eq {T} (a b : quat T) : qi a = qi b -> qj a = qj b -> qk a = qk b -> qw a = qw b -> a = b.
Proof. destruct a, b; simpl; congruence. Qed.
Lemma Iso_eq {T} (a b : iso T) : tr a = tr b -> rt a = rt b -> a = b.
Proof. destruct a, b; simpl; congruence. Qed.
Lemma stwo_R : @stwo R RScalar = 2.
Proof. reflexivity. Qed.

Ltac un := cbv [vadd vsub vneg vscale vdivs vdot vcross qmul qconj qrot qvec iso_mul iso_mul_tr iso_act q1 v0 iso1
  inner minus plus times cross turn move rotate unit_axis unit_quat proper stwo
  sadd ssub smul sneg sdiv szero sone RScalar vx vy vz qi qj qk qw tr rt].
Ltac gv := apply V3_eq; un.
Ltac gq := apply Qt_eq; un.

Lemma qrot_turn q v : qrot q v = turn q v.
Proof. destruct q, v. gv; ring. Qed.
(** homogeneous form: equals [turn] on unit quaternions *)
Definition hturn (q : quat R) (v : vec3 R) : vec3 R :=
  let n := qw q * qw q - (qi q * qi q + qj q * qj q + qk q * qk q) in
  plus (times n v) (plus (times (2 * inner (qvec q) v) (qvec q)) (times (2 * qw q) (cross (qvec q) v))).
Definition qn2 (q : quat R) : R := qi q * qi q + qj q * qj q + qk q * qk q + qw q * qw q.
Lemma turn_hturn q v : unit_quat q -> turn q v = hturn q v.
Proof.
  destruct q as [i j k w], v as [x y z]. unfold unit_quat. simpl. intros H.
  unfold hturn. gv; nsatz.
Qed.
Lemma hturn_mul a b v : hturn (qmul a b) v = hturn a (hturn b v).
Proof. destruct a, b, v. unfold hturn. gv; ring. Qed.
Lemma qn2_mul a b : qn2 (qmul a b) = qn2 a * qn2 b.
Proof. destruct a, b. unfold qn2; simpl. ring. Qed.
Lemma unit_qmul a b : unit_quat a -> unit_quat b -> unit_quat (qmul a b).
Proof. intros Ha Hb. change (qn2 (qmul a b) = 1). rewrite qn2_mul. change (qn2 a = 1) in Ha. change (qn2 b = 1) in Hb. rewrite Ha, Hb. ring. Qed.
Lemma unit_qconj a : unit_quat a -> unit_quat (qconj a).
Proof. destruct a. unfold unit_quat; simpl. intros <-. ring. Qed.
Lemma unit_q1 : unit_quat q1.
Proof. unfold unit_quat; simpl. ring. Qed.
Lemma turn_mul a b v : unit_quat a -> unit_quat b -> turn (qmul a b) v = turn a (turn b v).
Proof. intros Ha Hb. rewrite !turn_hturn by auto using unit_qmul. apply hturn_mul. Qed.
Lemma turn_q1 v : turn q1 v = v.
Proof. destruct v. gv; ring. Qed.
Lemma turn_plus q a b : turn q (plus a b) = plus (turn q a) (turn q b).
Proof. destruct q, a, b. gv; ring. Qed.
Lemma turn_minus q a b : turn q (minus a b) = minus (turn q a) (turn q b).
Proof. destruct q, a, b. gv; ring. Qed.
Lemma turn_times q s a : turn q (times s a) = times s (turn q a).
Proof. destruct q, a. gv; ring. Qed.
Lemma inner_hturn q a b : inner (hturn q a) (hturn q b) = qn2 q * qn2 q * inner a b.
Proof. destruct q, a, b. unfold qn2, hturn; un; ring. Qed.
Lemma inner_turn q a b : unit_quat q -> inner (turn q a) (turn q b) = inner a b.
Proof. intros H. rewrite !turn_hturn by auto. rewrite inner_hturn. change (qn2 q = 1) in H. rewrite H. ring. Qed.
Lemma cross_hturn q a b : cross (hturn q a) (hturn q b) = times (qn2 q) (hturn q (cross a b)).
Proof. destruct q, a, b. unfold qn2, hturn. gv; ring. Qed.
Lemma cross_turn q a b : unit_quat q -> cross (turn q a) (turn q b) = turn q (cross a b).
Proof.
  intros H. rewrite !turn_hturn by auto. rewrite cross_hturn. change (qn2 q = 1) in H. rewrite H.
  gv; ring.
Qed.
Lemma turn_conj q v : unit_quat q -> turn (qconj q) (turn q v) = v.
Proof.
  intros H. rewrite <- turn_mul by auto using unit_qconj.
  assert (qmul (qconj q) q = q1) as ->; [|apply turn_q1].
  destruct q; unfold unit_quat in H; simpl in *. gq; rewrite <- ?H; ring.
Qed.
Lemma qmul_conj_r q : unit_quat q -> qmul q (qconj q) = q1.
Proof. intros H. destruct q; unfold unit_quat in H; simpl in *. gq; rewrite <- ?H; ring. Qed.
Lemma qmul_conj_l q : unit_quat q -> qmul (qconj q) q = q1.
Proof. intros H. destruct q; unfold unit_quat in H; simpl in *. gq; rewrite <- ?H; ring. Qed.
Lemma qmul_assoc (a b c : quat R) : qmul a (qmul b c) = qmul (qmul a b) c.
Proof. destruct a, b, c. gq; ring. Qed.
Lemma qmul_1_l (a : quat R) : qmul q1 a = a.
Proof. destruct a. gq; ring. Qed.
Lemma qmul_1_r (a : quat R) : qmul a q1 = a.
Proof. destruct a. gq; ring. Qed.
Lemma qrot_q1 (v : vec3 R) : qrot q1 v = v.
Proof. rewrite qrot_turn. apply turn_q1. Qed.

Lemma vadd_plus (a b : vec3 R) : vadd a b = plus a b.
Proof. reflexivity. Qed.
Lemma vsub_minus (a b : vec3 R) : vsub a b = minus a b.
Proof. reflexivity. Qed.
Lemma vcross_cross (a b : vec3 R) : vcross a b = cross a b.
Proof. reflexivity. Qed.
Lemma vscale_times (a : vec3 R) s : vscale a s = times s a.
Proof. gv; ring. Qed.
Lemma vdot_inner (a b : vec3 R) : vdot a b = inner a b.
Proof. reflexivity. Qed.
Lemma vnorm_len (a : vec3 R) : vnorm a = len a.
Proof. reflexivity. Qed.
Lemma inner_nonneg a : 0 <= inner a a.
Proof. unfold inner. nra. Qed.
Lemma len_nonneg a : 0 <= len a.
Proof. apply sqrt_pos. Qed.
Lemma len_sqr a : len a * len a = inner a a.
Proof. apply sqrt_sqrt, inner_nonneg. Qed.
Lemma len_turn q a : unit_quat q -> len (turn q a) = len a.
Proof. intros H. unfold len. rewrite inner_turn by auto. reflexivity. Qed.

(** isometries *)
Lemma iso_mul_tr_eq (a b : iso R) : tr (iso_mul a b) = plus (tr a) (turn (rt a) (tr b)).
Proof. simpl. rewrite qrot_turn, vadd_plus. reflexivity. Qed.
Lemma iso_mul_move a b x : proper a -> proper b -> move (iso_mul a b) x = move a (move b x).
Proof.
  intros Ha Hb. unfold move. rewrite iso_mul_tr_eq. change (rt (iso_mul a b)) with (qmul (rt a) (rt b)).
  rewrite turn_mul, turn_plus by auto. gv; ring.
Qed.
Lemma proper_mul a b : proper a -> proper b -> proper (iso_mul a b).
Proof. apply unit_qmul. Qed.
Lemma proper_1 : proper iso1.
Proof. apply unit_q1. Qed.
Lemma iso_mul_1_r (a : iso R) : iso_mul a iso1 = a.
Proof. apply Iso_eq; [rewrite iso_mul_tr_eq; destruct a as [[] []]; gv; ring|apply qmul_1_r]. Qed.
Lemma iso_mul_1_l (a : iso R) : iso_mul iso1 a = a.
Proof. apply Iso_eq; [rewrite iso_mul_tr_eq; destruct a as [[] []]; gv; ring|apply qmul_1_l]. Qed.
Lemma qrot_mul (a b : quat R) v : unit_quat a -> unit_quat b -> turn (qmul a b) v = turn a (turn b v).
Proof. apply turn_mul. Qed.
Lemma iso_mul_assoc (a b c : iso R) : proper a -> proper b ->
  iso_mul a (iso_mul b c) = iso_mul (iso_mul a b) c.
Proof.
  intros Ha Hb. apply Iso_eq; [|apply qmul_assoc]. rewrite !iso_mul_tr_eq.
  change (rt (iso_mul a b)) with (qmul (rt a) (rt b)). rewrite turn_mul, turn_plus by auto. gv; ring.
Qed.
Lemma move_minus m x y : minus (move m x) (move m y) = turn (rt m) (minus x y).
Proof. rewrite turn_minus. unfold move. gv; ring. Qed.
Lemma proper_rigid m : proper m -> rigid (move m).
Proof.
  intros H. split.
  - intros x y. unfold dist. rewrite move_minus. apply len_turn, H.
  - intros o x y. rewrite !move_minus, cross_turn by exact H. f_equal.
    rewrite <- (turn_q1 (cross (minus x o) (minus y o))). destruct x, y, o; gv; ring.
Qed.

(** axis-angle *)
Lemma half_cos p : cos p = 1 - 2 * (sin (p / 2) * sin (p / 2)).
Proof.
  replace p with (2 * (p / 2)) at 1 by field. rewrite cos_2a.
  generalize (sin2_cos2 (p / 2)); unfold Rsqr; intros; nra.
Qed.
Lemma half_sin p : sin p = 2 * (sin (p / 2) * cos (p / 2)).
Proof. replace p with (2 * (p / 2)) at 1 by field. rewrite sin_2a. ring. Qed.
Lemma sc1 p : sin p * sin p + cos p * cos p = 1.
Proof. generalize (sin2_cos2 p); unfold Rsqr; auto. Qed.
Lemma unit_axis_angle a p : unit_axis a -> unit_quat (qaxis_angle a p).
Proof.
  intros H. destruct a as [x y z]. unfold unit_axis, unit_quat, qaxis_angle in *. rewrite !stwo_R. simpl in *.
  pose proof (sc1 (p / 2)) as E. set (s := sin (p / 2)) in *. set (c := cos (p / 2)) in *. clearbody s c. nsatz.
Qed.
Lemma turn_axis_angle a p v : unit_axis a -> turn (qaxis_angle a p) v = rotate a p v.
Proof.
  intros H. destruct a as [x y z], v as [u v w]. unfold unit_axis, qaxis_angle, rotate in *. rewrite !stwo_R. simpl in *.
  unfold inner; simpl. rewrite (half_cos p), (half_sin p).
  pose proof (sc1 (p / 2)) as E. set (s := sin (p / 2)) in *. set (c := cos (p / 2)) in *. clearbody s c.
  unfold turn; simpl. gv; nsatz.
Qed.
Lemma rotate_axis a p : unit_axis a -> rotate a p a = a.
Proof.
  intros H. destruct a as [x y z]. unfold unit_axis, rotate, inner in *; simpl in *.
  gv; nsatz.
Qed.
Lemma rotate_add a p p' x : unit_axis a -> rotate a (p + p') x = rotate a p (rotate a p' x).
Proof.
  intros H. destruct a as [i j k], x as [u v w]. unfold unit_axis, rotate, inner in *; simpl in *.
  rewrite cos_plus, sin_plus.
  set (s := sin p); set (c := cos p); set (s' := sin p'); set (c' := cos p'). clearbody s c s' c'.
  gv; nsatz.
Qed.
Lemma rotate_0 a x : rotate a 0 x = x.
Proof. unfold rotate. rewrite cos_0, sin_0. destruct a, x. unfold inner. gv; ring. Qed.
Lemma rotate_period a p x : rotate a (p + 2 * PI) x = rotate a p x.
Proof.
  unfold rotate.
  pose proof (cos_period p 1) as Hc. pose proof (sin_period p 1) as Hs. simpl in Hc, Hs.
  replace (p + 2 * 1 * PI) with (p + 2 * PI) in * by ring. rewrite Hc, Hs. reflexivity.
Qed.

(** roll, pitch, yaw *)
Lemma qeuler_turn r p y v : turn (qeuler r p y) v = rot_z y (rot_y p (rot_x r v)).
Proof.
  destruct v as [a b c]. unfold qeuler, turn, rot_x, rot_y, rot_z; simpl.
  replace (Q2R (1 # 2)) with (/ 2) by (unfold Q2R; simpl; lra).
  rewrite (half_cos r), (half_sin r), (half_cos p), (half_sin p), (half_cos y), (half_sin y).
  change (r / 2) with (r * / 2). change (p / 2) with (p * / 2). change (y / 2) with (y * / 2).
  pose proof (sc1 (r * / 2)) as Er. pose proof (sc1 (p * / 2)) as Ep. pose proof (sc1 (y * / 2)) as Ey.
  set (sr := sin (r * / 2)) in *. set (cr := cos (r * / 2)) in *.
  set (sp := sin (p * / 2)) in *. set (cp := cos (p * / 2)) in *.
  set (sy := sin (y * / 2)) in *. set (cy := cos (y * / 2)) in *.
  clearbody sr cr sp cp sy cy. gv; nsatz.
Qed.
Lemma unit_qeuler r p y : unit_quat (qeuler r p y).
Proof.
  unfold qeuler, unit_quat; simpl.
  pose proof (sc1 (r * Q2R (1 # 2))) as Er. pose proof (sc1 (p * Q2R (1 # 2))) as Ep. pose proof (sc1 (y * Q2R (1 # 2))) as Ey.
  set (sr := sin (r * Q2R (1 # 2))) in *. set (cr := cos (r * Q2R (1 # 2))) in *.
  set (sp := sin (p * Q2R (1 # 2))) in *. set (cp := cos (p * Q2R (1 # 2))) in *.
  set (sy := sin (y * Q2R (1 # 2))) in *. set (cy := cos (y * Q2R (1 # 2))) in *.
  clearbody sr cr sp cp sy cy.
  transitivity ((sr * sr + cr * cr) * (sp * sp + cp * cp) * (sy * sy + cy * cy)); [ring|].
  rewrite Er, Ep, Ey. ring.
Qed.
