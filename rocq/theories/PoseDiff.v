(** * The rotation vector of a unit quaternion, over the reals *)
From Coq Require Import Reals Lra Psatz List.
From Verif Require Import Scalar ScalarR Geometry SpecGeom RGeom IkM.
Import ListNotations.
Local Open Scope R_scope.

Lemma atan2_quadrant y x : 0 <= y -> 0 <= x -> x * x + y * y = 1 ->
  cos (Ratan2 y x) = x /\ sin (Ratan2 y x) = y /\ 0 <= Ratan2 y x <= PI / 2.
Proof.
  intros Hy Hx E. unfold Ratan2. destruct (Rlt_dec 0 x) as [Hx0|Hx0].
  - assert (Hq : 0 <= y / x) by (apply Rmult_le_pos; [auto|left; apply Rinv_0_lt_compat; auto]).
    assert (Hs : sqrt (1 + Rsqr (y / x)) = / x).
    { replace (1 + Rsqr (y / x)) with (Rsqr (/ x)).
      - apply sqrt_Rsqr. left. apply Rinv_0_lt_compat. auto.
      - unfold Rsqr, Rdiv. apply Rmult_eq_reg_l with (x * x); [|nra]. field_simplify; [lra|lra|lra]. }
    rewrite cos_atan, sin_atan, Hs. split; [field; lra|]. split; [field; lra|].
    pose proof (atan_bound (y / x)). split; [|lra].
    destruct Hq as [Hq|<-]; [|rewrite atan_0; lra].
    left. rewrite <- atan_0. apply atan_increasing. auto.
  - assert (x = 0) as -> by lra. assert (y = 1) as -> by nra.
    destruct (Rlt_dec 0 0); [lra|]. destruct (Rlt_dec 0 1); [|lra].
    rewrite cos_PI2, sin_PI2. pose proof PI_RGT_0. split; [|split]; lra.
Qed.

Definition qneg (q : quat R) : quat R := Qt (- qi q) (- qj q) (- qk q) (- qw q).
Lemma turn_qneg q v : turn (qneg q) v = turn q v.
Proof. destruct q, v. unfold qneg. gv; ring. Qed.


Lemma len_times s a : 0 <= s -> len (times s a) = s * len a.
Proof.
  intros H. unfold len. replace (inner (times s a) (times s a)) with ((s * s) * inner a a) by (destruct a; un; ring).
  rewrite sqrt_mult by (try apply inner_nonneg; nra). rewrite sqrt_square by auto. reflexivity.
Qed.
Lemma len_neg a : len (vneg a) = len a.
Proof. unfold len. f_equal. destruct a; un; ring. Qed.
Lemma len_zero a : len a = 0 -> a = V3 0 0 0.
Proof.
  intros H. pose proof (len_sqr a) as E. rewrite H in E. destruct a as [x y z]. unfold inner in E. simpl in E.
  assert (x = 0) by nra. assert (y = 0) by nra. assert (z = 0) by nra. congruence.
Qed.
Lemma len_v0 : len (V3 0 0 0) = 0.
Proof. unfold len. replace (inner (V3 0 0 0) (V3 0 0 0)) with 0 by (un; ring). apply sqrt_0. Qed.

(** everything about scaled_axis *)
Lemma scaled_axis_cases q : unit_quat q ->
  (qvec q = V3 0 0 0 /\ qscaled_axis q = V3 0 0 0) \/
  (exists a th, unit_axis a /\ 0 < th <= PI /\ qscaled_axis q = times th a /\
     forall x, turn q x = rotate a th x) .
Proof.
  intros Hq. set (v := if sge (qw q) szero then qvec q else vneg (qvec q)).
  assert (Hv : len v = len (qvec q)) by (unfold v; destruct (sge (qw q) szero); [auto|apply len_neg]).
  assert (E1 : qw q * qw q + len (qvec q) * len (qvec q) = 1).
  { rewrite len_sqr. destruct q; unfold unit_quat in Hq; un; simpl in Hq. lra. }
  pose proof (len_nonneg (qvec q)) as Hn.
  destruct (Req_EM_T (len (qvec q)) 0) as [H0|H0].
  - left. split; [apply len_zero; auto|].
    unfold qscaled_axis, qaxis. fold v. rewrite vnorm_len, Hv, H0.
    replace (sgt (0:R) szero) with false; [reflexivity|].
    unfold sgt; simpl. unfold Rltb. destruct (Rlt_dec 0 0); [lra|auto].
  - right. assert (Hp : 0 < len (qvec q)) by lra.
    assert (Ha : Rabs (qw q) * Rabs (qw q) + len (qvec q) * len (qvec q) = 1).
    { rewrite <- Rabs_mult, Rabs_right; [lra|nra]. }
    destruct (atan2_quadrant _ _ Hn (Rabs_pos (qw q)) Ha) as (Hc & Hs & Hb).
    set (th := Ratan2 (len (qvec q)) (Rabs (qw q))) in *.
    exists (times (/ len (qvec q)) v), (2 * th).
    assert (Hax : unit_axis (times (/ len (qvec q)) v)).
    { change (inner (times (/ len (qvec q)) v) (times (/ len (qvec q)) v) = 1).
      rewrite <- len_sqr. rewrite len_times, Hv by (left; apply Rinv_0_lt_compat; auto). field. auto. }
    split; [exact Hax|]. split; [|split].
    + split; [|lra]. destruct Hb as [[Hb|Hb] _]; [lra|]. rewrite <- Hb, sin_0 in Hs. lra.
    + unfold qscaled_axis, qaxis. fold v. rewrite vnorm_len, Hv.
      replace (sgt (len (qvec q)) szero) with true.
      2:{ unfold sgt; simpl. unfold Rltb. destruct (Rlt_dec 0 (len (qvec q))); [auto|lra]. }
      unfold qangle. change (@vnorm R RScalar) with len. rewrite stwo_R. change (satan2 (len (qvec q)) (sabs (qw q))) with th.
      destruct v; gv; field; auto.
    + intros x. rewrite <- turn_axis_angle by exact Hax.
      assert (Hqe : qaxis_angle (times (/ len (qvec q)) v) (2 * th) = q \/
                    qaxis_angle (times (/ len (qvec q)) v) (2 * th) = qneg q).
      { unfold qaxis_angle. rewrite stwo_R.
        change (@sdiv R RScalar) with Rdiv. replace (2 * th / 2) with th by field.
        change (ssin th) with (sin th). change (scos th) with (cos th). rewrite Hs, Hc. subst v.
        unfold sge; simpl. unfold Rleb. destruct (Rle_dec 0 (qw q)) as [Hw|Hw]; [left|right]; destruct q as [i j k w]; simpl in *.
        - rewrite Rabs_right by lra. apply Qt_eq; simpl; field; auto.
        - rewrite Rabs_left by lra. apply Qt_eq; simpl; [field; auto..|reflexivity]. }
      destruct Hqe as [->| ->]; [reflexivity|]. symmetry. apply turn_qneg.
Qed.

Lemma rotate_by_scaled a th x : unit_axis a -> 0 < th -> rotate_by (times th a) x = rotate a th x.
Proof.
  intros Ha Ht. assert (La : len a = 1). { unfold len. change (inner a a = 1) in Ha. rewrite Ha. apply sqrt_1. }
  assert (Hl : len (times th a) = th) by (rewrite len_times, La by lra; ring).
  unfold rotate_by. rewrite Hl. destruct (Req_EM_T th 0); [lra|]. f_equal.
  destruct a; gv; field; auto.
Qed.
Lemma scaled_axis_turn q x : unit_quat q -> turn q x = rotate_by (qscaled_axis q) x.
Proof.
  intros Hq. destruct (scaled_axis_cases q Hq) as [[Hv ->]|(a & th & Ha & [Ht _] & -> & Hx)].
  - unfold rotate_by. rewrite len_v0. destruct (Req_EM_T 0 0); [|lra].
    destruct q as [i j k w], x. unfold qvec in Hv. simpl in Hv. injection Hv as -> -> ->. gv; ring.
  - rewrite rotate_by_scaled by auto. apply Hx.
Qed.
Lemma scaled_axis_len q : unit_quat q -> len (qscaled_axis q) <= PI.
Proof.
  intros Hq. pose proof PI_RGT_0. destruct (scaled_axis_cases q Hq) as [[_ ->]|(a & th & Ha & [Ht Hp] & -> & _)].
  - rewrite len_v0. lra.
  - rewrite len_times by lra. unfold len. change (inner a a = 1) in Ha. rewrite Ha, sqrt_1. lra.
Qed.
Lemma turn_id_vec q : (forall x, turn q x = x) -> qvec q = V3 0 0 0.
Proof.
  intros H. pose proof (H (V3 1 0 0)) as H1. pose proof (H (V3 0 1 0)) as H2.
  destruct q as [i j k w]. unfold turn in *; simpl in *.
  apply (f_equal vx) in H1. apply (f_equal vy) in H2. simpl in H1, H2.
  assert (i = 0) by nra. assert (j = 0) by nra. assert (k = 0) by nra. subst. reflexivity.
Qed.
Lemma scaled_axis_zero q : unit_quat q -> qscaled_axis q = V3 0 0 0 <-> forall x, turn q x = x.
Proof.
  intros Hq. split.
  - intros E x. rewrite scaled_axis_turn, E by auto. unfold rotate_by. rewrite len_v0. destruct (Req_EM_T 0 0); [auto|lra].
  - intros E. apply turn_id_vec in E.
    destruct (scaled_axis_cases q Hq) as [[_ Hs]|(a & th & Ha & [Ht Hp] & Hs & _)]; [exact Hs|].
    unfold qscaled_axis, qaxis in *. rewrite E in *.
    assert (Hz : vneg (V3 0 0 0) = V3 0 0 0) by (gv; ring).
    rewrite Hz in *. replace (if sge (qw q) szero then V3 0 0 0 else V3 0 0 0) with (V3 0 0 0) in * by (destruct (sge (qw q) szero); auto).
    rewrite vnorm_len, len_v0 in *. unfold sgt in *; simpl in *. unfold Rltb in *. destruct (Rlt_dec 0 0); [lra|]. reflexivity.
Qed.

(** ** calc_pose_diff *)
Lemma pose_diff_halves a b : exists w, calc_pose_diff a b =
    [vx (tr a) - vx (tr b); vy (tr a) - vy (tr b); vz (tr a) - vz (tr b); vx w; vy w; vz w] /\
    w = qscaled_axis (qmul (rt a) (qconj (rt b))).
Proof. eexists. split; reflexivity. Qed.
Lemma rel_turn a b x : unit_quat a -> unit_quat b -> turn (qmul a (qconj b)) (turn b x) = turn a x.
Proof. intros Ha Hb. rewrite turn_mul by auto using unit_qconj. rewrite turn_conj by auto. reflexivity. Qed.
Lemma pose_diff_rot_lemma a b : proper a -> proper b ->
  exists w, calc_pose_diff a b =
    [vx (tr a) - vx (tr b); vy (tr a) - vy (tr b); vz (tr a) - vz (tr b); vx w; vy w; vz w] /\
    (forall x, rotate_by w (turn (rt b) x) = turn (rt a) x) /\ len w <= PI.
Proof.
  intros Ha Hb. destruct (pose_diff_halves a b) as (w & E & ->). eexists. split; [exact E|].
  assert (Hu : unit_quat (qmul (rt a) (qconj (rt b)))) by (apply unit_qmul; [exact Ha|apply unit_qconj, Hb]).
  split; [|apply scaled_axis_len, Hu]. intros x. rewrite <- scaled_axis_turn by exact Hu. apply rel_turn; auto.
Qed.
Lemma pose_diff_zero_lemma a b : proper a -> proper b ->
  calc_pose_diff a b = [0; 0; 0; 0; 0; 0] <-> same_pose a b.
Proof.
  intros Ha Hb. destruct (pose_diff_halves a b) as (w & -> & Hw).
  assert (Hu : unit_quat (qmul (rt a) (qconj (rt b)))) by (apply unit_qmul; [exact Ha|apply unit_qconj, Hb]).
  pose proof (scaled_axis_zero _ Hu) as Hz. rewrite <- Hw in Hz. split.
  - intros E. injection E as E1 E2 E3 E4 E5 E6.
    assert (w = V3 0 0 0) as Hw0 by (destruct w; simpl in *; congruence).
    assert (tr a = tr b) as Ht by (apply V3_eq; lra).
    intros x. unfold move. rewrite Ht. f_equal. rewrite <- (rel_turn (rt a) (rt b)) by auto. apply Hz; auto.
  - intros E.
    assert (Ht : tr a = tr b).
    { pose proof (E (V3 0 0 0)) as E0. unfold move in E0. destruct a as [[] []], b as [[] []]. unfold turn, plus in E0. simpl in E0.
      injection E0 as E1 E2 E3. apply V3_eq; simpl; lra. }
    assert (w = V3 0 0 0) as ->.
    { apply Hz. intros x. rewrite <- (turn_conj (qconj (rt b)) x) by (apply unit_qconj, Hb).
      assert (qconj (qconj (rt b)) = rt b) as -> by (destruct (rt b); gq; ring).
      rewrite rel_turn by auto. specialize (E (turn (qconj (rt b)) x)). unfold move in E. rewrite Ht in E.
      apply (f_equal (fun y => minus y (tr b))) in E.
      assert (Hpm : forall y z : vec3 R, minus (plus y z) z = y) by (intros [] []; gv; ring).
      rewrite !Hpm in E. exact E. }
    rewrite Ht. simpl. repeat f_equal; ring.
Qed.
