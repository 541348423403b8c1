(** * Second-order bounds on the motion of an arm, over the reals *)
From Coq Require Import Reals Lra Psatz Nsatz.
From stdpp Require Import gmap.
From Verif Require Import Scalar ScalarR Geometry Joint Link Prog NodeM SpecGeom RGeom GeomProofs JacReal PoseDiff SpecReach.
From Verif Require ReachProofs.
Local Open Scope R_scope.
Notation tip := ReachProofs.tip.
Notation facing := ReachProofs.facing.

(** ** rotations to second order *)
Lemma cos_low x : 1 - x * x / 2 <= cos x.
Proof.
  rewrite half_cos. pose proof (ReachProofs.sin_le_abs (x / 2)) as H. pose proof (Rabs_pos (sin (x / 2))).
  assert (H1 : Rabs (sin (x/2)) * Rabs (sin (x/2)) <= Rabs (x/2) * Rabs (x/2)) by nra.
  rewrite <- !Rabs_mult, !Rabs_pos_eq in H1 by apply Rle_0_sqr. lra.
Qed.
Lemma arc_fourth d : 2 - 2 * cos d + d * d - 2 * d * sin d <= d * d * (d * d) / 4.
Proof.
  assert (Hp : forall d, 0 < d -> 2 - 2 * cos d + d * d - 2 * d * sin d <= d * d * (d * d) / 4).
  { clear d. intros d Hd.
    set (F := fun x => x * x * (x * x) / 4 - (2 - 2 * cos x + x * x - 2 * x * sin x)).
    set (G := fun x => x * (x * x - 2 * (1 - cos x))).
    assert (HF : forall x, derivable_pt_lim F x (G x)).
    { intros x. unfold F, G.
      replace (x * (x * x - 2 * (1 - cos x))) with
        (((1 * x + x * 1) * (x * x) + x * x * (1 * x + x * 1)) / 4 - ((0 - 2 * - sin x) + (1 * x + x * 1) - ((0 * x + 2 * 1) * sin x + 2 * x * cos x))) by field.
      unfold Rdiv. 
      assert (Hid : derivable_pt_lim (fun y => y) x 1) by apply derivable_pt_lim_id.
      assert (Hsq : derivable_pt_lim (fun y => y * y) x (1 * x + x * 1)) by (apply (derivable_pt_lim_mult (fun y => y) (fun y => y)); assumption).
      apply (derivable_pt_lim_minus (fun y => y * y * (y * y) * / 4) (fun y => 2 - 2 * cos y + y * y - 2 * y * sin y)).
      - replace (((1 * x + x * 1) * (x * x) + x * x * (1 * x + x * 1)) * / 4) with (((1 * x + x * 1) * (x * x) + x * x * (1 * x + x * 1)) * / 4 + x * x * (x * x) * 0) by ring.
        apply (derivable_pt_lim_mult (fun y => y * y * (y * y)) (fun _ => / 4)); [|apply derivable_pt_lim_const].
        apply (derivable_pt_lim_mult (fun y => y * y) (fun y => y * y)); assumption.
      - apply (derivable_pt_lim_minus (fun y => 2 - 2 * cos y + y * y) (fun y => 2 * y * sin y)).
        + apply (derivable_pt_lim_plus (fun y => 2 - 2 * cos y) (fun y => y * y)); [|exact Hsq].
          apply (derivable_pt_lim_minus (fun _ => 2) (fun y => 2 * cos y)); [apply derivable_pt_lim_const|].
          apply (derivable_pt_lim_scal cos 2), derivable_pt_lim_cos.
        + apply (derivable_pt_lim_mult (fun y => 2 * y) sin); [|apply derivable_pt_lim_sin].
          apply (derivable_pt_lim_mult (fun _ => 2) (fun y => y)); [apply derivable_pt_lim_const|exact Hid]. }
    destruct (MVT_cor2 F G 0 d Hd) as (c & Hc & Hc0 & Hcd); [intros; apply HF|].
    assert (HF0 : F 0 = 0) by (unfold F; rewrite cos_0, sin_0; field).
    assert (HG : 0 <= G c) by (unfold G; pose proof (cos_low c); apply Rmult_le_pos; lra).
    assert (0 <= F d) by (rewrite HF0 in Hc; nra). unfold F in H. lra. }
  destruct (Rtotal_order d 0) as [H|[-> |H]].
  - specialize (Hp (- d) ltac:(lra)). rewrite cos_neg, sin_neg in Hp. lra.
  - rewrite cos_0, sin_0. lra.
  - apply Hp. lra.
Qed.
Lemma inner_axis_le a z : unit_axis a -> inner a z * inner a z <= inner z z.
Proof.
  intros Ha. pose proof (ReachProofs.inner_le_len a z) as H1. pose proof (ReachProofs.inner_le_len a (times (-1) z)) as H2.
  rewrite ReachProofs.len_times, (ReachProofs.len_unit a Ha) in *. replace (Rabs (-1)) with 1 in H2 by (rewrite Rabs_left; lra).
  assert (inner a (times (-1) z) = - inner a z) as E2 by (destruct a, z; unfold inner; cbn; ring). rewrite E2 in H2.
  rewrite <- (len_sqr z). pose proof (len_nonneg z). nra.
Qed.
Lemma rotate_second a d z : unit_axis a ->
  len (minus (minus (rotate a d z) z) (times d (cross a z))) <= d * d / 2 * len z.
Proof.
  intros Ha. assert (0 <= d * d) by apply Rle_0_sqr. pose proof (len_nonneg z) as Hz.
  apply ReachProofs.len_le_of_sqr; [nra|].
  replace (d * d / 2 * len z * (d * d / 2 * len z)) with (d * d * (d * d) / 4 * (len z * len z)) by field. rewrite len_sqr.
  assert (E : inner (minus (minus (rotate a d z) z) (times d (cross a z))) (minus (minus (rotate a d z) z) (times d (cross a z))) =
    (2 - 2 * cos d + d * d - 2 * d * sin d) * (inner z z - inner a z * inner a z)).
  { unfold rotate, unit_axis in *. pose proof (sc1 d) as Hsc.
    destruct a as [a b c], z as [x y z]. unfold inner, minus, plus, times, cross in *. cbn [vx vy vz] in *.
    generalize dependent (sin d). generalize dependent (cos d). intros C S Hsc. clear Hz.
    set (p := a * x + b * y + c * z).
    transitivity ((C - 1) * (C - 1) * (x*x+y*y+z*z) + (S - d) * (S - d) * ((b*z-c*y)*(b*z-c*y)+(c*x-a*z)*(c*x-a*z)+(a*y-b*x)*(a*y-b*x))
      + (1-C)*(1-C)*p*p*(a*a+b*b+c*c) + 2*(C-1)*(1-C)*p*p); [unfold p; ring|].
    assert (HL : (b*z-c*y)*(b*z-c*y)+(c*x-a*z)*(c*x-a*z)+(a*y-b*x)*(a*y-b*x) = (a*a+b*b+c*c)*(x*x+y*y+z*z) - p*p) by (unfold p; ring).
    rewrite HL, Ha. assert (HS : S * S = 1 - C * C) by lra.
    replace ((S - d) * (S - d)) with (S * S - 2 * d * S + d * d) by ring. rewrite HS. ring. }
  rewrite E. pose proof (arc_fourth d). pose proof (inner_axis_le a z Ha). pose proof (inner_nonneg z).
  assert (0 <= inner a z * inner a z) by apply Rle_0_sqr.
  assert (0 <= d * d * (d * d) / 4) by nra. nra.
Qed.
Lemma rotate_minus a p x y : minus (rotate a p x) (rotate a p y) = rotate a p (minus x y).
Proof. destruct a, x, y. unfold rotate, inner. gv; ring. Qed.
Lemma rotate_plus a p x y : plus (rotate a p x) (rotate a p y) = rotate a p (plus x y).
Proof. destruct a, x, y. unfold rotate, inner. gv; ring. Qed.
Lemma len_rotate a p x : unit_axis a -> len (rotate a p x) = len x.
Proof. intros Ha. rewrite <- (turn_axis_angle a p x Ha). apply len_turn, unit_axis_angle, Ha. Qed.
Lemma len_cross a z : unit_axis a -> len (cross a z) <= len z.
Proof.
  intros Ha. apply ReachProofs.len_le_of_sqr; [apply len_nonneg|]. rewrite len_sqr.
  assert (inner (cross a z) (cross a z) = inner z z - inner a z * inner a z) as ->.
  { unfold unit_axis in Ha. destruct a as [a b c], z as [x y z]. unfold inner, cross in *. cbn [vx vy vz] in *. nsatz. }
  pose proof (Rle_0_sqr (inner a z)). unfold Rsqr in *. lra.
Qed.
(** an angle and its argument both change *)
Lemma rotate_second2 a p d y y' l : unit_axis a ->
  len (minus (minus (rotate a (p + d) y') (rotate a p y)) (rotate a p (plus (times d (cross a y)) l))) <=
  d * d / 2 * len y + Rabs d * len (minus y' y) + len (minus (minus y' y) l).
Proof.
  intros Ha. set (z := rotate a p y). set (z' := rotate a p y').
  assert (E1 : rotate a (p + d) y' = rotate a d z') by (rewrite Rplus_comm; apply rotate_add, Ha).
  assert (E2 : rotate a p (plus (times d (cross a y)) l) = plus (times d (cross a z)) (rotate a p l)).
  { rewrite <- rotate_plus. f_equal. unfold z. rewrite <- !(turn_axis_angle a p _ Ha), turn_times. f_equal.
    rewrite <- cross_turn by (apply unit_axis_angle, Ha). f_equal. rewrite turn_axis_angle by exact Ha. apply rotate_axis, Ha. }
  rewrite E1, E2.
  set (A := minus (minus (rotate a d z) z) (times d (cross a z))).
  set (B := minus (rotate a d (minus z' z)) (minus z' z)).
  set (C := rotate a p (minus (minus y' y) l)).
  assert (E : minus (minus (rotate a d z') z) (plus (times d (cross a z)) (rotate a p l)) = plus (plus A B) C).
  { assert (HC : C = minus (minus z' z) (rotate a p l)) by (unfold C, z, z'; rewrite <- !rotate_minus; reflexivity).
    rewrite HC. unfold A, B. rewrite <- rotate_minus. generalize (rotate a d z'), (rotate a d z), (rotate a p l), z, z', (times d (cross a z)).
    intros [] [] [] [] [] []. gv; ring. }
  rewrite E. eapply Rle_trans; [apply ReachProofs.len_plus|]. eapply Rle_trans; [apply Rplus_le_compat_r, ReachProofs.len_plus|].
  pose proof (rotate_second a d z Ha) as HA. fold A in HA. pose proof (ReachProofs.rotate_chord a d (minus z' z) Ha) as HB. fold B in HB.
  assert (len z = len y) by (apply len_rotate, Ha). assert (len (minus z' z) = len (minus y' y)) by (unfold z, z'; rewrite rotate_minus; apply len_rotate, Ha).
  assert (len C = len (minus (minus y' y) l)) by (apply len_rotate, Ha). rewrite H, H0 in *. lra.
Qed.

(** ** the velocity of the end, from the base outwards *)
Fixpoint dtip (js : list (joint R)) (ds : list R) : vec3 R :=
  match js with
  | [] => V3 0 0 0
  | j :: js =>
      match j_type j, ds with
      | Rotational a, d :: ds => turn (rt (local_transform j)) (plus (times d (cross a (tip js))) (dtip js ds))
      | Linear a, d :: ds => turn (rt (local_transform j)) (plus (times d a) (dtip js ds))
      | _, _ => turn (rt (local_transform j)) (dtip js ds)
      end
  end.
Fixpoint drot (js : list (joint R)) (ds : list R) : vec3 R :=
  match js with
  | [] => V3 0 0 0
  | j :: js =>
      match j_type j, ds with
      | Rotational a, d :: ds => turn (rt (local_transform j)) (plus (times d a) (drot js ds))
      | Linear _, _ :: ds => turn (rt (local_transform j)) (drot js ds)
      | _, _ => turn (rt (local_transform j)) (drot js ds)
      end
  end.
(** the changes of the movable joints' positions *)
Fixpoint gaps (js js' : list (joint R)) : list R :=
  match js, js' with
  | j :: js, j' :: js' => match j_type j with Fixed => gaps js js' | _ => (j_position j' - j_position j) :: gaps js js' end
  | _, _ => []
  end.
Definition asum (ds : list R) : R := total (map Rabs ds).
Lemma asum_cons d ds : asum (d :: ds) = Rabs d + asum ds.
Proof. reflexivity. Qed.
Lemma asum_nonneg ds : 0 <= asum ds.
Proof. induction ds as [|d ds IH]; [unfold asum; cbn; lra|]. rewrite asum_cons. pose proof (Rabs_pos d). lra. Qed.
Lemma facing_len js v : Forall unit_joint js -> len (facing js v) = len v.
Proof. induction 1 as [|i js Hi Hu IH]; [reflexivity|]. cbn. rewrite len_turn by (apply proper_local, Hi). exact IH. Qed.
Lemma minus_self x : minus x x = V3 0 0 0.
Proof. destruct x. gv; ring. Qed.

Lemma rot_rotational j a z : unit_joint j -> j_type j = Rotational a ->
  turn (rt (local_transform j)) z = turn (rt (j_origin j)) (rotate a (j_position j) z).
Proof.
  intros Hj E. assert (Ha : unit_axis a) by (destruct Hj as [Ht _]; rewrite E in Ht; exact Ht).
  unfold local_transform. rewrite E. cbn [iso_mul rt joint_transform].
  rewrite turn_mul by (try apply Hj; apply unit_axis_angle, Ha). rewrite turn_axis_angle by exact Ha. reflexivity.
Qed.

Section Curve.
  Variable L : R.
  Hypothesis HL : 1 <= L.
  Lemma span_tail j js : total (map span (j :: js)) <= L -> total (map span js) <= L.
  Proof. cbn [map]. rewrite ReachProofs.total_cons. pose proof (ReachProofs.span_nonneg j). lra. Qed.
  Lemma sweep_asum js : forall js', Forall2 at_other_position js js' -> total (map span js) <= L ->
    sweep js js' <= L * asum (gaps js js').
  Proof.
    induction 1 as [|j j' js js' Hj H IH] in |- *; intros Ht; [unfold asum; cbn; lra|].
    pose proof (span_tail _ _ Ht) as Ht'. specialize (IH Ht').
    pose proof (asum_nonneg (gaps js js')). pose proof (ReachProofs.total_nonneg js).
    cbn [sweep gaps]. destruct (j_type j); rewrite ?asum_cons; [lra| |]; pose proof (Rabs_pos (j_position j' - j_position j)); nra.
  Qed.
  Lemma swing_asum js js' : Forall2 at_other_position js js' -> swing js js' <= asum (gaps js js').
  Proof.
    induction 1 as [|j j' js js' Hj H IH]; [unfold asum; cbn; lra|].
    cbn [swing gaps]. destruct (j_type j); rewrite ?asum_cons; [lra| |]; pose proof (Rabs_pos (j_position j' - j_position j)); lra.
  Qed.
  Lemma tip_lip js js' : Forall unit_joint js -> Forall2 at_other_position js js' -> total (map span js) <= L ->
    len (minus (tip js') (tip js)) <= L * asum (gaps js js').
  Proof. intros Hu Ho Ht. eapply Rle_trans; [apply ReachProofs.tip_lip; assumption|apply sweep_asum; assumption]. Qed.
  Lemma facing_lip js js' v : Forall unit_joint js -> Forall2 at_other_position js js' ->
    len (minus (facing js' v) (facing js v)) <= asum (gaps js js') * len v.
  Proof.
    intros Hu Ho. eapply Rle_trans; [apply ReachProofs.facing_lip; assumption|].
    apply Rmult_le_compat_r; [apply len_nonneg|apply swing_asum; assumption].
  Qed.

  Lemma tip_curve js js' : Forall unit_joint js -> Forall2 at_other_position js js' -> total (map span js) <= L ->
    len (minus (minus (tip js') (tip js)) (dtip js (gaps js js'))) <= L / 2 * (asum (gaps js js') * asum (gaps js js')).
  Proof.
    intros Hu H. induction H as [|j j' js js' Hj H IH]; intros Ht.
    { cbn. rewrite !minus_self, ReachProofs.len_0. unfold asum. cbn. lra. }
    apply Forall_cons in Hu as [Hju Hu]. pose proof (span_tail _ _ Ht) as Ht'. specialize (IH Hu Ht').
    pose proof (ReachProofs.unit_other _ _ Hju Hj) as Hju'. destruct Hj as [Et Eo].
    pose proof (tip_lip js js' Hu H Ht') as Hlip. pose proof (asum_nonneg (gaps js js')) as HS.
    assert (Hy : len (tip js) <= L) by (pose proof (ReachProofs.tip_reach js Hu); lra).
    set (S := asum (gaps js js')) in *. cbn [ReachProofs.tip dtip gaps].
    destruct (j_type j) as [|a|a] eqn:E.
    - rewrite !local_fixed by congruence. rewrite Eo, move_minus, <- turn_minus, len_turn by apply Hju. exact IH.
    - assert (Ha : unit_axis a) by (destruct Hju as [Hat _]; rewrite E in Hat; exact Hat).
      rewrite (local_rotational j' a), (local_rotational j a) by assumption.
      rewrite (rot_rotational j a) by assumption. rewrite Eo, move_minus, <- turn_minus, len_turn by apply Hju.
      set (d := j_position j' - j_position j). replace (j_position j') with (j_position j + d) by (unfold d; ring).
      eapply Rle_trans; [apply rotate_second2, Ha|]. rewrite asum_cons. fold S. pose proof (Rabs_pos d).
      assert (Hd : d * d = Rabs d * Rabs d) by (rewrite <- Rabs_mult; symmetry; apply Rabs_pos_eq, Rle_0_sqr).
      rewrite Hd. set (D := Rabs d) in *. assert (0 <= len (tip js)) by apply len_nonneg.
      assert (D * D / 2 * len (tip js) <= D * D / 2 * L) by (apply Rmult_le_compat_l; nra).
      assert (D * len (minus (tip js') (tip js)) <= D * (L * S)) by (apply Rmult_le_compat_l; lra). nra.
    - assert (Ha : unit_axis a) by (destruct Hju as [Hat _]; rewrite E in Hat; exact Hat).
      rewrite (proj2 (local_linear j' a Et)), (proj2 (local_linear j a E)), (proj1 (local_linear j a E)).
      rewrite Eo, move_minus, <- turn_minus, len_turn by apply Hju. rewrite asum_cons. fold S.
      pose proof (Rabs_pos (j_position j' - j_position j)).
      set (X := minus _ _). assert (X = minus (minus (tip js') (tip js)) (dtip js (gaps js js'))) as ->.
      { unfold X. generalize (tip js'), (tip js), (dtip js (gaps js js')). destruct a. intros [] [] []. gv; ring. }
      eapply Rle_trans; [exact IH|]. apply Rmult_le_compat_l; [lra|]. nra.
  Qed.
  Lemma cross_plus_l x y z : cross (plus x y) z = plus (cross x z) (cross y z).
  Proof. destruct x, y, z. gv; ring. Qed.
  Lemma facing_curve js js' v : Forall unit_joint js -> Forall2 at_other_position js js' ->
    len (minus (minus (facing js' v) (facing js v)) (cross (drot js (gaps js js')) (facing js v))) <=
    / 2 * (asum (gaps js js') * asum (gaps js js')) * len v.
  Proof.
    intros Hu H. pose proof (len_nonneg v) as Hv. induction H as [|j j' js js' Hj H IH].
    { cbn. rewrite !minus_self. assert (cross (V3 0 0 0) v = V3 0 0 0) as -> by (destruct v; gv; ring). rewrite !minus_self, ReachProofs.len_0. unfold asum. cbn. nra. }
    apply Forall_cons in Hu as [Hju Hu]. specialize (IH Hu).
    pose proof (ReachProofs.unit_other _ _ Hju Hj) as Hju'. destruct Hj as [Et Eo].
    pose proof (facing_lip js js' v Hu H) as Hlip. pose proof (asum_nonneg (gaps js js')) as HS.
    pose proof (facing_len js v Hu) as Hy.
    set (S := asum (gaps js js')) in *. cbn [ReachProofs.facing drot gaps].
    destruct (j_type j) as [|a|a] eqn:E.
    - rewrite !local_fixed by congruence. rewrite Eo, cross_turn, <- !turn_minus, len_turn by apply Hju. exact IH.
    - assert (Ha : unit_axis a) by (destruct Hju as [Hat _]; rewrite E in Hat; exact Hat).
      rewrite cross_turn by (apply proper_local, Hju).
      rewrite !(rot_rotational j a), (rot_rotational j' a) by assumption. rewrite Eo, <- !turn_minus, len_turn by apply Hju.
      set (d := j_position j' - j_position j). replace (j_position j') with (j_position j + d) by (unfold d; ring).
      assert (cross (plus (times d a) (drot js (gaps js js'))) (facing js v) =
        plus (times d (cross a (facing js v))) (cross (drot js (gaps js js')) (facing js v))) as ->.
      { generalize (facing js v), (drot js (gaps js js')). destruct a. intros [] []. gv; ring. }
      eapply Rle_trans; [apply rotate_second2, Ha|]. rewrite asum_cons. fold S. pose proof (Rabs_pos d).
      assert (Hd : d * d = Rabs d * Rabs d) by (rewrite <- Rabs_mult; symmetry; apply Rabs_pos_eq, Rle_0_sqr).
      rewrite Hd, Hy. set (D := Rabs d) in *.
      assert (D * len (minus (facing js' v) (facing js v)) <= D * (S * len v)) by (apply Rmult_le_compat_l; lra). nra.
    - rewrite (proj1 (local_linear j' a Et)), (proj1 (local_linear j a E)).
      rewrite Eo, cross_turn, <- !turn_minus, len_turn by apply Hju. rewrite asum_cons. fold S.
      pose proof (Rabs_pos (j_position j' - j_position j)).
      eapply Rle_trans; [exact IH|]. apply Rmult_le_compat_r; [lra|]. nra.
  Qed.

  (** ** the velocity is bounded and changes slowly *)
  Lemma dtip_len js : Forall unit_joint js -> total (map span js) <= L -> forall ds, len (dtip js ds) <= L * asum ds.
  Proof.
    induction 1 as [|j js Hju Hu IH]; intros Ht ds; [cbn; rewrite ReachProofs.len_0; pose proof (asum_nonneg ds); nra|].
    specialize (IH (span_tail _ _ Ht)). assert (Hy : len (tip js) <= L) by (pose proof (ReachProofs.tip_reach js Hu); pose proof (span_tail _ _ Ht); lra).
    cbn [dtip]. destruct (j_type j) as [|a|a] eqn:E; [rewrite len_turn by (apply proper_local, Hju); apply IH| |]; (destruct ds as [|d ds];
      rewrite len_turn by (apply proper_local, Hju); [apply IH|]);
      (assert (Ha : unit_axis a) by (destruct Hju as [Hat _]; rewrite E in Hat; exact Hat));
      (eapply Rle_trans; [apply ReachProofs.len_plus|]); rewrite asum_cons, ReachProofs.len_times; specialize (IH ds); pose proof (Rabs_pos d).
    - pose proof (len_cross a (tip js) Ha). assert (Rabs d * len (cross a (tip js)) <= Rabs d * L) by (apply Rmult_le_compat_l; lra). lra.
    - rewrite (ReachProofs.len_unit a Ha). nra.
  Qed.
  Lemma drot_len js : Forall unit_joint js -> forall ds, len (drot js ds) <= asum ds.
  Proof.
    induction 1 as [|j js Hju Hu IH]; intros ds; [cbn; rewrite ReachProofs.len_0; apply asum_nonneg|].
    cbn [drot]. destruct (j_type j) as [|a|a] eqn:E; [rewrite len_turn by (apply proper_local, Hju); apply IH| |]; (destruct ds as [|d ds];
      rewrite len_turn by (apply proper_local, Hju); [apply IH|]).
    - assert (Ha : unit_axis a) by (destruct Hju as [Hat _]; rewrite E in Hat; exact Hat).
      eapply Rle_trans; [apply ReachProofs.len_plus|]. rewrite asum_cons, ReachProofs.len_times, (ReachProofs.len_unit a Ha). specialize (IH ds). lra.
    - rewrite asum_cons. specialize (IH ds). pose proof (Rabs_pos d). lra.
  Qed.
  Lemma turn_change j j' x x' : unit_joint j -> at_other_position j j' -> 
    len (minus (turn (rt (local_transform j')) x') (turn (rt (local_transform j)) x)) <=
    match j_type j with Rotational _ => Rabs (j_position j' - j_position j) | _ => 0 end * len x + len (minus x' x).
  Proof.
    intros Hju Hj. pose proof (ReachProofs.unit_other _ _ Hju Hj) as Hju'. destruct Hj as [Et Eo].
    eapply Rle_trans; [apply (ReachProofs.len_minus_tri _ (turn (rt (local_transform j')) x))|].
    rewrite <- turn_minus, len_turn by (apply proper_local, Hju'). rewrite Rplus_comm. apply Rplus_le_compat_r.
    destruct (j_type j) as [|a|a] eqn:E.
    - rewrite !local_fixed by congruence. rewrite Eo, minus_self, ReachProofs.len_0. lra.
    - rewrite (rot_rotational j a), (rot_rotational j' a) by assumption. rewrite Eo, <- turn_minus, len_turn by apply Hju.
      apply ReachProofs.rotate_lip. destruct Hju as [Hat _]. rewrite E in Hat. exact Hat.
    - rewrite (proj1 (local_linear j' a Et)), (proj1 (local_linear j a E)), Eo, minus_self, ReachProofs.len_0. lra.
  Qed.
  Lemma dtip_lip js js' : Forall unit_joint js -> Forall2 at_other_position js js' -> total (map span js) <= L -> forall ds,
    len (minus (dtip js' ds) (dtip js ds)) <= L * asum ds * asum (gaps js js').
  Proof.
    intros Hu H. induction H as [|j j' js js' Hj H IH]; intros Ht ds.
    { cbn [dtip drot gaps]. rewrite minus_self, ReachProofs.len_0. change (asum []) with 0. lra. }
    apply Forall_cons in Hu as [Hju Hu]. pose proof (span_tail _ _ Ht) as Ht'. specialize (IH Hu Ht').
    pose proof (tip_lip js js' Hu H Ht') as Hlip. pose proof (asum_nonneg (gaps js js')) as HS. pose proof (dtip_len js Hu Ht') as Hd.
    assert (Hy : len (tip js) <= L) by (pose proof (ReachProofs.tip_reach js Hu); lra).
    set (S := asum (gaps js js')) in *. cbn [dtip gaps]. rewrite (proj1 Hj).
    pose proof (turn_change j j') as Hc.
    destruct (j_type j) as [|a|a] eqn:E.
    - eapply Rle_trans; [apply Hc; assumption|]. rewrite Rmult_0_l, Rplus_0_l. apply IH.
    - assert (Ha : unit_axis a) by (destruct Hju as [Hat _]; rewrite E in Hat; exact Hat).
      rewrite asum_cons. fold S. set (g := j_position j' - j_position j) in *. pose proof (Rabs_pos g).
      destruct ds as [|d ds]; (eapply Rle_trans; [apply Hc; assumption|]).
      + specialize (IH []). specialize (Hd []). change (asum []) with 0 in *. pose proof (len_nonneg (dtip js [])). nra.
      + specialize (IH ds). specialize (Hd ds). rewrite asum_cons. pose proof (Rabs_pos d). pose proof (asum_nonneg ds).
        set (x := plus _ _). assert (Hx : len x <= L * (Rabs d + asum ds)).
        { unfold x. eapply Rle_trans; [apply ReachProofs.len_plus|]. rewrite ReachProofs.len_times. pose proof (len_cross a (tip js) Ha).
          assert (Rabs d * len (cross a (tip js)) <= Rabs d * L) by (apply Rmult_le_compat_l; lra). lra. }
        match goal with |- _ + len ?m <= _ => set (y := m) end.
        assert (Hyy : len y <= Rabs d * (L * S) + L * asum ds * S).
        { unfold y. replace (minus _ x) with (plus (times d (cross a (minus (tip js') (tip js)))) (minus (dtip js' ds) (dtip js ds))).
          - eapply Rle_trans; [apply ReachProofs.len_plus|]. rewrite ReachProofs.len_times. pose proof (len_cross a (minus (tip js') (tip js)) Ha).
            assert (Rabs d * len (cross a (minus (tip js') (tip js))) <= Rabs d * (L * S)) by (apply Rmult_le_compat_l; lra). lra.
          - unfold x. generalize (tip js'), (tip js), (dtip js' ds), (dtip js ds). destruct a. intros [] [] [] []. gv; ring. }
        assert (Rabs g * len x <= Rabs g * (L * (Rabs d + asum ds))) by (apply Rmult_le_compat_l; lra). lra.
    - rewrite asum_cons. fold S. set (g := j_position j' - j_position j) in *. pose proof (Rabs_pos g).
      destruct ds as [|d ds]; (eapply Rle_trans; [apply Hc; assumption|]); rewrite Rmult_0_l, Rplus_0_l.
      + specialize (IH []). change (asum []) with 0 in *. lra.
      + specialize (IH ds). rewrite asum_cons. pose proof (Rabs_pos d). pose proof (asum_nonneg ds).
        replace (minus _ _) with (minus (dtip js' ds) (dtip js ds)).
        * assert (0 <= Rabs d * (Rabs g + S)) by nra. assert (0 <= asum ds * Rabs g) by nra. nra.
        * generalize (dtip js' ds), (dtip js ds). destruct a. intros [] []. gv; ring.
  Qed.
  Lemma drot_lip js js' : Forall unit_joint js -> Forall2 at_other_position js js' -> forall ds,
    len (minus (drot js' ds) (drot js ds)) <= asum ds * asum (gaps js js').
  Proof.
    intros Hu H. induction H as [|j j' js js' Hj H IH]; intros ds.
    { cbn [dtip drot gaps]. rewrite minus_self, ReachProofs.len_0. change (asum []) with 0. lra. }
    apply Forall_cons in Hu as [Hju Hu]. specialize (IH Hu).
    pose proof (asum_nonneg (gaps js js')) as HS. pose proof (drot_len js Hu) as Hd.
    set (S := asum (gaps js js')) in *. cbn [drot gaps]. rewrite (proj1 Hj).
    pose proof (turn_change j j') as Hc.
    destruct (j_type j) as [|a|a] eqn:E.
    - eapply Rle_trans; [apply Hc; assumption|]. rewrite Rmult_0_l, Rplus_0_l. apply IH.
    - assert (Ha : unit_axis a) by (destruct Hju as [Hat _]; rewrite E in Hat; exact Hat).
      rewrite asum_cons. fold S. set (g := j_position j' - j_position j) in *. pose proof (Rabs_pos g).
      destruct ds as [|d ds]; (eapply Rle_trans; [apply Hc; assumption|]).
      + specialize (IH []). specialize (Hd []). change (asum []) with 0 in *. pose proof (len_nonneg (drot js [])). nra.
      + specialize (IH ds). specialize (Hd ds). rewrite asum_cons. pose proof (Rabs_pos d). pose proof (asum_nonneg ds).
        set (x := plus _ _). assert (Hx : len x <= Rabs d + asum ds).
        { unfold x. eapply Rle_trans; [apply ReachProofs.len_plus|]. rewrite ReachProofs.len_times, (ReachProofs.len_unit a Ha). lra. }
        match goal with |- _ + len ?m <= _ => replace m with (minus (drot js' ds) (drot js ds)) end.
        * assert (Rabs g * len x <= Rabs g * (Rabs d + asum ds)) by (apply Rmult_le_compat_l; lra). nra.
        * unfold x. generalize (drot js' ds), (drot js ds). destruct a. intros [] []. gv; ring.
    - rewrite asum_cons. fold S. set (g := j_position j' - j_position j) in *. pose proof (Rabs_pos g).
      destruct ds as [|d ds]; (eapply Rle_trans; [apply Hc; assumption|]); rewrite Rmult_0_l, Rplus_0_l.
      + specialize (IH []). change (asum []) with 0 in *. lra.
      + specialize (IH ds). rewrite asum_cons. pose proof (Rabs_pos d). pose proof (asum_nonneg ds). nra.
  Qed.
End Curve.
