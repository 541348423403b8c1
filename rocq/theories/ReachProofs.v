(** * Reach of an arm and change of its pose, over the reals *)
From Coq Require Import Reals Lra Psatz.
From stdpp Require Import gmap.
From Verif Require Import Scalar ScalarR Geometry Joint Link Prog NodeM ChainM IkM RunLemmas SpecJoint SpecNode SpecGraph
  SpecChain SpecFK FKProofs SpecIk IkProofs SpecGeom RGeom GeomProofs SpecReach.
Local Open Scope R_scope.

(** ** lengths *)
Lemma inner_le_len a b : inner a b <= len a * len b.
Proof.
  unfold len. rewrite <- sqrt_mult by apply inner_nonneg.
  destruct (Rle_dec (inner a b) 0) as [H|H].
  - eapply Rle_trans; [exact H|apply sqrt_pos].
  - rewrite <- (sqrt_square (inner a b)) by lra. apply sqrt_le_1_alt.
    destruct a as [a1 a2 a3], b as [b1 b2 b3]. unfold inner. cbn.
    assert (0 <= (a1*b2-a2*b1)*(a1*b2-a2*b1)) by apply Rle_0_sqr.
    assert (0 <= (a1*b3-a3*b1)*(a1*b3-a3*b1)) by apply Rle_0_sqr.
    assert (0 <= (a2*b3-a3*b2)*(a2*b3-a3*b2)) by apply Rle_0_sqr. lra.
Qed.
Lemma len_le_of_sqr a x : 0 <= x -> inner a a <= x * x -> len a <= x.
Proof. intros Hx H. unfold len. rewrite <- (sqrt_square x) by exact Hx. apply sqrt_le_1_alt, H. Qed.
Lemma len_plus a b : len (plus a b) <= len a + len b.
Proof.
  pose proof (len_nonneg a). pose proof (len_nonneg b). apply len_le_of_sqr; [lra|].
  assert (E : inner (plus a b) (plus a b) = inner a a + 2 * inner a b + inner b b).
  { destruct a, b. unfold inner. cbn. ring. }
  rewrite E. pose proof (inner_le_len a b). rewrite <- (len_sqr a), <- (len_sqr b). nra.
Qed.
Lemma len_times s a : len (times s a) = Rabs s * len a.
Proof.
  unfold len. assert (inner (times s a) (times s a) = s * s * inner a a) as ->.
  { destruct a. unfold inner. cbn. ring. }
  rewrite sqrt_mult by (try apply Rle_0_sqr; apply inner_nonneg). f_equal. apply sqrt_Rsqr_abs.
Qed.
Lemma len_unit a : unit_axis a -> len a = 1.
Proof. intros H. unfold len, inner. rewrite H. apply sqrt_1. Qed.
Lemma len_0 : len (V3 0 0 0) = 0.
Proof. unfold len, inner. cbn. replace (0*0+0*0+0*0) with 0 by ring. apply sqrt_0. Qed.
Lemma len_minus_sym a b : len (minus a b) = len (minus b a).
Proof. unfold len. f_equal. destruct a, b. unfold inner. cbn. ring. Qed.
Lemma len_minus_tri a b c : len (minus a c) <= len (minus a b) + len (minus b c).
Proof.
  assert (minus a c = plus (minus a b) (minus b c)) as ->; [|apply len_plus].
  destruct a, b, c. gv; ring.
Qed.
Lemma len_low a b : len a - len b <= len (plus a b).
Proof.
  assert (H : a = plus (plus a b) (times (-1) b)) by (destruct a, b; gv; ring).
  pose proof (len_plus (plus a b) (times (-1) b)) as H1. rewrite <- H, len_times in H1.
  replace (Rabs (-1)) with 1 in H1; [lra|]. rewrite Rabs_left; lra.
Qed.
Lemma minus_plus a b : minus (plus a b) a = b.
Proof. destruct a, b. gv; ring. Qed.

(** ** the end of an arm as a point *)
(** where the end of the arm is, in the frame before the first joint *)
Fixpoint tip (js : list (joint R)) : vec3 R :=
  match js with [] => V3 0 0 0 | j :: js => move (local_transform j) (tip js) end.
Fixpoint facing (js : list (joint R)) (v : vec3 R) : vec3 R :=
  match js with [] => v | j :: js => turn (rt (local_transform j)) (facing js v) end.

Lemma product_move base js x : proper base -> Forall unit_joint js ->
  move (product base (map local_transform js)) x = move base (fold_right (fun j y => move (local_transform j) y) x js).
Proof.
  intros Hb H. revert base Hb. induction H as [|j js Hj H IH]; intros base Hb; [reflexivity|].
  cbn [map product foldl fold_right]. fold (product (iso_mul base (local_transform j)) (map local_transform js)).
  rewrite IH by (apply proper_mul; [exact Hb|apply proper_local, Hj]).
  rewrite iso_mul_move; [reflexivity|exact Hb|apply proper_local, Hj].
Qed.
Lemma move_0 m : move m (V3 0 0 0) = tr m.
Proof. unfold move. destruct m as [[a b c] [i j k w]]. gv; ring. Qed.
Lemma move_1 x : move iso1 x = x.
Proof. unfold move. destruct x. gv; ring. Qed.
Lemma tip_tr js : Forall unit_joint js -> tr (product iso1 (map local_transform js)) = tip js.
Proof.
  intros H. rewrite <- move_0, product_move by (try exact H; apply proper_1). rewrite move_1.
  clear H. induction js as [|j js IH]; [reflexivity|]. cbn. rewrite IH. reflexivity.
Qed.
Lemma facing_rt js v : Forall unit_joint js -> turn (rt (product iso1 (map local_transform js))) v = facing js v.
Proof.
  intros H. assert (Hg : forall base, proper base ->
    turn (rt (product base (map local_transform js))) v = turn (rt base) (facing js v)).
  { induction H as [|j js Hj H IH]; intros base Hb; [reflexivity|].
    cbn [map product foldl facing]. fold (product (iso_mul base (local_transform j)) (map local_transform js)).
    rewrite IH by (apply proper_mul; [exact Hb|apply proper_local, Hj]). cbn [rt iso_mul].
    apply turn_mul; [exact Hb|]. apply proper_local, Hj. }
  rewrite Hg by apply proper_1. cbn. apply turn_q1.
Qed.

Section Joints.
Context {T : Type} `{Sc : Scalar T}.
Implicit Types h : gmap nat (node T).
Lemma locals_joints h l ts : Forall2 (local_at h) l ts -> forall js, joints_of h l js -> ts = map local_transform js.
Proof.
  induction 1 as [|a t l ts (n & Hn & ->) H IH]; intros js Hj.
  - apply Forall2_nil_inv_l in Hj as ->. reflexivity.
  - apply Forall2_cons_inv_l in Hj as (j & js' & (n' & Hn' & ->) & Hj & ->). cbn. rewrite (IH _ Hj). congruence.
Qed.
Lemma joints_exist h l : all_live h l -> exists js, joints_of h l js.
Proof.
  induction l as [|a l IH]; intros Hl; [exists []; constructor|].
  destruct (Hl a) as [n Hn]; [set_solver|]. destruct IH as [js Hjs]; [intros b Hb; apply Hl; set_solver|].
  exists (n_joint n :: js). constructor; [exists n; auto|exact Hjs].
Qed.
Lemma joints_live h l js : joints_of h l js -> all_live h l.
Proof.
  induction 1 as [|a j l js (n & Hn & _) H IH]; intros b Hb; [set_solver|].
  apply elem_of_cons in Hb as [->|Hb]; [eauto|]. apply IH, Hb.
Qed.
Lemma joints_fun h l js js' : joints_of h l js -> joints_of h l js' -> js = js'.
Proof.
  intros H. revert js'. induction H as [|a j l js (n & Hn & ->) H IH]; intros js' H'.
  - apply Forall2_nil_inv_l in H' as ->. reflexivity.
  - apply Forall2_cons_inv_l in H' as (j' & js2 & (n' & Hn' & ->) & H' & ->). rewrite (IH _ H'). congruence.
Qed.
Lemma run_end_joints t h nx c js : joints_of h (c_nodes c) js ->
  run t (end_transform c) (quiet h nx) = Done (product iso1 (map local_transform js)) (quiet h nx).
Proof.
  intros Hj. destruct (run_end_transform t h nx c (joints_live _ _ _ Hj)) as (w & ts & Hr & Hts & ->).
  rewrite (locals_joints _ _ _ Hts _ Hj) in Hr. exact Hr.
Qed.
End Joints.

(** ** reach *)
Lemma len_move m x : proper m -> len (move m x) <= len (tr m) + len x.
Proof. intros H. unfold move. eapply Rle_trans; [apply len_plus|]. rewrite len_turn by exact H. lra. Qed.
(** one joint is a rigid motion followed by its offset *)
Lemma local_span j x : unit_joint j -> len (move (local_transform j) x) <= span j + len x.
Proof.
  intros Hj. unfold span, extension. destruct (j_type j) as [|a|a] eqn:E.
  - rewrite local_fixed by exact E. pose proof (len_move (j_origin j) x (proj2 Hj)). lra.
  - rewrite (local_rotational _ _ _ Hj E). pose proof (len_move (j_origin j) (rotate a (j_position j) x) (proj2 Hj)) as H.
    assert (Ha : unit_axis a) by (destruct Hj as [Ht _]; rewrite E in Ht; exact Ht).
    rewrite <- (turn_axis_angle _ _ _ Ha), len_turn in H by (apply unit_axis_angle, Ha). rewrite (turn_axis_angle _ _ _ Ha) in H. lra.
  - rewrite (proj2 (local_linear _ _ E)). pose proof (len_move (j_origin j) (plus x (times (j_position j) a)) (proj2 Hj)) as H.
    assert (Ha : unit_axis a) by (destruct Hj as [Ht _]; rewrite E in Ht; exact Ht).
    pose proof (len_plus x (times (j_position j) a)) as H1. rewrite len_times, (len_unit a Ha) in H1. lra.
Qed.
Lemma total_cons x xs : total (x :: xs) = x + total xs.
Proof. reflexivity. Qed.
Lemma tip_reach js : Forall unit_joint js -> len (tip js) <= total (map span js).
Proof.
  induction 1 as [|j js Hj H IH]; [cbn; rewrite len_0; lra|].
  cbn [tip map]. rewrite total_cons. pose proof (local_span j (tip js) Hj). lra.
Qed.
Lemma span_nonneg j : 0 <= span j.
Proof.
  unfold span, extension. pose proof (len_nonneg (tr (j_origin j))).
  destruct (j_type j); try lra. pose proof (Rabs_pos (j_position j)). lra.
Qed.
Lemma span_ge j : len (tr (j_origin j)) <= span j.
Proof. unfold span, extension. destruct (j_type j); try lra. pose proof (Rabs_pos (j_position j)). lra. Qed.
Lemma total_nonneg js : 0 <= total (map span js).
Proof. induction js as [|j js IH]; [cbn; lra|]. cbn [map]. rewrite total_cons. pose proof (span_nonneg j). lra. Qed.
Lemma total_app xs ys : total (xs ++ ys) = total xs + total ys.
Proof. induction xs as [|x xs IH]; cbn [app]; [cbn; lra|]. rewrite !total_cons, IH. lra. Qed.

Lemma local_low j x : unit_joint j -> 
  2 * len (tr (j_origin j)) - span j - len x <= len (move (local_transform j) x).
Proof.
  intros Hj. unfold span, extension. 
  assert (Hm : forall y, len (tr (j_origin j)) - len y <= len (move (j_origin j) y)).
  { intros y. unfold move. rewrite <- (len_turn (rt (j_origin j)) y) by apply Hj.
    pose proof (len_low (tr (j_origin j)) (turn (rt (j_origin j)) y)) as H.
    assert (plus (tr (j_origin j)) (turn (rt (j_origin j)) y) = plus (turn (rt (j_origin j)) y) (tr (j_origin j))) as E.
    { generalize (tr (j_origin j)), (turn (rt (j_origin j)) y). intros [] []. gv; ring. }
    rewrite E in H. exact H. }
  destruct (j_type j) as [|a|a] eqn:E.
  - rewrite local_fixed by exact E. specialize (Hm x). lra.
  - rewrite (local_rotational _ _ _ Hj E). specialize (Hm (rotate a (j_position j) x)).
    assert (Ha : unit_axis a) by (destruct Hj as [Ht _]; rewrite E in Ht; exact Ht).
    rewrite <- (turn_axis_angle _ _ _ Ha), len_turn in Hm by (apply unit_axis_angle, Ha). rewrite (turn_axis_angle _ _ _ Ha) in Hm. lra.
  - rewrite (proj2 (local_linear _ _ E)). specialize (Hm (plus x (times (j_position j) a))).
    assert (Ha : unit_axis a) by (destruct Hj as [Ht _]; rewrite E in Ht; exact Ht).
    pose proof (len_plus x (times (j_position j) a)) as H1. rewrite len_times, (len_unit a Ha) in H1. lra.
Qed.
Lemma local_back j x : unit_joint j -> len x - span j <= len (move (local_transform j) x).
Proof.
  intros Hj. unfold span, extension.
  assert (Hm : forall y, len y - len (tr (j_origin j)) <= len (move (j_origin j) y)).
  { intros y. unfold move. rewrite <- (len_turn (rt (j_origin j)) y) by apply Hj. apply len_low. }
  destruct (j_type j) as [|a|a] eqn:E.
  - rewrite local_fixed by exact E. specialize (Hm x). lra.
  - rewrite (local_rotational _ _ _ Hj E). specialize (Hm (rotate a (j_position j) x)).
    assert (Ha : unit_axis a) by (destruct Hj as [Ht _]; rewrite E in Ht; exact Ht).
    rewrite <- (turn_axis_angle _ _ _ Ha), len_turn in Hm by (apply unit_axis_angle, Ha). rewrite (turn_axis_angle _ _ _ Ha) in Hm. lra.
  - rewrite (proj2 (local_linear _ _ E)). specialize (Hm (plus x (times (j_position j) a))).
    assert (Ha : unit_axis a) by (destruct Hj as [Ht _]; rewrite E in Ht; exact Ht).
    pose proof (len_low x (times (j_position j) a)) as H1. rewrite len_times, (len_unit a Ha) in H1. lra.
Qed.
Lemma tip_hole js1 j js2 : Forall unit_joint (js1 ++ j :: js2) ->
  2 * len (tr (j_origin j)) - total (map span (js1 ++ j :: js2)) <= len (tip (js1 ++ j :: js2)).
Proof.
  intros H. induction js1 as [|i js1 IH]; cbn [app] in *.
  - apply Forall_cons in H as [Hj H]. cbn [tip map]. pose proof (local_low j (tip js2) Hj). pose proof (tip_reach js2 H).
    rewrite total_cons. lra.
  - apply Forall_cons in H as [Hi H]. cbn [tip map]. specialize (IH H).
    pose proof (local_back i (tip (js1 ++ j :: js2)) Hi). rewrite total_cons. lra.
Qed.

(** ** change of pose *)
Lemma sin_le_abs x : Rabs (sin x) <= Rabs x.
Proof.
  destruct (Rle_dec 0 x) as [H|H].
  - rewrite (Rabs_pos_eq x) by exact H. destruct (Req_dec x 0) as [->|Hx]; [rewrite sin_0, Rabs_R0; lra|].
    apply Rabs_le. pose proof (SIN_bound x). assert (0 < x) by lra. pose proof (sin_lt_x x H1). split; [|lra].
    destruct (Rle_dec x 1); [|lra]. assert (0 <= sin x); [|lra]. apply sin_ge_0; [lra|]. pose proof PI2_1. lra.
  - rewrite (Rabs_left x) by lra. rewrite <- Rabs_Ropp, <- sin_neg. pose proof (sin_lt_x (- x)) as H1.
    apply Rabs_le. pose proof (SIN_bound (- x)). split; [|lra].
    destruct (Rle_dec (- x) 1); [|lra]. assert (0 <= sin (- x)); [|lra]. apply sin_ge_0; [lra|]. pose proof PI2_1. lra.
Qed.
Lemma rotate_chord a d x : unit_axis a -> len (minus (rotate a d x) x) <= Rabs d * len x.
Proof.
  intros Ha. apply len_le_of_sqr; [apply Rmult_le_pos; [apply Rabs_pos|apply len_nonneg]|].
  replace (Rabs d * len x * (Rabs d * len x)) with (Rabs d * Rabs d * (len x * len x)) by ring.
  rewrite len_sqr. replace (Rabs d * Rabs d) with (d * d) by (rewrite <- Rabs_mult; symmetry; apply Rabs_pos_eq, Rle_0_sqr).
  set (s := sin (d / 2)).
  assert (Hs : s * s <= d * d / 4).
  { unfold s. pose proof (sin_le_abs (d / 2)) as H. pose proof (Rabs_pos (sin (d/2))).
    assert (H1 : Rabs (sin (d/2)) * Rabs (sin (d/2)) <= Rabs (d/2) * Rabs (d/2)) by nra.
    rewrite <- !Rabs_mult, !Rabs_pos_eq in H1 by apply Rle_0_sqr. lra. }
  assert (E : inner (minus (rotate a d x) x) (minus (rotate a d x) x) =
    (1 - cos d) * 2 * (inner x x - inner a x * inner a x)).
  { unfold rotate, unit_axis in *. pose proof (sc1 d) as Hsc.
    destruct a as [a b c], x as [x y z]. unfold inner, minus, plus, times, cross in *. cbn [vx vy vz] in *.
    generalize dependent (sin d). generalize dependent (cos d). intros C S Hsc.
    assert (S * S = 1 - C * C) by lra.
    assert (Hc2 : c * c = 1 - a * a - b * b) by lra.
    set (p := a * x + b * y + c * z).
    transitivity ((C - 1) * (C - 1) * (x*x+y*y+z*z) + S * S * ((b*z-c*y)*(b*z-c*y)+(c*x-a*z)*(c*x-a*z)+(a*y-b*x)*(a*y-b*x))
      + (1-C)*(1-C)*p*p*(a*a+b*b+c*c) + 2*(C-1)*(1-C)*p*p); [unfold p; ring|].
    assert (HL : (b*z-c*y)*(b*z-c*y)+(c*x-a*z)*(c*x-a*z)+(a*y-b*x)*(a*y-b*x) = (a*a+b*b+c*c)*(x*x+y*y+z*z) - p*p) by (unfold p; ring).
    rewrite HL, H, Ha. ring. }
  rewrite E, (half_cos d). fold s. pose proof (inner_nonneg x).
  assert (0 <= inner a x * inner a x) by apply Rle_0_sqr.
  assert (Hb : inner a x * inner a x <= inner x x).
  { pose proof (inner_le_len a x) as H1. pose proof (inner_le_len a (times (-1) x)) as H2.
    rewrite len_times, (len_unit a Ha) in *. replace (Rabs (-1)) with 1 in H2 by (rewrite Rabs_left; lra).
    assert (inner a (times (-1) x) = - inner a x) as E2 by (destruct a, x; unfold inner; cbn; ring). rewrite E2 in H2.
    rewrite <- (len_sqr x). pose proof (len_nonneg x). nra. }
  assert (0 <= s * s) by apply Rle_0_sqr. nra.
Qed.
Lemma rotate_lip a p p' x : unit_axis a -> len (minus (rotate a p' x) (rotate a p x)) <= Rabs (p' - p) * len x.
Proof.
  intros Ha. replace p' with ((p' - p) + p) at 1 by ring. rewrite rotate_add by exact Ha.
  eapply Rle_trans; [apply rotate_chord, Ha|].
  rewrite <- (turn_axis_angle a p x Ha), len_turn by (apply unit_axis_angle, Ha). lra.
Qed.
Lemma dist_move m x y : proper m -> len (minus (move m x) (move m y)) = len (minus x y).
Proof. intros H. rewrite move_minus. apply len_turn, H. Qed.

Lemma unit_other j j' : unit_joint j -> at_other_position j j' -> unit_joint j'.
Proof. intros [Ht Ho] [E1 E2]. split; [rewrite E1|rewrite E2]; assumption. Qed.

Lemma local_lip j j' x : unit_joint j -> at_other_position j j' ->
  len (minus (move (local_transform j') x) (move (local_transform j) x)) <=
  match j_type j with
  | Fixed => 0 | Rotational _ => Rabs (j_position j' - j_position j) * len x
  | Linear _ => Rabs (j_position j' - j_position j)
  end.
Proof.
  intros Hj Ho. pose proof (unit_other _ _ Hj Ho) as Hj'. destruct Ho as [Et Eo].
  destruct (j_type j) as [|a|a] eqn:E.
  - rewrite !local_fixed by congruence. rewrite Eo, dist_move by apply Hj.
    assert (minus x x = V3 0 0 0) as -> by (destruct x; gv; ring). rewrite len_0. lra.
  - rewrite (local_rotational _ _ _ Hj' Et), (local_rotational _ _ _ Hj E), Eo, dist_move by apply Hj.
    apply rotate_lip. destruct Hj as [Ht _]. rewrite E in Ht. exact Ht.
  - rewrite (proj2 (local_linear _ _ Et)), (proj2 (local_linear _ _ E)), Eo, dist_move by apply Hj.
    assert (minus (plus x (times (j_position j') a)) (plus x (times (j_position j) a)) = times (j_position j' - j_position j) a) as ->
      by (destruct x, a; gv; ring).
    rewrite len_times, len_unit; [lra|]. destruct Hj as [Ht _]. rewrite E in Ht. exact Ht.
Qed.
Lemma tip_lip js js' : Forall unit_joint js -> Forall2 at_other_position js js' ->
  len (minus (tip js') (tip js)) <= sweep js js'.
Proof.
  intros Hu H. induction H as [|j j' js js' Hj H IH].
  - cbn. assert (minus (V3 0 0 0) (V3 0 0 0) = V3 0 0 0) as -> by (gv; ring). rewrite len_0. lra.
  - apply Forall_cons in Hu as [Hju Hu]. cbn [tip sweep]. specialize (IH Hu).
    eapply Rle_trans; [apply (len_minus_tri _ (move (local_transform j') (tip js)))|].
    rewrite dist_move by (apply proper_local; eapply unit_other; eauto).
    pose proof (local_lip j j' (tip js) Hju Hj) as Hl. pose proof (tip_reach js Hu) as Hr.
    pose proof (Rabs_pos (j_position j' - j_position j)).
    destruct (j_type j); nra.
Qed.
Lemma facing_lip js js' v : Forall unit_joint js -> Forall2 at_other_position js js' ->
  len (minus (facing js' v) (facing js v)) <= swing js js' * len v.
Proof.
  intros Hu H. induction H as [|j j' js js' Hj H IH].
  - cbn. assert (minus v v = V3 0 0 0) as -> by (destruct v; gv; ring). rewrite len_0. lra.
  - apply Forall_cons in Hu as [Hju Hu]. cbn [facing swing]. specialize (IH Hu).
    eapply Rle_trans; [apply (len_minus_tri _ (turn (rt (local_transform j')) (facing js v)))|].
    pose proof (unit_other _ _ Hju Hj) as Hju'.
    rewrite <- turn_minus, len_turn by (apply proper_local; exact Hju').
    assert (Hf : len (facing js v) = len v).
    { clear -Hu. induction Hu as [|i js Hi Hu IH]; [reflexivity|]. cbn. rewrite len_turn by (apply proper_local, Hi). exact IH. }
    assert (Hs : len (minus (turn (rt (local_transform j')) (facing js v)) (turn (rt (local_transform j)) (facing js v))) <=
      match j_type j with Rotational _ => Rabs (j_position j' - j_position j) | _ => 0 end * len v); [|lra].
    rewrite <- Hf. generalize (facing js v). intros x. destruct Hj as [Et Eo].
    assert (H0 : forall y, len (minus y y) <= 0 * len x).
    { intros y. assert (minus y y = V3 0 0 0) as -> by (destruct y; gv; ring). rewrite len_0. lra. }
    destruct (j_type j) as [|a|a] eqn:E.
    + rewrite !local_fixed by congruence. rewrite Eo. apply H0.
    + assert (Ha : unit_axis a) by (destruct Hju as [Ht _]; rewrite E in Ht; exact Ht).
      unfold local_transform. rewrite Et, Eo, E. cbn [iso_mul rt joint_transform].
      rewrite !turn_mul by (try apply Hju; apply unit_axis_angle, Ha).
      rewrite <- turn_minus, len_turn by apply Hju. rewrite !turn_axis_angle by exact Ha. apply rotate_lip, Ha.
    + rewrite (proj1 (local_linear _ _ E)), (proj1 (local_linear _ _ Et)), Eo. apply H0.
Qed.

(** ** solved targets *)
Lemma max_spans h h' arm js es js' :
  chain_of h (c_nodes arm) arm -> joints_of h (c_nodes arm) js -> Forall2 max_span js es ->
  limits_ok h (c_movable arm) -> only_moved (c_movable arm) h h' -> rest h' (c_movable arm) ->
  joints_of h' (c_nodes arm) js' ->
  Forall2 at_other_position js js' /\ total (map span js') <= total es.
Proof.
  intros (_ & Hmov & _) Hjs Hes Hlim [Hm _] Hr Hjs'. rewrite Hmov in *. clear Hmov.
  assert (Hsub : forall a, a ∈ c_nodes arm -> node_movable h a = true -> a ∈ List.filter (node_movable h) (c_nodes arm)).
  { intros a Ha Hb. apply elem_of_list_In, filter_In. split; [apply elem_of_list_In, Ha|exact Hb]. }
  revert Hsub Hr Hlim. generalize (List.filter (node_movable h) (c_nodes arm)). intros mv Hsub Hr Hlim.
  revert es js' Hes Hjs'. induction Hjs as [|a j l js (n & Hn & ->) Hjs IH]; intros es js' Hes Hjs'.
  - apply Forall2_nil_inv_l in Hjs' as ->. apply Forall2_nil_inv_l in Hes as ->. split; [constructor|cbn; lra].
  - apply Forall2_cons_inv_l in Hjs' as (j' & js2 & (n' & Hn' & ->) & Hjs' & ->).
    apply Forall2_cons_inv_l in Hes as (e & es' & He & Hes & ->).
    destruct (IH ltac:(intros; apply Hsub; set_solver) _ _ Hes Hjs') as [H1 H2].
    specialize (Hm a). rewrite Hn, Hn' in Hm. destruct Hm as (_ & Et & _ & El & Eo & _).
    split; [constructor; [split; assumption|exact H1]|]. cbn [map]. rewrite !total_cons.
    assert (span (n_joint n') <= e); [|lra].
    unfold span, extension. unfold max_span in He. rewrite Et, Eo. destruct (j_type (n_joint n)) as [|ax|ax] eqn:E; try lra.
    destruct He as (r & Hlr & ->). apply Rplus_le_compat_l.
    assert (Ha : a ∈ mv).
    { apply Hsub; [set_solver|]. unfold node_movable. rewrite Hn, E. reflexivity. }
    pose proof (Hlim a n Ha Hn r Hlr) as Hw.
    pose proof (Hr a n' r Ha Hn' ltac:(congruence)) as Hc.
    assert (Hin : rmin r <= j_position (n_joint n') <= rmax r).
    { apply Rleb_spec in Hw. revert Hc. unfold clamp, sgt. cbn [slt RScalar]. unfold Rltb.
      destruct (Rlt_dec (j_position (n_joint n')) (rmin r)); [intros; lra|].
      destruct (Rlt_dec (rmax r) (j_position (n_joint n'))); [intros; lra|]. lra. }
    unfold Rabs, Rmax. repeat destruct Rcase_abs; destruct Rle_dec; lra.
Qed.
Lemma unit_joints_other js js' : Forall unit_joint js -> Forall2 at_other_position js js' -> Forall unit_joint js'.
Proof.
  intros Hu H. induction H; [constructor|]. apply Forall_cons in Hu as [? Hu]. constructor; [eapply unit_other; eauto|auto].
Qed.
Lemma target_near (x w : vec3 R) d : len (minus x w) < d -> len x < len w + d.
Proof.
  intros H. pose proof (len_minus_tri x w (V3 0 0 0)) as H1.
  assert (E : forall y, minus y (V3 0 0 0) = y) by (intros []; gv; ring). rewrite !E in H1. lra.
Qed.

