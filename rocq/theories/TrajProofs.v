(** * Moving all joints at once: the velocity of the end *)
From Coq Require Import String Reals Lra Nsatz.
From stdpp Require Import gmap.
From Verif Require Import Scalar ScalarR Geometry Joint Link Prog NodeM ChainM FuncsM IkM RunLemmas
  SpecJoint SpecNode SpecGraph GraphProofs SpecChain ChainProofs SpecFK FKProofs IkProofs JacProofs SpecGeom RGeom GeomProofs JacReal
  SpecStep LinArm.
Local Open Scope R_scope.

Lemma deriv_prod (f g : R -> R) x df dg : derivable_pt_lim f x df -> derivable_pt_lim g x dg ->
  derivable_pt_lim (fun s => f s * g s) x (df * g x + f x * dg).
Proof. intros Hf Hg. exact (derivable_pt_lim_mult f g x df dg Hf Hg). Qed.
Lemma deriv_sum (f g : R -> R) x df dg : derivable_pt_lim f x df -> derivable_pt_lim g x dg ->
  derivable_pt_lim (fun s => f s + g s) x (df + dg).
Proof. intros Hf Hg. exact (derivable_pt_lim_plus f g x df dg Hf Hg). Qed.
Lemma deriv_diff (f g : R -> R) x df dg : derivable_pt_lim f x df -> derivable_pt_lim g x dg ->
  derivable_pt_lim (fun s => f s - g s) x (df - dg).
Proof. intros Hf Hg. exact (derivable_pt_lim_minus f g x df dg Hf Hg). Qed.
Lemma deriv_const k x : derivable_pt_lim (fun _ => k) x 0.
Proof. exact (derivable_pt_lim_const k x). Qed.
Lemma deriv_cos_of u x d : derivable_pt_lim u x d -> derivable_pt_lim (fun s => cos (u s)) x (- sin (u x) * d).
Proof. intros H. exact (derivable_pt_lim_comp u cos x d _ H (derivable_pt_lim_cos (u x))). Qed.
Lemma deriv_sin_of u x d : derivable_pt_lim u x d -> derivable_pt_lim (fun s => sin (u s)) x (cos (u x) * d).
Proof. intros H. exact (derivable_pt_lim_comp u sin x d _ H (derivable_pt_lim_sin (u x))). Qed.
Ltac dv := repeat first
  [ eassumption | apply deriv_const | apply deriv_prod | apply deriv_diff | apply deriv_sum
  | apply deriv_cos_of | apply deriv_sin_of ].
Ltac dvc H := eapply deriv_ext; [| |dv]; [intros ?; unfold H; reflexivity|].

(** a rotation whose angle and argument both move *)
Lemma deriv3_rotate2 a u y x d dy : unit_axis a -> derivable_pt_lim u x d -> deriv3 y x dy ->
  deriv3 (fun s => rotate a (u s) (y s)) x (plus (times d (cross a (rotate a (u x) (y x)))) (rotate a (u x) dy)).
Proof.
  intros Ha Hu (H1 & H2 & H3). rewrite cross_rotate by exact Ha.
  unfold rotate, plus, times, minus, cross, inner in *. destruct a as [a1 a2 a3], dy as [e1 e2 e3]. unfold unit_axis in Ha. cbn [vx vy vz] in *.
  split; [|split]; cbn [vx vy vz]; (eapply deriv_ext; [intros s; reflexivity| |dv]); cbn beta; ring.
Qed.
Lemma deriv3_plus f g x df dg : deriv3 f x df -> deriv3 g x dg -> deriv3 (fun s => plus (f s) (g s)) x (plus df dg).
Proof. intros (H1 & H2 & H3) (G1 & G2 & G3). split; [|split]; cbn [plus vx vy vz]; apply deriv_sum; assumption. Qed.
Lemma deriv3_times u a x d : derivable_pt_lim u x d -> deriv3 (fun s => times (u s) a) x (times d a).
Proof.
  intros H. split; [|split]; cbn [times vx vy vz]; (eapply deriv_ext; [intros s; reflexivity| |apply deriv_prod; [exact H|apply deriv_const]]); cbn beta; ring.
Qed.

(** positions given to the movable joints, in order *)
Fixpoint feed (js : list (joint R)) (q : list R) : list (joint R) :=
  match js with
  | [] => []
  | j :: js => match j_type j with
      | Fixed => j :: feed js q
      | _ => match q with x :: q => jat j x :: feed js q | [] => j :: feed js [] end
      end
  end.
Fixpoint nmov (js : list (joint R)) : nat :=
  match js with [] => O | j :: js => match j_type j with Fixed => nmov js | _ => S (nmov js) end end.
Fixpoint posns (js : list (joint R)) : list R :=
  match js with [] => [] | j :: js => match j_type j with Fixed => posns js | _ => j_position j :: posns js end end.
(** velocity and angular velocity of the end, in the frame of the base *)
Fixpoint twist (pend : vec3 R) (W : iso R) (js : list (joint R)) (ds : list R) : vec3 R * vec3 R :=
  match js with
  | [] => (V3 0 0 0, V3 0 0 0)
  | j :: js =>
      let w := iso_mul W (local_transform j) in
      match j_type j, ds with
      | Linear a, d :: ds => let '(l, o) := twist pend w js ds in (plus (times d (turn (rt w) a)) l, o)
      | Rotational a, d :: ds => let '(l, o) := twist pend w js ds in
          (plus (times d (cross (turn (rt w) a) (minus pend (tr w)))) l, plus (times d (turn (rt w) a)) o)
      | _, _ => twist pend w js ds
      end
  end.
Fixpoint colsof (pend : vec3 R) (W : iso R) (js : list (joint R)) : list (list R) :=
  match js with
  | [] => []
  | j :: js =>
      let w := iso_mul W (local_transform j) in
      match jcol pend w (j_type j) with Some c => c :: colsof pend w js | None => colsof pend w js end
  end.
Lemma combine_twist pend js : forall W ds, length ds = nmov js ->
  combine 6 (colsof pend W js) ds = let '(l, o) := twist pend W js ds in [vx l; vy l; vz l; vx o; vy o; vz o].
Proof.
  induction js as [|j js IH]; intros W ds Hl; [destruct ds; reflexivity|]. cbn [colsof nmov twist] in *.
  destruct (j_type j) as [|a|a]; cbn [jcol]; [apply IH; exact Hl| |]; (destruct ds as [|d ds]; [discriminate|]); injection Hl as Hl;
    cbn [combine]; rewrite (IH _ ds Hl); destruct (twist pend _ js ds) as [lv ov]; rewrite !qrot_turn; cbn [zip_with].
  - rewrite vcross_cross, vsub_minus. set (x := cross _ _). set (y := turn _ _). destruct x, y, lv, ov. unfold plus, times. cbn.
    repeat (apply (f_equal2 (@cons R)); [ring|]). reflexivity.
  - set (y := turn _ _). destruct y, lv, ov. unfold plus, times. cbn. change (@szero R RScalar) with 0.
    repeat (apply (f_equal2 (@cons R)); [ring|]). reflexivity.
Qed.

Definition feed_at (js : list (joint R)) (us : list (R -> R)) (s : R) : list (joint R) := feed js (map (fun u => u s) us).
Lemma feed_unit js : Forall unit_joint js -> forall q, Forall unit_joint (feed js q).
Proof.
  induction 1 as [|j js Hj H IH]; intros q; [constructor|]. cbn [feed].
  destruct (j_type j); [|destruct q|destruct q]; constructor; auto; apply IH.
Qed.
Lemma feed_posns js : map local_transform (feed js (posns js)) = map local_transform js.
Proof.
  induction js as [|j js IH]; [reflexivity|]. cbn [feed posns].
  destruct (j_type j) eqn:E; cbn [map]; rewrite IH; reflexivity.
Qed.

Definition end_at (W : iso R) (js : list (joint R)) : iso R := product W (map local_transform js).
Lemma end_at_cons W j js : end_at W (j :: js) = end_at (iso_mul W (local_transform j)) js.
Proof. reflexivity. Qed.
Lemma proper_locals js : Forall unit_joint js -> Forall proper (map local_transform js).
Proof. induction 1; cbn; constructor; auto. apply proper_local. assumption. Qed.
Lemma end_at_split W js : proper W -> Forall unit_joint js -> end_at W js = iso_mul W (end_at iso1 js).
Proof. intros HW Hj. apply product_iso1; [exact HW|apply proper_locals; exact Hj]. Qed.
Lemma proper_end_at W js : proper W -> Forall unit_joint js -> proper (end_at W js).
Proof. intros HW Hj. apply proper_product; [exact HW|apply proper_locals; exact Hj]. Qed.

(** undoing a pose *)
Lemma turn_back q v : unit_quat q -> turn q (turn (qconj q) v) = v.
Proof. intros H. rewrite <- turn_mul by (auto using unit_qconj). rewrite qmul_conj_r by exact H. apply turn_q1. Qed.

Lemma traj_lemma x js : Forall unit_joint js -> forall us ds W,
  length us = nmov js -> Forall2 (fun u d => derivable_pt_lim u x d) us ds -> map (fun u => u x) us = posns js -> proper W ->
  let '(l, o) := twist (tr (end_at W js)) W js ds in
  deriv3 (fun s => tr (end_at W (feed_at js us s))) x l /\
  forall v, deriv3 (fun s => turn (rt (end_at W (feed_at js us s))) v) x (cross o (turn (rt (end_at W js)) v)).
Proof.
  induction 1 as [|j js Hj Hjs IH]; intros us ds W Hlen Hus Hpos HW.
  { cbn [twist]. split; [exact (deriv3_const (tr W) x)|]. intros v. rewrite cross_zero. exact (deriv3_const (turn (rt W) v) x). }
  set (w := iso_mul W (local_transform j)).
  assert (Hl : proper (local_transform j)) by (apply proper_local; exact Hj).
  assert (Hw : proper w) by (apply (proper_mul W); assumption).
  cbn [twist]. fold w. rewrite end_at_cons. fold w. cbn [nmov posns] in Hlen, Hpos.
  (* the rest of the arm, seen from its own base *)
  assert (Hrest : forall us' ds', length us' = nmov js -> Forall2 (fun u d => derivable_pt_lim u x d) us' ds' ->
      map (fun u => u x) us' = posns js ->
      let '(l, o) := twist (tr (end_at w js)) w js ds' in
      (exists y', deriv3 (fun s => tr (end_at iso1 (feed_at js us' s))) x y' /\ turn (rt w) y' = l) /\
      forall v, exists y', deriv3 (fun s => turn (rt (end_at iso1 (feed_at js us' s))) v) x y' /\
        turn (rt w) y' = cross o (turn (rt (end_at w js)) v)).
  { intros us' ds' H1 H2 H3. specialize (IH us' ds' w H1 H2 H3 Hw). destruct (twist _ _ js ds') as [l o]. destruct IH as [I1 I2].
    assert (Hsp : forall s, end_at w (feed_at js us' s) = iso_mul w (end_at iso1 (feed_at js us' s))).
    { intros s. apply end_at_split; [exact Hw|apply feed_unit; exact Hjs]. }
    assert (Hpr : forall s, proper (end_at iso1 (feed_at js us' s))) by (intros s; apply proper_end_at; [apply proper_1|apply feed_unit; exact Hjs]).
    split.
    - exists (turn (qconj (rt w)) l). split; [|apply turn_back; exact Hw].
      apply (deriv3_ext (fun s => turn (qconj (rt w)) (plus (tr (end_at w (feed_at js us' s))) (times (-1) (tr w)))) _ x
        (turn (qconj (rt w)) (plus l (V3 0 0 0)))); [|rewrite plus_zero_r; reflexivity|].
      + intros s. rewrite Hsp, iso_mul_tr_eq. rewrite <- (turn_conj (rt w) (tr (end_at iso1 (feed_at js us' s)))) at 2 by exact Hw.
        f_equal. set (y := turn (rt w) _). destruct y, (tr w). gv; ring.
      + apply deriv3_turn, deriv3_plus; [exact I1|apply deriv3_const].
    - intros v. exists (turn (qconj (rt w)) (cross o (turn (rt (end_at w js)) v))). split; [|apply turn_back; exact Hw].
      apply (deriv3_ext (fun s => turn (qconj (rt w)) (turn (rt (end_at w (feed_at js us' s))) v)) _ x
        (turn (qconj (rt w)) (cross o (turn (rt (end_at w js)) v)))); [|reflexivity|apply deriv3_turn, I2].
      intros s. rewrite Hsp. cbn [iso_mul rt]. rewrite turn_mul by (exact Hw || apply Hpr). apply turn_conj. exact Hw. }
  assert (Hend : end_at w js = iso_mul w (end_at iso1 js)) by (apply end_at_split; assumption).
  assert (Hpend : proper (end_at iso1 js)) by (apply proper_end_at; [apply proper_1|exact Hjs]).
  destruct (j_type j) as [|a|a] eqn:Ety.
  - (* fixed *)
    specialize (IH us ds w Hlen Hus Hpos Hw). destruct (twist _ _ js ds) as [l o].
    unfold feed_at in *. cbn [feed]. rewrite Ety. exact IH.
  - (* rotational *)
    destruct us as [|u us]; [discriminate|]. injection Hlen as Hlen. inversion Hus as [|? d ? ds' Hu Hus' Ea Eb]; subst ds. clear Hus.
    cbn [map] in Hpos. injection Hpos as Hp Hpos. specialize (Hrest us ds' Hlen Hus' Hpos).
    destruct (twist (tr (end_at w js)) w js ds') as [lv ov]. destruct Hrest as [(y' & Hy & El) Hrv].
    assert (Ha : unit_axis a) by (destruct Hj as [Ht _]; rewrite Ety in Ht; exact Ht).
    set (A := iso_mul W (j_origin j)). assert (HA : proper A) by (apply proper_mul; [assumption|apply Hj]).
    assert (Hf : forall s, end_at W (feed_at (j :: js) (u :: us) s) = iso_mul (iso_mul W (local_transform (jat j (u s)))) (end_at iso1 (feed_at js us s))).
    { intros s. unfold feed_at. cbn [feed map]. rewrite Ety, end_at_cons. apply end_at_split; [|apply feed_unit; exact Hjs].
      apply (proper_mul W); [exact HW|apply proper_local; exact Hj]. }
    assert (Hpr : forall s, proper (end_at iso1 (feed_at js us s))) by (intros s; apply proper_end_at; [apply proper_1|apply feed_unit; exact Hjs]).
    assert (Hm : forall s z, move (iso_mul W (local_transform (jat j s))) z = move A (rotate a s z)).
    { intros s z. rewrite iso_mul_move by (exact HW || apply proper_local; exact Hj).
      rewrite (local_rotational (jat j s) a) by (exact Hj || exact Ety). unfold A. rewrite iso_mul_move by (exact HW || apply Hj). reflexivity. }
    assert (Hmt : forall s z, turn (rt (iso_mul W (local_transform (jat j s)))) z = turn (rt A) (rotate a s z)).
    { intros s z. pose proof (Hm s z) as E1. pose proof (Hm s (V3 0 0 0)) as E0. rewrite rotate_zero, !move_zero in E0.
      unfold move in E1. rewrite E0 in E1. apply (f_equal (fun y => minus y (tr A))) in E1. rewrite !minus_plus_r in E1. exact E1. }
    assert (Hjw : iso_mul W (local_transform (jat j (u x))) = w) by (rewrite Hp; reflexivity).
    assert (HtW : tr w = tr A).
    { rewrite <- Hjw. pose proof (Hm (u x) (V3 0 0 0)) as E0. rewrite rotate_zero, !move_zero in E0. exact E0. }
    assert (Hax : turn (rt w) a = turn (rt A) a) by (rewrite <- Hjw, Hmt, rotate_axis by exact Ha; reflexivity).
    assert (Hrw : forall z, turn (rt w) z = turn (rt A) (rotate a (u x) z)) by (intros z; rewrite <- Hjw; apply Hmt).
    assert (Hx : end_at iso1 (feed_at js us x) = end_at iso1 js).
    { unfold end_at, feed_at. rewrite Hpos, feed_posns. reflexivity. }
    split.
    + apply (deriv3_ext (fun s => move A (rotate a (u s) (tr (end_at iso1 (feed_at js us s))))) _ x
        (turn (rt A) (plus (times d (cross a (rotate a (u x) (tr (end_at iso1 (feed_at js us x)))))) (rotate a (u x) y')))).
      * intros s. rewrite Hf, <- Hm, iso_mul_tr_eq. unfold move. set (p := turn _ _). destruct p, (tr (iso_mul W _)). gv; ring.
      * rewrite turn_plus, turn_times, <- cross_turn by exact HA. rewrite <- !Hrw, El, Hx, Hax. f_equal. f_equal. f_equal.
        rewrite Hend, iso_mul_tr_eq. set (p := turn _ _). destruct p, (tr w). gv; ring.
      * apply deriv3_move, deriv3_rotate2; assumption.
    + intros v. destruct (Hrv v) as (z' & Hz & Ez).
      apply (deriv3_ext (fun s => turn (rt A) (rotate a (u s) (turn (rt (end_at iso1 (feed_at js us s))) v))) _ x
        (turn (rt A) (plus (times d (cross a (rotate a (u x) (turn (rt (end_at iso1 (feed_at js us x))) v)))) (rotate a (u x) z')))).
      * intros s. rewrite Hf, <- Hmt. cbn [iso_mul rt].
        rewrite (turn_mul (qmul (rt W) (rt (local_transform (jat j (u s)))))); [reflexivity| |apply Hpr].
        apply unit_qmul; [exact HW|apply proper_local; exact Hj].
      * rewrite turn_plus, turn_times, <- cross_turn by exact HA. rewrite <- !Hrw, Ez, Hx, Hax.
        assert (turn (rt w) (turn (rt (end_at iso1 js)) v) = turn (rt (end_at w js)) v) as ->.
        { rewrite Hend. cbn [iso_mul rt]. symmetry. apply turn_mul; [exact Hw|exact Hpend]. }
        set (p := turn (rt (end_at w js)) v). set (b := turn (rt A) a). destruct p, b, ov. gv; ring.
      * apply deriv3_turn, deriv3_rotate2; assumption.
  - (* linear *)
    destruct us as [|u us]; [discriminate|]. injection Hlen as Hlen. inversion Hus as [|? d ? ds' Hu Hus' Ea Eb]; subst ds. clear Hus.
    cbn [map] in Hpos. injection Hpos as Hp Hpos. specialize (Hrest us ds' Hlen Hus' Hpos).
    destruct (twist (tr (end_at w js)) w js ds') as [lv ov]. destruct Hrest as [(y' & Hy & El) Hrv].
    set (A := iso_mul W (j_origin j)). assert (HA : proper A) by (apply proper_mul; [assumption|apply Hj]).
    assert (Hf : forall s, end_at W (feed_at (j :: js) (u :: us) s) = iso_mul (iso_mul W (local_transform (jat j (u s)))) (end_at iso1 (feed_at js us s))).
    { intros s. unfold feed_at. cbn [feed map]. rewrite Ety, end_at_cons. apply end_at_split; [|apply feed_unit; exact Hjs].
      apply (proper_mul W); [exact HW|apply proper_local; exact Hj]. }
    assert (Hpr : forall s, proper (end_at iso1 (feed_at js us s))) by (intros s; apply proper_end_at; [apply proper_1|apply feed_unit; exact Hjs]).
    assert (Hm : forall s z, move (iso_mul W (local_transform (jat j s))) z = move A (plus z (times s a))).
    { intros s z. rewrite iso_mul_move by (exact HW || apply proper_local; exact Hj).
      rewrite (proj2 (local_linear (jat j s) a Ety)). unfold A. rewrite iso_mul_move by (exact HW || apply Hj). reflexivity. }
    assert (Hrt : forall s, rt (iso_mul W (local_transform (jat j s))) = rt A).
    { intros s. unfold A. cbn [iso_mul rt]. f_equal. apply (local_linear (jat j s) a Ety). }
    assert (Hjw : iso_mul W (local_transform (jat j (u x))) = w) by (rewrite Hp; reflexivity).
    assert (Hrw : rt w = rt A) by (rewrite <- Hjw; apply Hrt).
    split.
    + apply (deriv3_ext (fun s => move A (plus (tr (end_at iso1 (feed_at js us s))) (times (u s) a))) _ x
        (turn (rt A) (plus y' (times d a)))).
      * intros s. rewrite Hf, <- Hm, iso_mul_tr_eq. unfold move. set (p := turn _ _). destruct p, (tr (iso_mul W _)). gv; ring.
      * rewrite turn_plus, turn_times, <- Hrw, El. set (p := times d _). destruct p, lv. gv; ring.
      * apply deriv3_move, deriv3_plus; [exact Hy|apply deriv3_times; exact Hu].
    + intros v. destruct (Hrv v) as (z' & Hz & Ez).
      apply (deriv3_ext (fun s => turn (rt A) (turn (rt (end_at iso1 (feed_at js us s))) v)) _ x (turn (rt A) z')).
      * intros s. rewrite Hf, <- (Hrt (u s)). cbn [iso_mul rt].
        rewrite (turn_mul (qmul (rt W) (rt (local_transform (jat j (u s)))))); [reflexivity| |apply Hpr].
        apply unit_qmul; [exact HW|apply proper_local; exact Hj].
      * rewrite <- Hrw. exact Ez.
      * apply deriv3_turn, Hz.
Qed.

(** ** On the heap *)
Lemma nmov_filter h L js : joints_at h L js -> nmov js = length (List.filter (node_movable h) L).
Proof.
  induction 1 as [|a j L js (n & Hn & ->) H IH]; [reflexivity|]. cbn [nmov List.filter]. unfold node_movable at 1. rewrite Hn.
  destruct (j_type (n_joint n)); cbn [length]; congruence.
Qed.
Lemma posns_filter h L js : joints_at h L js -> map Some (posns js) = map (position_at h) (List.filter (node_movable h) L).
Proof.
  induction 1 as [|a j L js (n & Hn & ->) H IH]; [reflexivity|]. cbn [posns List.filter]. unfold node_movable at 1. rewrite Hn.
  destruct (j_type (n_joint n)); [exact IH| |]; cbn [map]; (f_equal; [unfold position_at; rewrite Hn; reflexivity|exact IH]).
Qed.
Lemma feed_joints h h' L : forall js q, joints_at h L js -> length q = nmov js ->
  (forall i a p, List.filter (node_movable h) L !! i = Some a -> q !! i = Some p -> moved_at h h' a p) ->
  (forall b, b ∈ L -> node_movable h b = false -> h' !! b = h !! b) ->
  exists js', joints_at h' L js' /\ map local_transform js' = map local_transform (feed js q).
Proof.
  induction L as [|a L IH]; intros js q Hj Hl Hm Ho; inversion Hj as [|? j ? js0 (n & Hn & ->) Hj' E1 E2]; subst js.
  { exists []. split; [constructor|reflexivity]. }
  cbn [nmov feed List.filter] in *. unfold node_movable in Hm at 1. rewrite Hn in Hm.
  assert (Ho' : forall b, b ∈ L -> node_movable h b = false -> h' !! b = h !! b) by (intros b Hb; apply Ho; set_solver).
  assert (Hmv : forall x q', moved_at h h' a x -> length q' = nmov js0 ->
    (forall i a p, List.filter (node_movable h) L !! i = Some a -> q' !! i = Some p -> moved_at h h' a p) ->
    exists js', joints_at h' (a :: L) js' /\ map local_transform js' = map local_transform (jat (n_joint n) x :: feed js0 q')).
  { intros z q' (m & n' & Hm1 & Hn' & Hmv) Hl' Hm'. assert (m = n) as -> by congruence.
    destruct (IH js0 q' Hj' Hl' Hm' Ho') as (js' & H1 & H2). exists (n_joint n' :: js'). split; [constructor; eauto|].
    cbn [map]. rewrite H2. f_equal. destruct Hmv as [(Hp & _ & _ & _ & Ht & _ & _ & Hor) _].
    unfold local_transform. rewrite Hp, Ht, Hor. reflexivity. }
  destruct (j_type (n_joint n)) eqn:Ety.
  - destruct (IH js0 q Hj' Hl Hm Ho') as (js' & H1 & H2). exists (n_joint n :: js'). split; [|cbn [map]; rewrite H2; reflexivity].
    constructor; [|exact H1]. exists n. split; [|reflexivity]. rewrite Ho; [exact Hn|set_solver|]. unfold node_movable. rewrite Hn, Ety. reflexivity.
  - destruct q as [|y q]; [discriminate|]. injection Hl as Hl. apply Hmv; [apply (Hm 0%nat); reflexivity|exact Hl|intros i; apply (Hm (S i))].
  - destruct q as [|y q]; [discriminate|]. injection Hl as Hl. apply Hmv; [apply (Hm 0%nat); reflexivity|exact Hl|intros i; apply (Hm (S i))].
Qed.
(** the Jacobian's columns along a serial chain from a root *)
Lemma serial_columns h e l js p : path_up h e l -> joints_at h (rev l) js ->
  forall l2 js2 l1 js1, rev l = l1 ++ l2 -> js = js1 ++ js2 -> joints_at h l1 js1 -> joints_at h l2 js2 ->
  forall cols, Forall2 (col_at h (rev l) p) (List.filter (node_movable h) l2) cols ->
  cols = colsof p (product iso1 (map local_transform js1)) js2.
Proof.
  intros Hp Hjs l2. induction l2 as [|a l2 IH]; intros js2 l1 js1 El Ejs H1 H2 cols Hcols.
  - inversion H2; subst. inversion Hcols. reflexivity.
  - inversion H2 as [|? j ? js2' (n & Hn & ->) H2' E1 E2]; subst js2. clear H2.
    assert (Ha : a ∈ rev l) by (rewrite El; set_solver).
    assert (Hn1 : joints_at h (l1 ++ [a]) (js1 ++ [n_joint n])) by (apply Forall2_app; [exact H1|repeat constructor; eauto]).
    assert (Hprod : product iso1 (map local_transform (js1 ++ [n_joint n])) = iso_mul (product iso1 (map local_transform js1)) (local_transform (n_joint n))).
    { rewrite map_app. cbn [map]. rewrite product_app. reflexivity. }
    specialize (IH js2' (l1 ++ [a]) (js1 ++ [n_joint n])).
    rewrite <- !app_assoc in IH. specialize (IH El Ejs Hn1 H2'). rewrite Hprod in IH.
    cbn [List.filter] in Hcols. unfold node_movable in Hcols at 1. rewrite Hn in Hcols. cbn [colsof].
    assert (Hone : forall col, col_at h (rev l) p a col ->
      jcol p (iso_mul (product iso1 (map local_transform js1)) (local_transform (n_joint n))) (j_type (n_joint n)) = Some col).
    { intros col (n' & w & Hn' & Hb & Hj). assert (n' = n) as -> by congruence. rewrite <- Hj. do 2 f_equal.
      assert (Hw : world h a w) by (eapply based_world; [eapply from_end_parents_first; eauto|exact Ha|exact Hb]).
      symmetry. apply (partial_product h e l (map local_transform js1) (local_transform (n_joint n)) (map local_transform js2') l1 a l2 w Hp El);
        [apply joints_locals; exact H1|exists n; auto|apply joints_locals; exact H2'|exact Hw]. }
    destruct (j_type (n_joint n)) eqn:Ety; [apply IH; exact Hcols| |].
    all: inversion Hcols as [|? col ? cols' Hcol Hcols' E3 E4]; subst cols; rewrite (Hone col Hcol); f_equal; apply IH; exact Hcols'.
Qed.
Lemma serial_jacobian t h nx arm e l js : path_up h e l -> chain_of h (rev l) arm -> joints_at h (rev l) js ->
  exists h', run t (jacobian arm) (quiet h nx) = Done (Mat 6 (colsof (tr (end_at iso1 js)) iso1 js)) (quiet h' nx).
Proof.
  intros Hp Hch Hjs. pose proof Hch as (En & Hm & _).
  assert (Hts : Forall2 (local_at h) (c_nodes arm) (map local_transform js)) by (rewrite En; apply joints_locals; exact Hjs).
  destruct (run_jacobian t h nx arm (map local_transform js)) as (cols & h' & Hr & _ & Hcols); [|rewrite En; exact Hch|exact Hts|].
  { apply parents_first_order; [rewrite En; apply all_live_rev; eapply path_all_live; eauto|]. rewrite En. eapply from_end_parents_first; eauto. }
  exists h'. rewrite Hr. do 2 f_equal. rewrite En, Hm in Hcols.
  apply (serial_columns h e l js _ Hp Hjs (rev l) js [] [] eq_refl eq_refl) in Hcols; [exact Hcols|constructor|exact Hjs].
Qed.
Lemma serial_set_end t h nx arm e l js q : path_up h e l -> chain_of h (rev l) arm -> joints_at h (rev l) js -> length q = c_dof arm ->
  exists h', run t (set_joint_positions_unchecked arm q ;;; end_transform arm) (quiet h nx) = Done (end_at iso1 (feed js q)) (quiet h' nx).
Proof.
  intros Hp Hch Hjs Hq. pose proof Hch as (En & Hm & Hd).
  assert (Hlive : all_live h (rev l)) by (apply all_live_rev; eapply path_all_live; eauto).
  assert (Hin : forall a, a ∈ c_movable arm -> a ∈ rev l /\ node_movable h a = true).
  { intros a Ha. rewrite Hm in Ha. apply elem_of_list_In, filter_In in Ha as [Ha Hmv]. split; [apply elem_of_list_In, Ha|exact Hmv]. }
  destruct (set_unchecked_all_lemma t h nx arm q) as (h1 & Hr & Hmv & Ho).
  { rewrite Hm. apply NoDup_ListNoDup, List.NoDup_filter, NoDup_rev, NoDup_ListNoDup. eapply path_up_nodup; eauto. }
  { intros a Ha. apply Hlive, Hin, Ha. }
  destruct (feed_joints h h1 (rev l) js q Hjs) as (js' & Hjs' & Ejs').
  { rewrite (nmov_filter h (rev l) js Hjs), Hq. exact Hd. }
  { intros i a p Hi Hp'. apply (Hmv i a p); [rewrite Hm; exact Hi|exact Hp']. }
  { intros b _ Hb. apply Ho. intros Hb'. apply elem_of_take in Hb' as (k & Hk & _). apply elem_of_list_lookup_2 in Hk.
    destruct (Hin b Hk) as [_ Hb']. congruence. }
  exists h1. rewrite run_bind, Hr. cbn [obind]. unfold end_transform, end_at. rewrite <- Ejs', En.
  apply run_end_fold, joints_locals. exact Hjs'.
Qed.
Lemma end_velocity_lemma t (h : gmap nat (node R)) nx arm e l us ds x :
  path_up h e l -> chain_of h (rev l) arm -> (forall a n, a ∈ l -> h !! a = Some n -> unit_joint (n_joint n)) ->
  Forall2 (fun u d => derivable_pt_lim u x d) us ds -> map (fun u => Some (u x)) us = map (position_at h) (c_movable arm) ->
  exists cols h' fk d1 d2 d3 o1 o2 o3,
    run t (jacobian arm) (quiet h nx) = Done (Mat 6 cols) (quiet h' nx) /\
    (forall s, exists s', run t (set_joint_positions_unchecked arm (map (fun u => u s) us) ;;; end_transform arm) (quiet h nx) = Done (fk s) s') /\
    run t (end_transform arm) (quiet h nx) = Done (fk x) (quiet h nx) /\
    act (Mat 6 cols) ds = [d1; d2; d3; o1; o2; o3] /\
    deriv3 (fun s => tr (fk s)) x (V3 d1 d2 d3) /\
    forall v, deriv3 (fun s => turn (rt (fk s)) v) x (cross (V3 o1 o2 o3) (turn (rt (fk x)) v)).
Proof.
  intros Hp Hch Hu Hus Hpos. pose proof Hch as (En & Hm & Hd).
  assert (Hlive : all_live h (rev l)) by (apply all_live_rev; eapply path_all_live; eauto).
  destruct (joints_exist h (rev l) Hlive) as [js Hjs].
  destruct (serial_jacobian t h nx arm e l js Hp Hch Hjs) as (h' & Hr).
  assert (Hun : Forall unit_joint js).
  { assert (Hu' : forall a n, a ∈ rev l -> h !! a = Some n -> unit_joint (n_joint n)).
    { intros a n Ha. apply Hu. apply elem_of_list_In, in_rev, elem_of_list_In. exact Ha. }
    clear -Hjs Hu'. induction Hjs as [|a j L js (n & Hn & ->) Hj IH]; constructor; [apply (Hu' a n); [set_solver|exact Hn]|].
    apply IH. intros b m Hb. apply Hu'. set_solver. }
  assert (Hpos' : map (fun u => u x) us = posns js).
  { assert (E : map Some (map (fun u : R -> R => u x) us) = map Some (posns js)).
    { rewrite map_map, Hpos, (posns_filter h (rev l) js Hjs), Hm. reflexivity. }
    clear -E. revert E. generalize (posns js). induction (map (fun u : R -> R => u x) us) as [|y ys IH]; intros [|z zs] E; try discriminate; [reflexivity|].
    injection E as -> E. f_equal. apply IH, E. }
  assert (Hlus : length us = nmov js).
  { rewrite (nmov_filter h (rev l) js Hjs), <- Hm. apply (f_equal length) in Hpos. rewrite !map_length in Hpos. exact Hpos. }
  pose proof (traj_lemma x js Hun us ds iso1 Hlus Hus Hpos' proper_1) as Htr.
  pose proof (combine_twist (tr (end_at iso1 js)) js iso1 ds) as Hcb.
  rewrite <- (Forall2_length _ _ _ Hus), Hlus in Hcb. specialize (Hcb eq_refl).
  destruct (twist (tr (end_at iso1 js)) iso1 js ds) as [lv ov]. destruct Htr as [Ht1 Ht2].
  assert (Hx : end_at iso1 (feed_at js us x) = end_at iso1 js) by (unfold end_at, feed_at; rewrite Hpos', feed_posns; reflexivity).
  exists (colsof (tr (end_at iso1 js)) iso1 js), h', (fun s => end_at iso1 (feed_at js us s)), (vx lv), (vy lv), (vz lv), (vx ov), (vy ov), (vz ov).
  split; [exact Hr|]. split.
  { intros s. destruct (serial_set_end t h nx arm e l js (map (fun u => u s) us) Hp Hch Hjs) as (h1 & H1); [|eauto].
    rewrite map_length, Hlus, (nmov_filter h (rev l) js Hjs). symmetry. exact Hd. }
  split. { rewrite Hx. unfold end_transform. apply run_end_fold. rewrite En. apply joints_locals. exact Hjs. }
  split; [exact Hcb|]. split; [destruct lv; exact Ht1|]. intros v. rewrite Hx. destruct ov. exact (Ht2 v).
Qed.
