(** * The end's orientation while all joints move, and the derivative of its error *)
From Coq Require Import String Reals Lra Psatz Nsatz.
From stdpp Require Import gmap.
From Verif Require Import Scalar ScalarR Geometry Joint Link Prog NodeM ChainM FuncsM IkM RunLemmas
  SpecJoint SpecNode SpecGraph GraphProofs SpecChain ChainProofs SpecFK FKProofs IkProofs JacProofs SpecGeom RGeom GeomProofs JacReal
  SpecStep LinArm PoseDiff TrajProofs.
Local Open Scope R_scope.

Definition deriv4 (f : R -> quat R) (x : R) (d : quat R) : Prop :=
  derivable_pt_lim (fun s => qi (f s)) x (qi d) /\ derivable_pt_lim (fun s => qj (f s)) x (qj d) /\
  derivable_pt_lim (fun s => qk (f s)) x (qk d) /\ derivable_pt_lim (fun s => qw (f s)) x (qw d).
Definition qplus (a b : quat R) : quat R := Qt (qi a + qi b) (qj a + qj b) (qk a + qk b) (qw a + qw b).
Definition qtimes (k : R) (a : quat R) : quat R := Qt (k * qi a) (k * qj a) (k * qk a) (k * qw a).
Definition pure (v : vec3 R) : quat R := Qt (vx v) (vy v) (vz v) 0.
Lemma deriv4_ext (f g : R -> quat R) x d d' : (forall u, f u = g u) -> d = d' -> deriv4 f x d -> deriv4 g x d'.
Proof.
  intros H <- (H1 & H2 & H3 & H4). split; [|split; [|split]].
  - apply (deriv_ext (fun u => qi (f u)) _ x (qi d)); [intros u; rewrite H; reflexivity|reflexivity|exact H1].
  - apply (deriv_ext (fun u => qj (f u)) _ x (qj d)); [intros u; rewrite H; reflexivity|reflexivity|exact H2].
  - apply (deriv_ext (fun u => qk (f u)) _ x (qk d)); [intros u; rewrite H; reflexivity|reflexivity|exact H3].
  - apply (deriv_ext (fun u => qw (f u)) _ x (qw d)); [intros u; rewrite H; reflexivity|reflexivity|exact H4].
Qed.
Lemma deriv4_const q x : deriv4 (fun _ => q) x (Qt 0 0 0 0).
Proof. split; [|split; [|split]]; apply derivable_pt_lim_const. Qed.
Lemma deriv4_mul f g x df dg : deriv4 f x df -> deriv4 g x dg ->
  deriv4 (fun s => qmul (f s) (g s)) x (qplus (qmul df (g x)) (qmul (f x) dg)).
Proof.
  intros (F1 & F2 & F3 & F4) (G1 & G2 & G3 & G4).
  split; [|split; [|split]]; un; cbn [qplus qi qj qk qw];
    (eapply deriv_ext; [intros s; reflexivity| |dv]); un; cbn beta; ring.
Qed.
Lemma deriv4_axis_angle a u x d : unit_axis a -> derivable_pt_lim u x d ->
  deriv4 (fun s => qaxis_angle a (u s)) x (qtimes (d / 2) (qmul (pure a) (qaxis_angle a (u x)))).
Proof.
  intros Ha Hu. unfold qaxis_angle. rewrite stwo_R.
  assert (Hh : derivable_pt_lim (fun s => u s / 2) x (d / 2)).
  { eapply deriv_ext; [intros s; reflexivity| |apply deriv_prod; [exact Hu|apply deriv_const]]. cbn beta. field. }
  change (@sdiv R RScalar) with Rdiv. change (@ssin R RScalar) with sin. change (@scos R RScalar) with cos. change (@smul R RScalar) with Rmult.
  destruct a as [a1 a2 a3]. unfold unit_axis in Ha. cbn [vx vy vz] in *.
  split; [|split; [|split]]; un; cbn [qtimes pure qi qj qk qw vx vy vz];
    (eapply deriv_ext; [intros s; reflexivity| |dv]); un; cbn beta; set (s := sin (u x / 2)); set (co := cos (u x / 2)); clearbody s co; generalize (d / 2); intros hd; clear Hu Hh; [ring|ring|ring|].
  transitivity (hd * (- (a1 * a1 + a2 * a2 + a3 * a3) * s)); [rewrite Ha; ring|ring].
Qed.
Lemma pure_conj q v : unit_quat q -> qmul q (pure v) = qmul (pure (turn q v)) q.
Proof.
  intros Hq. destruct q as [i j k w], v as [a b c]. unfold unit_quat in Hq. cbn in Hq. unfold pure.
  gq; cbn; nsatz.
Qed.

Lemma traj_quat_lemma x js : Forall unit_joint js -> forall us ds W,
  length us = nmov js -> Forall2 (fun u d => derivable_pt_lim u x d) us ds -> map (fun u => u x) us = posns js -> proper W ->
  deriv4 (fun s => rt (end_at W (feed_at js us s))) x
    (qtimes (/ 2) (qmul (pure (snd (twist (tr (end_at W js)) W js ds))) (rt (end_at W js)))).
Proof.
  induction 1 as [|j js Hj Hjs IH]; intros us ds W Hlen Hus Hpos HW.
  { cbn [twist snd]. apply (deriv4_ext (fun _ => rt W) _ x (Qt 0 0 0 0)); [reflexivity| |apply deriv4_const].
    unfold end_at. cbn [map product foldl]. destruct (rt W). unfold qtimes, pure. gq; cbn; ring. }
  set (w := iso_mul W (local_transform j)).
  assert (Hl : proper (local_transform j)) by (apply proper_local; exact Hj).
  assert (Hw : proper w) by (apply (proper_mul W); assumption).
  cbn [twist]. fold w. rewrite end_at_cons. fold w. cbn [nmov posns] in Hlen, Hpos.
  assert (Hend : end_at w js = iso_mul w (end_at iso1 js)) by (apply end_at_split; assumption).
  (* the rest of the arm, seen from its own base *)
  assert (Hrest : forall us' ds', length us' = nmov js -> Forall2 (fun u d => derivable_pt_lim u x d) us' ds' ->
      map (fun u => u x) us' = posns js ->
      exists q', deriv4 (fun s => rt (end_at iso1 (feed_at js us' s))) x q' /\
        qmul (rt w) q' = qtimes (/ 2) (qmul (pure (snd (twist (tr (end_at w js)) w js ds'))) (rt (end_at w js)))).
  { intros us' ds' H1 H2 H3. specialize (IH us' ds' w H1 H2 H3 Hw). set (r := qtimes _ _) in *.
    exists (qmul (qconj (rt w)) r). split.
    - apply (deriv4_ext (fun s => qmul (qconj (rt w)) (rt (end_at w (feed_at js us' s)))) _ x
        (qplus (qmul (Qt 0 0 0 0) (rt (end_at w (feed_at js us' x)))) (qmul (qconj (rt w)) r))).
      + intros s. rewrite (end_at_split w) by (exact Hw || apply feed_unit; exact Hjs). cbn [iso_mul rt].
        rewrite qmul_assoc, qmul_conj_l by exact Hw. apply qmul_1_l.
      + set (z := rt (end_at w _)). set (y := qmul _ r). destruct z, y. unfold qplus. gq; cbn; ring.
      + exact (deriv4_mul (fun _ => qconj (rt w)) _ x _ _ (deriv4_const (qconj (rt w)) x) IH).
    - rewrite qmul_assoc, qmul_conj_r by exact Hw. apply qmul_1_l. }
  destruct (j_type j) as [|a|a] eqn:Ety.
  - specialize (IH us ds w Hlen Hus Hpos Hw). unfold feed_at in *. cbn [feed]. rewrite Ety. exact IH.
  - (* rotational *)
    destruct us as [|u us]; [discriminate|]. injection Hlen as Hlen. inversion Hus as [|? d ? ds' Hu Hus' Ea Eb]; subst ds. clear Hus.
    cbn [map] in Hpos. injection Hpos as Hp Hpos. specialize (Hrest us ds' Hlen Hus' Hpos).
    destruct (twist (tr (end_at w js)) w js ds') as [lv ov]. cbn [snd] in *. destruct Hrest as (q' & Hq & Eq).
    assert (Ha : unit_axis a) by (destruct Hj as [Ht _]; rewrite Ety in Ht; exact Ht).
    set (A := qmul (rt W) (rt (j_origin j))). assert (HA : unit_quat A) by (apply unit_qmul; [exact HW|apply Hj]).
    assert (Hf : forall s, rt (end_at W (feed_at (j :: js) (u :: us) s)) = qmul (qmul A (qaxis_angle a (u s))) (rt (end_at iso1 (feed_at js us s)))).
    { intros s. unfold feed_at. cbn [feed map]. rewrite Ety, end_at_cons, end_at_split.
      - cbn [iso_mul rt]. f_equal. unfold A, local_transform. cbn [jat joint_set_unchecked j_type j_origin j_position]. 
        unfold local_transform. cbn [jat joint_set_unchecked j_type j_origin j_position]. rewrite Ety. cbn [joint_transform iso_mul rt]. rewrite qmul_assoc. reflexivity.
      - apply (proper_mul W); [exact HW|apply proper_local; exact Hj].
      - apply feed_unit; exact Hjs. }
    assert (Hrw : rt w = qmul A (qaxis_angle a (u x))).
    { rewrite Hp. unfold w, A, local_transform. rewrite Ety. cbn [joint_transform iso_mul rt]. apply qmul_assoc. }
    assert (Hax : turn (rt w) a = turn A a).
    { rewrite Hrw, turn_mul by (exact HA || apply unit_axis_angle; exact Ha). f_equal. rewrite turn_axis_angle by exact Ha. apply rotate_axis. exact Ha. }
    assert (Hx : rt (end_at iso1 (feed_at js us x)) = rt (end_at iso1 js)).
    { unfold end_at, feed_at. rewrite Hpos, feed_posns. reflexivity. }
    apply (deriv4_ext (fun s => qmul (qmul A (qaxis_angle a (u s))) (rt (end_at iso1 (feed_at js us s)))) _ x
      (qplus (qmul (qplus (qmul (Qt 0 0 0 0) (qaxis_angle a (u x))) (qmul A (qtimes (d / 2) (qmul (pure a) (qaxis_angle a (u x))))))
                   (rt (end_at iso1 (feed_at js us x))))
             (qmul (qmul A (qaxis_angle a (u x))) q'))).
    + intros s. symmetry. apply Hf.
    + rewrite <- Hrw, Eq, Hx, Hax.
      assert (E1 : qmul A (qmul (pure a) (qaxis_angle a (u x))) = qmul (pure (turn A a)) (rt w)).
      { rewrite qmul_assoc, pure_conj by exact HA. rewrite Hrw, qmul_assoc. reflexivity. }
      assert (E2 : rt (end_at w js) = qmul (rt w) (rt (end_at iso1 js))) by (rewrite Hend; reflexivity).
      assert (E3 : qmul (qplus (qmul (Qt 0 0 0 0) (qaxis_angle a (u x))) (qmul A (qtimes (d / 2) (qmul (pure a) (qaxis_angle a (u x))))))
                     (rt (end_at iso1 js)) = qtimes (d / 2) (qmul (pure (turn A a)) (rt (end_at w js)))).
      { rewrite E2, qmul_assoc, <- E1. set (aa := qaxis_angle a (u x)). set (e0 := rt (end_at iso1 js)). clearbody A aa e0. set (pa := qmul (pure a) aa). clearbody pa.
        destruct A, aa, e0, pa. unfold qplus, qtimes. gq; cbn; ring. }
      rewrite E3. set (z := rt (end_at w js)). set (y := turn A a). clearbody z y. destruct z, y, ov. unfold qplus, qtimes, pure. gq; cbn; field.
    + pose proof (deriv4_mul (fun _ => A) (fun s => qaxis_angle a (u s)) x _ _ (deriv4_const A x) (deriv4_axis_angle a u x d Ha Hu)) as H1.
      exact (deriv4_mul _ _ x _ _ H1 Hq).
  - (* linear *)
    destruct us as [|u us]; [discriminate|]. injection Hlen as Hlen. inversion Hus as [|? d ? ds' Hu Hus' Ea Eb]; subst ds. clear Hus.
    cbn [map] in Hpos. injection Hpos as Hp Hpos. specialize (Hrest us ds' Hlen Hus' Hpos).
    destruct (twist (tr (end_at w js)) w js ds') as [lv ov]. cbn [snd] in *. destruct Hrest as (q' & Hq & Eq).
    assert (Hrt : forall s, rt (iso_mul W (local_transform (jat j s))) = rt w).
    { intros s. unfold w. cbn [iso_mul rt]. f_equal. etransitivity; [apply (local_linear (jat j s) a Ety)|symmetry; apply (local_linear j a Ety)]. }
    apply (deriv4_ext (fun s => qmul (rt w) (rt (end_at iso1 (feed_at js us s)))) _ x
      (qplus (qmul (Qt 0 0 0 0) (rt (end_at iso1 (feed_at js us x)))) (qmul (rt w) q'))).
    + intros s. unfold feed_at. cbn [feed map]. rewrite Ety, end_at_cons, (end_at_split (iso_mul W (local_transform (jat j (u s))))).
      * cbn [iso_mul rt] in *. rewrite Hrt. reflexivity.
      * apply (proper_mul W); [exact HW|apply proper_local; exact Hj].
      * apply feed_unit; exact Hjs.
    + rewrite Eq. set (z := rt (end_at iso1 _)). set (y := qtimes _ _). destruct z, y. unfold qplus. gq; cbn; ring.
    + exact (deriv4_mul (fun _ => rt w) _ x _ _ (deriv4_const (rt w) x) Hq).
Qed.
