(** * C64, C65: joint velocities and the end velocity; small steps of the solver (over the reals) *)
From Coq Require Import String NArith Reals Lra Sorting.Sorted.
From stdpp Require Import gmap.
From Verif Require Import Scalar ScalarR Geometry Joint Link Prog NodeM ChainM FuncsM IkM RunLemmas
  SpecJoint SpecNode SpecGraph GraphProofs SpecChain ChainProofs SpecFK FKProofs SpecIk JacProofs SpecGeom RGeom GeomProofs JacReal PoseDiff
  SpecStep LinAlgR LinArm TrajProofs TrajQuat TrajLog TrajStep PropGeom PropJac.
Local Open Scope R_scope.

(** C64.  [us] are the positions of the movable joints over time, with the velocities [ds] at
    the time [x]; [fk s] is the end transform with the positions at the time [s]. *)
Theorem C64_end_velocity (t : nat) (h : gmap nat (node R)) nx arm e l us ds x :
  path_up h e l -> chain_of h (rev l) arm -> (forall a n, a ∈ l -> h !! a = Some n -> unit_joint (n_joint n)) ->
  Forall2 (fun u d => derivable_pt_lim u x d) us ds -> map (fun u => Some (u x)) us = map (position_at h) (c_movable arm) ->
  exists cols h' fk d1 d2 d3 o1 o2 o3,
    run t (jacobian arm) (quiet h nx) = Done (Mat 6 cols) (quiet h' nx) /\
    (forall s, exists s', run t (set_joint_positions_unchecked arm (map (fun u => u s) us) ;;; end_transform arm) (quiet h nx) = Done (fk s) s') /\
    run t (end_transform arm) (quiet h nx) = Done (fk x) (quiet h nx) /\
    act (Mat 6 cols) ds = [d1; d2; d3; o1; o2; o3] /\
    deriv3 (fun s => tr (fk s)) x (V3 d1 d2 d3) /\
    forall v, deriv3 (fun s => turn (rt (fk s)) v) x (cross (V3 o1 o2 o3) (turn (rt (fk x)) v)).
Proof. exact (end_velocity_lemma t h nx arm e l us ds x). Qed.
Print Assumptions C64_end_velocity.
(** the slide of PropGeom moves at speed 3 and accelerates while the hinge turns at speed 2 *)
Example C64_case (t nx : nat) : exists cols h' fk d1 d2 d3 o1 o2 o3,
    run t (jacobian arm2) (quiet two nx) = Done (Mat 6 cols) (quiet h' nx) /\
    (forall s, exists s', run t (set_joint_positions_unchecked arm2 [1 + (3 * s + s * s); PI / 2 + 2 * s] ;;; end_transform arm2) (quiet two nx) = Done (fk s) s') /\
    act (Mat 6 cols) [3; 2] = [d1; d2; d3; o1; o2; o3] /\
    deriv3 (fun s => tr (fk s)) 0 (V3 d1 d2 d3) /\
    forall v, deriv3 (fun s => turn (rt (fk s)) v) 0 (cross (V3 o1 o2 o3) (turn (rt (fk 0)) v)).
Proof.
  destruct C30_case_hypotheses as (H1 & _ & H2 & H3).
  destruct (C64_end_velocity t two nx arm2 1%nat [1; 0]%nat [(fun s => 1 + (3 * s + s * s)); (fun s => PI / 2 + 2 * s)] [3; 2] 0 H1 H2 H3)
    as (cols & h' & fk & d1 & d2 & d3 & o1 & o2 & o3 & G1 & G2 & _ & G3 & G4 & G5).
  - constructor; [|constructor; [|constructor]].
    + eapply deriv_ext; [intros s; reflexivity| |apply (deriv_sum (fun _ => 1)); [apply deriv_const|];
        apply (deriv_sum (fun s => 3 * s)); [apply (deriv_prod (fun _ => 3) (fun s => s)); [apply deriv_const|exact (derivable_pt_lim_id 0)]|];
        apply (deriv_prod (fun s => s) (fun s => s)); exact (derivable_pt_lim_id 0)]. cbn beta. ring.
    + eapply deriv_ext; [intros s; reflexivity| |apply (deriv_sum (fun _ => PI / 2)); [apply deriv_const|];
        apply (deriv_prod (fun _ => 2) (fun s => s)); [apply deriv_const|exact (derivable_pt_lim_id 0)]]. cbn beta. ring.
  - change (map (position_at two) (c_movable arm2)) with [Some 1; Some (PI / 2)]. cbn [map].
    repeat (apply (f_equal2 cons); [apply f_equal; ring|]). reflexivity.
  - exists cols, h', fk, d1, d2, d3, o1, o2, o3. split; [exact G1|]. split; [exact G2|]. split; [exact G3|]. split; [exact G4|exact G5].
Qed.

(** C65.  For every serial arm whose movable joints are strictly inside their limits, an
    iteration with the multiplier [m] shrinks the position error by the factor [1 - m], up to
    [eps * m], when [m] is small enough; likewise the rotation error if all three rotations are
    constrained and the angle to the target is less than a half turn. *)
Theorem C65_first_order (t : nat) ovf (h : gmap nat (node R)) nx arm e l target (c : constraints) la sv cols s w idx :
  path_up h e l -> chain_of h (rev l) arm ->
  (forall a n, a ∈ l -> h !! a = Some n -> unit_joint (n_joint n)) ->
  (forall a n r, a ∈ c_movable arm -> h !! a = Some n -> j_limits (n_joint n) = Some r ->
     rmin r < j_position (n_joint n) < rmax r) ->
  run t (jacobian arm) (quiet h nx) = Done (Mat 6 cols) s ->
  run t (end_transform arm) (quiet h nx) = Done w (quiet h nx) ->
  let J := reduced (flags c) idx cols in
  solves_exactly la sv (c_dof arm) (count (flags c)) (length idx) J ->
  (exists x, solves J x (flagged (flags c) (pose_error target w))) ->
  StronglySorted lt idx -> Forall (fun j => (j < c_dof arm)%nat) idx ->
  forall eps, 0 < eps -> exists del, 0 < del /\
  forall sv', nullspace_function sv' = nullspace_function sv ->
  let m := jacobian_multiplier sv' in 0 < m < del ->
  exists d h' w',
    run t (solve_one_loop_with_constraints ovf la sv' arm target (flags c) idx) (quiet h nx) = Done (Ok d) (quiet h' nx) /\
    run t (end_transform arm) (quiet h' nx) = Done w' (quiet h' nx) /\
    len (minus (position_error c target w') (times (1 - m) (position_error c target w))) <= eps * m /\
    (unit_quat (rt target) -> rotation_x c = true -> rotation_y c = true -> rotation_z c = true ->
     len (rotation_error c target w) < PI ->
     len (minus (rotation_error c target w') (times (1 - m) (rotation_error c target w))) <= eps * m).
Proof.
  intros Hp Hc Hu Hin HJ Hw J Hex Hsol Hso Hi eps Heps.
  destruct (small_step_lemma t ovf h nx arm e l target c la sv cols s w idx Hp Hc Hu) as (fk & d1 & Hd1 & Hrun & H0 & Hpos & Hrot);
    [exact (fun a n Ha Hn r Er => Hin a n r Ha Hn Er)|eassumption..|].
  destruct (first_order _ Hpos eps Heps) as (d2 & Hd2 & Hp2). rewrite H0 in Hp2.
  set (ok := unit_quat (rt target) /\ rotation_x c = true /\ rotation_y c = true /\ rotation_z c = true /\ len (rotation_error c target w) < PI).
  assert (Hr2 : exists d3, 0 < d3 /\ forall m, 0 < m < d3 -> ok ->
    len (minus (rotation_error c target (fk m)) (times (1 - m) (rotation_error c target w))) <= eps * m).
  { destruct (Classical_Prop.classic ok) as [Hok|Hok]; [|exists 1; split; [lra|intros; contradiction]].
    destruct Hok as (A & B & C & D & F).
    destruct (first_order _ (Hrot A B C D F) eps Heps) as (d3 & Hd3 & Hp3). rewrite H0 in Hp3. exists d3. split; [exact Hd3|]. intros m Hm _. apply Hp3, Hm. }
  destruct Hr2 as (d3 & Hd3 & Hp3).
  exists (Rmin d1 (Rmin d2 d3)). split; [repeat apply Rmin_pos; assumption|]. intros sv' Esv m Hm.
  pose proof (Rmin_l d1 (Rmin d2 d3)). pose proof (Rmin_r d1 (Rmin d2 d3)). pose proof (Rmin_l d2 d3). pose proof (Rmin_r d2 d3).
  destruct (Hrun sv' Esv) as (d & h' & G1 & G2); [fold m; lra|].
  exists d, h', (fk m). split; [exact G1|]. split; [exact G2|]. split; [apply Hp2; lra|].
  intros A B C D F. apply Hp3; [lra|]. repeat split; assumption.
Qed.
Print Assumptions C65_first_order.
(** C65: so the arm gets closer *)
Theorem C65_closer (t : nat) ovf (h : gmap nat (node R)) nx arm e l target (c : constraints) la sv cols s w idx :
  path_up h e l -> chain_of h (rev l) arm ->
  (forall a n, a ∈ l -> h !! a = Some n -> unit_joint (n_joint n)) ->
  (forall a n r, a ∈ c_movable arm -> h !! a = Some n -> j_limits (n_joint n) = Some r ->
     rmin r < j_position (n_joint n) < rmax r) ->
  run t (jacobian arm) (quiet h nx) = Done (Mat 6 cols) s ->
  run t (end_transform arm) (quiet h nx) = Done w (quiet h nx) ->
  let J := reduced (flags c) idx cols in
  solves_exactly la sv (c_dof arm) (count (flags c)) (length idx) J ->
  (exists x, solves J x (flagged (flags c) (pose_error target w))) ->
  StronglySorted lt idx -> Forall (fun j => (j < c_dof arm)%nat) idx ->
  exists del, 0 < del /\
  forall sv', nullspace_function sv' = nullspace_function sv -> 0 < jacobian_multiplier sv' < del ->
  exists d h' w',
    run t (solve_one_loop_with_constraints ovf la sv' arm target (flags c) idx) (quiet h nx) = Done (Ok d) (quiet h' nx) /\
    run t (end_transform arm) (quiet h' nx) = Done w' (quiet h' nx) /\
    (position_error c target w <> V3 0 0 0 -> len (position_error c target w') < len (position_error c target w)) /\
    (unit_quat (rt target) -> rotation_x c = true -> rotation_y c = true -> rotation_z c = true ->
     0 < len (rotation_error c target w) < PI ->
     len (rotation_error c target w') < len (rotation_error c target w)).
Proof.
  intros Hp Hc Hu Hin HJ Hw J Hex Hsol Hso Hi.
  set (lp := len (position_error c target w)). set (lr := len (rotation_error c target w)).
  assert (Hn1 : 0 <= lp) by apply len_nonneg. assert (Hn2 : 0 <= lr) by apply len_nonneg.
  set (ep := if Req_EM_T lp 0 then 1 else lp / 2). set (er := if Req_EM_T lr 0 then 1 else lr / 2).
  assert (Hep : 0 < ep) by (unfold ep; destruct (Req_EM_T lp 0); lra). assert (Her : 0 < er) by (unfold er; destruct (Req_EM_T lr 0); lra).
  destruct (C65_first_order t ovf h nx arm e l target c la sv cols s w idx Hp Hc Hu Hin HJ Hw Hex Hsol Hso Hi (Rmin ep er)) as (del & Hdel & H);
    [apply Rmin_pos; assumption|].
  exists (Rmin del 1). split; [apply Rmin_pos; lra|]. intros sv' Esv Hm.
  pose proof (Rmin_l del 1). pose proof (Rmin_r del 1). pose proof (Rmin_l ep er). pose proof (Rmin_r ep er).
  destruct (H sv' Esv) as (d & h' & w' & G1 & G2 & G3 & G4); [lra|]. exists d, h', w'. split; [exact G1|]. split; [exact G2|]. split.
  - intros Hne. assert (Hlp : lp <> 0) by (intros E; apply Hne, len_zero, E).
    assert (ep = lp / 2) by (unfold ep; destruct (Req_EM_T lp 0); [contradiction|reflexivity]).
    apply (shorter _ _ (jacobian_multiplier sv') (Rmin ep er)); [lra|fold lp; lra|fold lp; lra|exact G3].
  - intros A B C D [F1 F2]. fold lr in F1, F2 |- *.
    assert (er = lr / 2) by (unfold er; destruct (Req_EM_T lr 0); [lra|reflexivity]).
    apply (shorter _ _ (jacobian_multiplier sv') (Rmin ep er)); [lra|exact F1|fold lr; lra|]. apply G4; assumption.
Qed.
Print Assumptions C65_closer.

(** Three slides and a wrist of three hinges, each within -1 and 1, on the way to (1, 2, 3) and
    a rotation of about 106 degrees about z. *)
Definition axle (nm : string) (ty : joint_type R) : joint R := Joint nm ty 0 0 (Some (Range (-1) 1)) iso1 None None.
Definition six : list (joint R) :=
  [axle "x" (Linear (V3 1 0 0)); axle "y" (Linear (V3 0 1 0)); axle "z" (Linear (V3 0 0 1));
   axle "yaw" (Rotational (V3 0 0 1)); axle "pitch" (Rotational (V3 0 1 0)); axle "roll" (Rotational (V3 1 0 0))].
Definition node_six (i : nat) (j : joint R) : node R :=
  node_of j (match i with O => None | S k => Some k end) (if decide (i < 5)%nat then [S i] else []).
Definition robot6 : gmap nat (node R) := list_to_map (imap (fun i j => (i, node_six i j)) six).
Definition arm6 : chain := Chain [0; 1; 2; 3; 4; 5]%nat [0; 1; 2; 3; 4; 5]%nat 6.
Definition there : iso R := Iso (V3 1 2 3) (Qt 0 0 (4/5) (3/5)).
Definition all_six : constraints := Constraints true true true true true true [].
Definition swap : linalg R :=
  Linalg (fun _ b => match b with [x; y; z; r; p; q] => Some [x; y; z; q; p; r] | _ => None end) (fun _ _ => None) (fun _ => None).
Definition slow (m : R) : solver R := Solver 1 1 m 10 None.
Lemma robot6_at i j : six !! i = Some j -> robot6 !! i = Some (node_six i j).
Proof. intros H. do 6 (destruct i as [|i]; [injection H as <-; reflexivity|]). discriminate. Qed.
Lemma robot6_in a : a ∈ [5; 4; 3; 2; 1; 0]%nat -> exists j, six !! a = Some j.
Proof. intros H. apply lookup_lt_is_Some_2. cbn. set_unfold. lia. Qed.
Lemma robot6_mov a : a ∈ c_movable arm6 -> exists j, six !! a = Some j.
Proof. intros H. change (a ∈ [0; 1; 2; 3; 4; 5]%nat) in H. apply lookup_lt_is_Some_2. cbn. set_unfold. lia. Qed.
Lemma robot6_path : path_up robot6 5%nat [5; 4; 3; 2; 1; 0]%nat.
Proof.
  assert (Hstep : forall i j k, six !! S i = Some j -> six !! i = Some k -> live_parent robot6 (S i) i).
  { intros i j k Hj Hk. split; [exists (node_six (S i) j); split; [apply robot6_at, Hj|reflexivity]|]. rewrite (robot6_at i k Hk). eauto. }
  do 5 (eapply path_step; [eapply Hstep; reflexivity|]). apply path_root.
  split; [rewrite (robot6_at 0 (axle "x" (Linear (V3 1 0 0)))) by reflexivity; eauto|].
  intros p [(n & Hn & E) _]. rewrite (robot6_at 0 (axle "x" (Linear (V3 1 0 0)))) in Hn by reflexivity. apply Some_inj in Hn as <-. discriminate.
Qed.
Lemma iso1_mul : iso_mul iso1 (@iso1 R RScalar) = iso1.
Proof. apply Iso_eq; [gv; ring|gq; ring]. Qed.
Lemma axle_local nm ty : local_transform (axle nm ty) = iso1.
Proof.
  unfold local_transform, axle. cbn [j_type j_origin j_position]. destruct ty as [|a|a]; cbn [joint_transform].
  - apply iso1_mul.
  - unfold qaxis_angle. rewrite stwo_R. change (@sdiv R RScalar) with Rdiv. change (@szero R RScalar) with 0. replace (0 / 2) with 0 by field.
    change (ssin (0:R)) with (sin 0). change (scos (0:R)) with (cos 0). rewrite sin_0, cos_0. destruct a.
    apply Iso_eq; [gv; ring|gq; ring].
  - destruct a. apply Iso_eq; [gv; ring|gq; ring].
Qed.
Lemma six_joints : joints_at robot6 [0; 1; 2; 3; 4; 5]%nat six.
Proof. repeat (constructor; [eexists; split; reflexivity|]). constructor. Qed.
Lemma six_chain : chain_of robot6 (rev [5; 4; 3; 2; 1; 0]%nat) arm6.
Proof. split; [reflexivity|]. split; reflexivity. Qed.
Lemma six_end : end_at iso1 six = iso1.
Proof. unfold end_at, six. cbn [map]. rewrite !axle_local. cbn [product foldl]. rewrite !iso1_mul. reflexivity. Qed.
Definition cols6 : list (list R) :=
  [[1; 0; 0; 0; 0; 0]; [0; 1; 0; 0; 0; 0]; [0; 0; 1; 0; 0; 0]; [0; 0; 0; 0; 0; 1]; [0; 0; 0; 0; 1; 0]; [0; 0; 0; 1; 0; 0]].
Lemma six_cols : colsof (tr (end_at iso1 six)) iso1 six = cols6.
Proof.
  rewrite six_end. unfold six. cbn [colsof]. rewrite !axle_local, !iso1_mul. cbn [axle j_type jcol]. unfold cols6.
  repeat (apply (f_equal2 (@cons (list R))); [repeat (apply (f_equal2 (@cons R)); [un; cbn; ring|]); reflexivity|]). reflexivity.
Qed.
Lemma six_unit : Forall unit_joint six.
Proof. unfold six. repeat (apply Forall_cons; split; [split; [unfold axle, j_type, unit_type, unit_axis; cbn; ring|exact proper_1]|]). apply Forall_nil_2. Qed.
Lemma six_inside : Forall (fun j => forall r, j_limits j = Some r -> rmin r < j_position j < rmax r) six.
Proof. unfold six. repeat (apply Forall_cons; split; [intros r E; apply Some_inj in E as <-; cbn; lra|]). apply Forall_nil_2. Qed.
Example C65_case (t nx : nat) ovf : exists del, 0 < del /\ forall m, 0 < m < del ->
  exists d h' w',
    run t (solve_one_loop_with_constraints ovf swap (slow m) arm6 there (flags all_six) []) (quiet robot6 nx) = Done (Ok d) (quiet h' nx) /\
    run t (end_transform arm6) (quiet h' nx) = Done w' (quiet h' nx) /\
    len (position_error all_six there w') < len (position_error all_six there iso1) /\
    len (rotation_error all_six there w') < len (rotation_error all_six there iso1).
Proof.
  destruct (serial_jacobian t robot6 nx arm6 5%nat [5; 4; 3; 2; 1; 0]%nat six robot6_path six_chain six_joints) as (h1 & HJ). rewrite six_cols in HJ.
  assert (Hw : run t (end_transform arm6) (quiet robot6 nx) = Done iso1 (quiet robot6 nx)).
  { rewrite <- six_end. unfold end_transform, end_at. apply run_end_fold, joints_locals, six_joints. }
  destruct (C65_closer t ovf robot6 nx arm6 5%nat [5; 4; 3; 2; 1; 0]%nat there all_six swap (slow 1) cols6 (quiet h1 nx) iso1 [] robot6_path six_chain) as (del & Hdel & H);
    [| |exact HJ|exact Hw| | |constructor|constructor|].
  - intros a n Ha Hn. destruct (robot6_in a Ha) as [j Hj]. rewrite (robot6_at a j Hj) in Hn. apply Some_inj in Hn as <-.
    change (n_joint (node_six a j)) with j. pose proof six_unit as Hu. rewrite Forall_forall in Hu. apply Hu. eapply elem_of_list_lookup_2, Hj.
  - intros a n r Ha Hn. destruct (robot6_mov a Ha) as [j Hj]. rewrite (robot6_at a j Hj) in Hn. apply Some_inj in Hn as <-.
    change (n_joint (node_six a j)) with j. pose proof six_inside as Hu. rewrite Forall_forall in Hu. apply (Hu j). eapply elem_of_list_lookup_2, Hj.
  - unfold solves_exactly. rewrite decide_False by (vm_compute; lia). split; [reflexivity|]. intros b [x [Hx Hb]].
    do 7 (destruct x as [|? x]; try discriminate Hx). cbn in Hb. subst b. eexists. split; [reflexivity|]. split; [reflexivity|].
    cbn. repeat (apply (f_equal2 (@cons R)); [ring|]). reflexivity.
  - unfold pose_error. set (q := qscaled_axis _). exists [1; 2; 3; vz q; vy q; vx q]. split; [reflexivity|].
    cbn. repeat (apply (f_equal2 (@cons R)); [ring|]). reflexivity.
  - exists del. split; [exact Hdel|]. intros m Hm. destruct (H (slow m) eq_refl Hm) as (d & h' & w' & G1 & G2 & G3 & G4).
    exists d, h', w'. split; [exact G1|]. split; [exact G2|]. split.
    + apply G3. unfold position_error. cbn. intros E. injection E. lra.
    + apply G4; try reflexivity; [unfold unit_quat; cbn; lra|].
      unfold rotation_error. cbn [all_six rotation_x rotation_y rotation_z keep there rt].
      set (q := qmul _ _). assert (Eq : q = Qt 0 0 (4/5) (3/5)) by (unfold q; gq; cbn; field).
      assert (El : len (qvec q) = 4 / 5).
      { rewrite Eq. unfold len, inner, qvec. cbn. replace (0 * 0 + 0 * 0 + 4 / 5 * (4 / 5)) with (4 / 5 * (4 / 5)) by ring. apply sqrt_square. lra. }
      assert (Es : qscaled_axis q = times (2 * atan (4 / 5 / (3 / 5)) / (4 / 5)) (qvec q)).
      { rewrite (scaled_axis_eq q (4/5)) by (try (symmetry; exact El); rewrite ?Eq; cbn; lra).
        rewrite Eq. cbn [qw]. rewrite Rabs_right by lra. destruct (Rlt_dec (3/5) 0); [lra|reflexivity]. }
      replace (V3 (vx (qscaled_axis q)) (vy (qscaled_axis q)) (vz (qscaled_axis q))) with (qscaled_axis q) by (destruct (qscaled_axis q); reflexivity).
      pose proof (atan_bound (4 / 5 / (3 / 5))) as [_ Hb].
      assert (Ha : 0 < atan (4 / 5 / (3 / 5))) by (rewrite <- atan_0; apply atan_increasing; apply Rdiv_lt_0_compat; lra).
      rewrite Es, len_times, El by (apply Rmult_le_pos; lra).
      replace (2 * atan (4 / 5 / (3 / 5)) / (4 / 5) * (4 / 5)) with (2 * atan (4 / 5 / (3 / 5))) by field. lra.
Qed.
