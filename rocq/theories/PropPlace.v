(** * C94: from the robot description to the place of its links, and back *)
From Coq Require Import String Reals Lra.
From stdpp Require Import gmap strings.
From Verif Require Import Scalar ScalarR Geometry Joint Link Prog NodeM ChainM FuncsM IkM SpecNode SpecGraph GraphProofs SpecGeom SpecChain SpecFK FKProofs SpecIk IkProofs IkProofs2 JacProofs RGeom
  LuM SvdM PropFK PropStep PropSvd2 PropStay Api UrdfM SpecUrdf PropUrdf SpecPlace PlaceProofs PlaceRun.
Open Scope R_scope.

(** C94: load any description whose names are used once, whose joints do not form a cycle, whose
    mimic tags name joints of the robot, whose limits are in order and whose axes are not zero.  Set
    any joint positions and ask for the transforms.  The transform stored in the node of a joint takes
    a point of its child link to where the description puts it: through the motion of the joint, the
    roll, pitch and yaw and the offset of its origin tag, and so on through the joints above it. *)
Theorem C94_forward t (r : robot R) (h : gmap nat (node R)) nx fuel :
  heap_ok h nx -> well_named r -> (forall j, j ∈ r_joints r -> sound_joint j) -> mimics_known r -> acyclic r ->
  (S (length (r_joints r)) < fuel)%nat ->
  exists c h1, run t (chain_from_robot (fun x : R => x) fuel r) (quiet h nx) = Done c (quiet h1 (S nx + length (r_joints r))) /\
  forall ps q, given nx (c_movable c) ps q ->
  exists h2 ws h3,
    run t (set_joint_positions_unchecked c ps) (quiet h1 (S nx + length (r_joints r))) = Done tt (quiet h2 (S nx + length (r_joints r))) /\
    run t (update_transforms c) (quiet h2 (S nx + length (r_joints r))) = Done ws (quiet h3 (S nx + length (r_joints r))) /\
    forall i, (i < length (r_joints r))%nat -> exists k w,
      c_nodes c !! k = Some (S nx + i)%nat /\ ws !! k = Some w /\ wt_of h3 (S nx + i) (Some w) /\ proper w /\
      forall x, placed r q i x (move w x).
Proof. exact (fun A B C D E F => forward_lemma t r h nx fuel A B C D E F). Qed.
Print Assumptions C94_forward.

(** C94: load such a description, set any joint positions, take the arm that ends in the child link of
    any joint, and solve under any constraints.  If the solver says Ok, then with the joint positions
    it left in the nodes the description itself puts that link within the tolerances of the target.
    Wanted: the starting positions are inside the limits, or no joint is ignored and the linear
    solvers give as many numbers as there are unknowns. *)
Theorem C94_inverse t (r : robot R) (h : gmap nat (node R)) nx fuel :
  heap_ok h nx -> well_named r -> (forall j, j ∈ r_joints r -> sound_joint j) -> mimics_known r -> acyclic r ->
  (S (length (r_joints r)) < fuel)%nat ->
  exists c h1, run t (chain_from_robot (fun x : R => x) fuel r) (quiet h nx) = Done c (quiet h1 (S nx + length (r_joints r))) /\
  forall ps q, given nx (c_movable c) ps q ->
  exists h2, run t (set_joint_positions_unchecked c ps) (quiet h1 (S nx + length (r_joints r))) = Done tt (quiet h2 (S nx + length (r_joints r))) /\
  forall i, (i < length (r_joints r))%nat ->
  exists arm, run t (from_end fuel (S nx + i)) (quiet h2 (S nx + length (r_joints r))) = Done arm (quiet h2 (S nx + length (r_joints r))) /\
  forall ovf (la : linalg R) (sv : solver R) target cs s, inside_tags r q \/ sized la /\ ignored_joint_names cs = [] ->
  run t (solve_with_constraints ovf la sv arm target cs) (quiet h2 (S nx + length (r_joints r))) = Done (Ok tt) s ->
  exists q' w, stands r nx (heap s) q' /\ proper w /\ (forall x, placed r q' i x (move w x)) /\ on_target sv cs target w.
Proof. exact (fun A B C D E F => inverse_lemma t r h nx fuel A B C D E F). Qed.
Print Assumptions C94_inverse.
(** ... so without constraints the origin of the link is, by the description, closer to the target than
    the tolerance *)
Theorem C94_distance (r : robot R) q i (sv : solver R) target w y : well_named r -> proper w ->
  (forall x, placed r q i x (move w x)) -> on_target sv default_constraints target w ->
  placed r q i (V3 0 0 0) y -> dist (tr target) y < allowable_target_distance sv.
Proof.
  intros Hwn Hp Hx [Hd _] Hy. apply Rltb_spec in Hd. rewrite vnorm_len in Hd. rewrite (placed_fun r q i _ _ _ Hwn (Hx (V3 0 0 0)) Hy).
  assert (move w (V3 0 0 0) = tr w) as ->; [|exact Hd]. unfold move. destruct w as [[x y0 z] [a b c d]]. gv; ring.
Qed.
Print Assumptions C94_distance.

(** C94: the description puts a point in one place only, and the joints that are not above do not matter. *)
Theorem C94_one_place (r : robot R) q q' i x y y' : well_named r -> (forall k, rtc (parent_joint r) i k -> q' k = q k) ->
  placed r q i x y -> placed r q' i x y' -> y' = y.
Proof. intros Hwn E H H'. apply (placed_fun r q' i x y y' Hwn); [eapply placed_ext; eauto|exact H']. Qed.
Print Assumptions C94_one_place.

(** ** A case: a turntable that carries a slide.  The axis of the turntable is written with length 2;
    the frame of the slide is rolled, which turns its axis from y to z. *)
Definition no_pose : upose R := UPose (V3 0 0 0) (V3 0 0 0).
Definition bare_link (s : string) (m : R) : ulink R := ULink s (UInertial no_pose m 0 0 0 0 0 0) [] [].
Definition turntable : ujoint R := UJoint "turn" URevolute (UPose (V3 0 0 1) (V3 0 0 0)) "base" "table" (V3 0 0 2) (-4) 4 None.
Definition slide : ujoint R := UJoint "slide" UPrismatic (UPose (V3 1 0 0) (V3 (PI / 2) 0 0)) "table" "hand" (V3 0 1 0) 0 5 None.
Definition lathe : robot R := Robot [bare_link "base" 2; bare_link "table" 1; bare_link "hand" 3] [turntable; slide].

Lemma lathe_named : well_named lathe.
Proof. split; cbn; repeat constructor; set_solver. Qed.
Lemma lathe_sound j : j ∈ r_joints lathe -> sound_joint j.
Proof. cbn. rewrite !elem_of_cons. intros [-> | [-> | Hj]]; [..|inversion Hj]; split; cbn; try lra; intros E; injection E; lra. Qed.
Lemma lathe_known : mimics_known lathe.
Proof. intros j m. cbn. rewrite !elem_of_cons. intros [-> | [-> | Hj]]; [..|inversion Hj]; discriminate. Qed.
Lemma lathe_acyclic : acyclic lathe.
Proof.
  apply in_order_acyclic. intros [|[|i]] [|[|k]] ji jk Hi Hk Hc; cbn in Hi, Hk; simplify_eq; cbn in Hc; try discriminate; lia.
Qed.
Lemma lathe_empty : heap_ok (∅ : gmap nat (node R)) 0.
Proof. split; intros *; rewrite ?lookup_empty; try (intros [? ?]; discriminate); discriminate. Qed.
Lemma lathe_above : parent_joint lathe 1 0.
Proof. exists slide, turntable. repeat split. exists (bare_link "table" 1). split; [cbn; set_solver|reflexivity]. Qed.
Lemma lathe_base k : ~ parent_joint lathe 0 k.
Proof. intros (ji & jk & Hi & Hk & Hc & _). cbn in Hi. injection Hi as <-. destruct k as [|[|k]]; cbn in Hk; simplify_eq; discriminate. Qed.

Example C94_case : exists c h1, run 0 (chain_from_robot (fun x : R => x) 9 lathe) (quiet ∅ 0) = Done c (quiet h1 3) /\
  forall ps q, given 0 (c_movable c) ps q -> exists h2 ws h3,
    run 0 (set_joint_positions_unchecked c ps) (quiet h1 3) = Done tt (quiet h2 3) /\
    run 0 (update_transforms c) (quiet h2 3) = Done ws (quiet h3 3) /\
    exists w, wt_of h3 2 (Some w) /\ forall x, placed lathe q 1 x (move w x).
Proof.
  destruct (C94_forward 0 lathe ∅ 0 9 lathe_empty lathe_named lathe_sound lathe_known lathe_acyclic) as (c & h1 & R1 & H); [cbn; lia|].
  exists c, h1. split; [exact R1|]. intros ps q Hq. destruct (H ps q Hq) as (h2 & ws & h3 & R2 & R3 & Hi). exists h2, ws, h3.
  split; [exact R2|]. split; [exact R3|]. destruct (Hi 1%nat) as (k & w & _ & _ & Hw & _ & Hx); [cbn; lia|]. exists w. split; [exact Hw|exact Hx].
Qed.
(** a quarter turn and the slide out by three: the tip, written (1, 0, 0) in the frame of the hand, is at
    (0, 2, 4), and nowhere else *)
Lemma sqrt4 : R_sqrt.sqrt 4 = 2.
Proof. replace 4 with (2 * 2) by ring. apply sqrt_square. lra. Qed.
Lemma slide_step : joint_step slide 3 (V3 1 0 0) = V3 2 0 3.
Proof.
  unfold joint_step. assert (joint_motion slide 3 (V3 1 0 0) = V3 1 3 0) as ->.
  { unfold joint_motion, direction, len, inner, plus, times. cbn. replace (0 * 0 + 1 * 1 + 0 * 0) with 1 by ring. rewrite sqrt_1. f_equal; field. }
  unfold rot_x. cbn. rewrite sin_PI2, cos_PI2. unfold rot_y, rot_z, plus. cbn. rewrite sin_0, cos_0. f_equal; ring.
Qed.
Lemma turntable_step : joint_step turntable (PI / 2) (V3 2 0 3) = V3 0 2 4.
Proof.
  unfold joint_step. assert (joint_motion turntable (PI / 2) (V3 2 0 3) = V3 0 2 3) as ->.
  { unfold joint_motion. cbn [uj_type turntable]. assert (direction (uj_axis turntable) = V3 0 0 1) as ->.
    { unfold direction, len, inner, times. cbn. replace (0 * 0 + 0 * 0 + 2 * 2) with 4 by ring. rewrite sqrt4. f_equal; field. }
    unfold rotate. rewrite sin_PI2, cos_PI2. unfold cross, inner, plus, times. cbn. f_equal; ring. }
  unfold rot_x. cbn. rewrite sin_0, cos_0. unfold rot_y, rot_z, plus. cbn. rewrite sin_0, cos_0. f_equal; ring.
Qed.
Example C94_case_place y : placed lathe (fun k => match k with O => PI / 2 | _ => 3 end) 1 (V3 1 0 0) y <-> y = V3 0 2 4.
Proof.
  assert (H : placed lathe (fun k => match k with O => PI / 2 | _ => 3 end) 1 (V3 1 0 0) (V3 0 2 4)).
  { apply (placed_step _ _ 1 slide 0); [reflexivity|exact lathe_above|].
    rewrite slide_step. rewrite <- turntable_step.
    apply (placed_base lathe (fun k => match k with O => PI / 2 | _ => 3 end) 0 turntable); [reflexivity|exact lathe_base]. }
  split; [|intros ->; exact H]. intros H'. eapply C94_one_place; [exact lathe_named| |exact H|exact H']. reflexivity.
Qed.
(** positions are handed out in the order of the movable nodes *)
Example C94_case_given : given 0 [1; 2]%nat [PI / 2; 3] (fun k => match k with O => PI / 2 | S O => 3 | _ => 0 end).
Proof.
  intros i. split.
  - intros [|[|k]] p Hk Hp; cbn in Hk, Hp; simplify_eq; reflexivity.
  - intros Hn. destruct i as [|[|i]]; [|..|reflexivity]; [specialize (Hn 0%nat eq_refl)|specialize (Hn 1%nat eq_refl)]; discriminate.
Qed.

(** ** The solver on the same robot, at home and asked for the height it has: it says Ok, so the theorem applies. *)
Definition height_only : constraints := Constraints false false true false false false [].
Lemma lathe_home : given 0 [] [] (fun _ => 0) /\ inside_tags lathe (fun _ => 0).
Proof.
  split; [intros i; split; [intros k p _ Hp; discriminate|reflexivity]|].
  intros [|[|i]] j Hj; cbn in Hj; simplify_eq; cbn; lra.
Qed.
Lemma lathe_parents h1 h2 : loaded (fun x : R => x) lathe 0 ∅ h1 -> heaps same_but_position h1 h2 ->
  path_up h2 2%nat [2; 1; 0]%nat /\ node_movable h2 0%nat = false /\ node_movable h2 1%nat = true /\ node_movable h2 2%nat = true.
Proof.
  intros HL HB.
  assert (Hn : forall a n, h1 !! a = Some n -> exists n', h2 !! a = Some n' /\ j_type (n_joint n') = j_type (n_joint n) /\ n_parent n' = n_parent n).
  { intros a n E. specialize (HB a). rewrite E in HB. destruct (h2 !! a) as [n'|]; [|contradiction]. destruct HB as (_ & ? & _ & _ & _ & ? & _). eauto. }
  destruct (ld_root _ _ _ _ _ HL) as (n0 & E0 & Hr). destruct (Hn _ _ E0) as (m0 & F0 & T0 & P0).
  destruct (ld_joint _ _ _ _ _ HL 0%nat turntable eq_refl) as (n1 & E1 & Hj1). destruct (Hn _ _ E1) as (m1 & F1 & T1 & P1).
  destruct (ld_joint _ _ _ _ _ HL 1%nat slide eq_refl) as (n2 & E2 & Hj2). destruct (Hn _ _ E2) as (m2 & F2 & T2 & P2).
  destruct (C45_conversion _ _ _ (jn_joint _ _ _ _ _ _ Hj1)) as (_ & _ & _ & _ & Y1 & _).
  destruct (C45_conversion _ _ _ (jn_joint _ _ _ _ _ _ Hj2)) as (_ & _ & _ & _ & Y2 & _).
  rewrite (rn_joint _ _ _ _ Hr) in T0. rewrite (rn_parent _ _ _ _ Hr) in P0. rewrite Y1 in T1. rewrite Y2 in T2. cbn in F0, F1, F2.
  assert (Q1 : n_parent m1 = Some 0%nat).
  { rewrite P1. destruct (jn_parent _ _ _ _ _ _ Hj1) as [(k & Hk & _)|[_ E]]; [destruct (lathe_base _ Hk)|exact E]. }
  assert (Q2 : n_parent m2 = Some 1%nat).
  { rewrite P2. destruct (jn_parent _ _ _ _ _ _ Hj2) as [(k & Hk & E)|[Hno _]]; [|destruct (Hno _ lathe_above)].
    rewrite (parent_joint_fun _ _ _ _ lathe_named lathe_above Hk) in E. exact E. }
  split.
  - eapply path_step; [split; [exists m2; split; [exact F2|exact Q2]|eauto]|].
    eapply path_step; [split; [exists m1; split; [exact F1|exact Q1]|eauto]|].
    apply path_root. split; [eauto|]. intros p [(n & En & Ep) _]. congruence.
  - unfold node_movable. rewrite F0, F1, F2, T0, T1, T2. auto.
Qed.
Example C94_case_solve ovf : exists dec c h1 h2 arm w s,
  run 0 (chain_from_robot (fun x : R => x) 9 lathe) (quiet ∅ 0) = Done c (quiet h1 3) /\
  given 0 (c_movable c) [] (fun _ => 0) /\ inside_tags lathe (fun _ => 0) /\
  run 0 (set_joint_positions_unchecked c []) (quiet h1 3) = Done tt (quiet h2 3) /\
  run 0 (from_end 9 2) (quiet h2 3) = Done arm (quiet h2 3) /\
  run 0 (solve_with_constraints ovf (svd_linalg na_lu_solve dec) half arm w height_only) (quiet h2 3) = Done (Ok tt) s.
Proof.
  destruct C79_decomposes as (dec & Hdec & _).
  destruct (arm_lemma 0 lathe ∅ 0 9 lathe_empty lathe_named lathe_sound lathe_known lathe_acyclic) as (c & h1 & R1 & HL & H); [cbn; lia|].
  assert (Hg : given 0 (c_movable c) [] (fun _ => 0)) by (intros i; split; [intros k p _ Hp; discriminate|reflexivity]).
  destruct (H [] (fun _ => 0) Hg) as (h2 & R2 & HB & Hst & Harm).
  destruct (Harm 1%nat) as (arm & l & R3 & Hpath & Hna & Hc & Hal & Hlim & Hins); [cbn; lia|].
  destruct (lathe_parents h1 h2 HL HB) as (Hp3 & M0 & M1 & M2). rewrite (path_up_fun _ _ _ Hpath _ Hp3) in Hna. cbn in Hna. clear l Hpath.
  assert (Hmv : c_movable arm = [1; 2]%nat /\ c_dof arm = 2%nat).
  { destruct Hc as (_ & -> & ->). rewrite Hna. cbn [List.filter]. rewrite M0, M1, M2. split; reflexivity. }
  destruct Hmv as [Hmv Hdof].
  destruct (C19_end_transform 0 h2 3 arm 2%nat _ Hp3 Hna) as (w & _ & _ & Rw & _ & _ & Hworld).
  destruct (pl_world lathe 0 ∅ h1 h2 (fun _ => 0) HL HB lathe_sound Hst 1 w Hworld) as [Hp _].
  destruct Hworld as (l & ts & Hpath & Hts & Ew). rewrite (path_up_fun _ _ _ Hpath _ Hp3) in Hts.
  destruct (run_jacobian 0 h2 3 arm ts) as (cols & h' & HJ & _).
  { apply parents_first_order; [exact Hal|]. rewrite Hna. apply (from_end_parents_first h2 _ _ Hp3). }
  { exact Hc. } { rewrite Hna. exact Hts. }
  destruct (C88_stays 0 ovf dec half h2 3 arm w height_only [] cols (quiet h' 3) w Hdec Hc Hal) as (h3 & E & _).
  - rewrite Hmv. repeat constructor; set_solver.
  - apply inside_rest, Hins, lathe_home.
  - constructor.
  - exists []. split; [constructor|]. split; [reflexivity|constructor].
  - exact Rw.
  - exact HJ.
  - apply C88_own_pose; [exact Hp|exact Hp|]. intros x. reflexivity.
  - cbn. lra.
  - cbn. lra.
  - cbn. lia.
  - left. split; [rewrite Hdof; vm_compute; lia|]. intros f q Hf. discriminate Hf.
  - exists dec, c, h1, h2, arm, w, (quiet h3 3). split; [exact R1|]. split; [exact Hg|]. split; [apply lathe_home|]. split; [exact R2|]. split; [exact R3|exact E].
Qed.
