(** * C95: links, weighed and drawn, against the robot description *)
From Coq Require Import String Reals Lra.
From stdpp Require Import gmap strings.
From Verif Require Import Scalar ScalarR Geometry Joint Link Prog NodeM ChainM FuncsM SpecGeom SpecChain SpecCom RGeom Api UrdfM SpecUrdf PropUrdf SpecPlace PlaceProofs PlaceRun PlaceLinks PropPlace.
Open Scope R_scope.

(** C95: load a description as in C94, in which the child links of all joints exist and exactly one link
    is nobody's child, and set any joint positions.  The center of mass is the mean, over all links of
    the description, of the places that the description gives to their own centers of mass. *)
Theorem C95_center_of_mass t (r : robot R) (h : gmap nat (node R)) nx fuel :
  heap_ok h nx -> well_named r -> (forall j, j ∈ r_joints r -> sound_joint j) -> mimics_known r -> acyclic r ->
  (S (length (r_joints r)) < fuel)%nat -> complete r ->
  exists c h1, run t (chain_from_robot (fun x : R => x) fuel r) (quiet h nx) = Done c (quiet h1 (S nx + length (r_joints r))) /\
  forall ps q, given nx (c_movable c) ps q ->
  exists h2 cs s,
    run t (set_joint_positions_unchecked c ps) (quiet h1 (S nx + length (r_joints r))) = Done tt (quiet h2 (S nx + length (r_joints r))) /\
    run t (center_of_mass c) (quiet h2 (S nx + length (r_joints r))) = Done (mean cs) s /\
    Forall2 (weighed r q) (r_links r) cs.
Proof. exact (fun A B C D E F => weigh_lemma t r h nx fuel A B C D E F). Qed.
Print Assumptions C95_center_of_mass.

(** C95: update_link_transforms does not put links where the description puts them.  The inertial, the
    visuals and the collisions of the child link of a joint are placed in the frame above the joint, and
    a point of them is where the description wants it just if the joint leaves that point alone. *)
Theorem C95_links t (r : robot R) (h : gmap nat (node R)) nx fuel :
  heap_ok h nx -> well_named r -> (forall j, j ∈ r_joints r -> sound_joint j) -> mimics_known r -> acyclic r ->
  (S (length (r_joints r)) < fuel)%nat ->
  exists c h1, run t (chain_from_robot (fun x : R => x) fuel r) (quiet h nx) = Done c (quiet h1 (S nx + length (r_joints r))) /\
  forall ps q, given nx (c_movable c) ps q ->
  exists h2 h3,
    run t (set_joint_positions_unchecked c ps) (quiet h1 (S nx + length (r_joints r))) = Done tt (quiet h2 (S nx + length (r_joints r))) /\
    run t (update_link_transforms c) (quiet h2 (S nx + length (r_joints r))) = Done tt (quiet h3 (S nx + length (r_joints r))) /\
    forall i j l, r_joints r !! i = Some j -> l ∈ r_links r -> ul_name l = uj_child j ->
    exists n lk, h3 !! (S nx + i)%nat = Some n /\ n_link n = Some lk /\
      (exists w, in_wt (l_inertial lk) = Some w /\ drawn r q i j (ui_origin (ul_inertial l)) w) /\
      Forall2 (fun v v' => exists w, vi_wt v' = Some w /\ drawn r q i j (uv_origin v) w) (ul_visual l) (l_visuals lk) /\
      Forall2 (fun v v' => exists w, co_wt v' = Some w /\ drawn r q i j (uc_origin v) w) (ul_collision l) (l_collisions lk).
Proof. exact (fun A B C D E F => draw_lemma t r h nx fuel A B C D E F). Qed.
Print Assumptions C95_links.

(** ** The turntable with the slide of C94 *)
Lemma lathe_complete : complete lathe.
Proof.
  split.
  - intros j. cbn. rewrite !elem_of_cons. intros [-> | [-> | Hj]]; [exists (bare_link "table" 1)|exists (bare_link "hand" 3)|inversion Hj]; (split; [cbn; set_solver|reflexivity]).
  - exists (bare_link "base" 2). split; [cbn; set_solver|]. split.
    + intros j. cbn. rewrite !elem_of_cons. intros [-> | [-> | Hj]]; [..|inversion Hj]; discriminate.
    + intros l. cbn [r_links lathe]. rewrite !elem_of_cons. intros [-> | [-> | [-> | Hl]]] Hf; [reflexivity|..|inversion Hl].
      * destruct (Hf turntable); [cbn; set_solver|reflexivity].
      * destruct (Hf slide); [cbn; set_solver|reflexivity].
Qed.
(** the movable nodes of the loaded robot are its two joints, in this order *)
Lemma lathe_load : exists c h1, run 0 (chain_from_robot (fun x : R => x) 9 lathe) (quiet ∅ 0) = Done c (quiet h1 3) /\ c_movable c = [1; 2]%nat.
Proof.
  destruct (load_and_set 0 lathe ∅ 0 9 lathe_empty lathe_named lathe_sound lathe_known lathe_acyclic) as (c & h1 & R1 & HL & Hch & Hperm & Hset); [cbn; lia|].
  exists c, h1. split; [exact R1|].
  destruct (Hset []) as (h2 & R2 & HB & _ & Hpf & _). destruct (lathe_parents h1 h2 HL HB) as (Hp & M0 & M1 & M2).
  apply (heaps_chain _ _ _ _ HB) in Hch. destruct Hch as (_ & -> & _).
  assert (E : c_nodes c = [0; 1; 2]%nat).
  { pose proof (Permutation_length Hperm) as Hlen. cbn in Hlen. destruct (c_nodes c) as [|a [|b [|d [|]]]] eqn:En; try discriminate.
    assert (Hin : forall x, x ∈ [a; b; d] <-> x ∈ [0; 1; 2]%nat) by (intros x; rewrite Hperm; reflexivity).
    assert (Hnd : NoDup [a; b; d]) by (rewrite Hperm; apply NoDup_seq).
    assert (L2 : forall l1 l2, [a; b; d] = l1 ++ 2%nat :: l2 -> 1%nat ∈ l1).
    { intros l1 l2 El. inversion Hp as [|? p ? Hlp Hq]; subst. inversion Hq; subst; eapply Hpf; eauto. }
    assert (L1 : forall l1 l2, [a; b; d] = l1 ++ 1%nat :: l2 -> 0%nat ∈ l1).
    { intros l1 l2 El. inversion Hp as [|? p ? _ Hq]; subst. inversion Hq as [|? p' ? Hlp Hq']; subst. inversion Hq'; subst; eapply Hpf; eauto. }
    assert (Ha := proj1 (Hin a)). assert (Hb := proj1 (Hin b)). assert (Hd := proj1 (Hin d)).
    assert (Na : a = 0%nat).
    { assert (a = 0 \/ a = 1 \/ a = 2)%nat as [-> | [-> | ->]] by (rewrite !elem_of_cons, elem_of_nil in Ha; tauto); [reflexivity|..].
      - specialize (L1 [] [b; d] eq_refl). inversion L1.
      - specialize (L2 [] [b; d] eq_refl). inversion L2. }
    subst a. assert (Nb : b = 1%nat).
    { assert (b = 0 \/ b = 1 \/ b = 2)%nat as [-> | [-> | ->]] by (rewrite !elem_of_cons, elem_of_nil in Hb; tauto); [|reflexivity|].
      - apply NoDup_cons in Hnd as [Hn _]. destruct Hn. left.
      - specialize (L2 [0%nat] [d] eq_refl). inversion L2 as [|? ? ? L]; subst. inversion L. }
    subst b. assert (d = 2%nat) as ->; [|reflexivity].
    assert (d = 0 \/ d = 1 \/ d = 2)%nat as [-> | [-> | ->]] by (rewrite !elem_of_cons, elem_of_nil in Hd; tauto); [..|reflexivity];
      exfalso; apply NoDup_cons in Hnd as [Hn Hnd]; apply NoDup_cons in Hnd as [Hn' _]; [apply Hn|apply Hn']; set_solver. }
  rewrite E. cbn [List.filter]. rewrite M0, M1, M2. reflexivity.
Qed.
Definition lathe_q : nat -> R := fun k => match k with O => PI / 2 | S O => 3 | _ => 0 end.
Lemma slide_step0 : joint_step slide 3 (V3 0 0 0) = V3 1 0 3.
Proof.
  unfold joint_step. assert (joint_motion slide 3 (V3 0 0 0) = V3 0 3 0) as ->.
  { unfold joint_motion, direction, len, inner, plus, times. cbn. replace (0 * 0 + 1 * 1 + 0 * 0) with 1 by ring. rewrite sqrt_1. f_equal; field. }
  unfold rot_x. cbn. rewrite sin_PI2, cos_PI2. unfold rot_y, rot_z, plus. cbn. rewrite sin_0, cos_0. f_equal; ring.
Qed.
Lemma turntable_turns x y z : joint_step turntable (PI / 2) (V3 x y z) = V3 (- y) x (z + 1).
Proof.
  unfold joint_step. assert (joint_motion turntable (PI / 2) (V3 x y z) = V3 (- y) x z) as ->.
  { unfold joint_motion. cbn [uj_type turntable]. assert (direction (uj_axis turntable) = V3 0 0 1) as ->.
    { unfold direction, len, inner, times. cbn. replace (0 * 0 + 0 * 0 + 2 * 2) with 4 by ring. rewrite sqrt4. f_equal; field. }
    unfold rotate. rewrite sin_PI2, cos_PI2. unfold cross, inner, plus, times. cbn. f_equal; ring. }
  unfold rot_x. cbn. rewrite sin_0, cos_0. unfold rot_y, rot_z, plus. cbn. rewrite sin_0, cos_0. f_equal; ring.
Qed.
(** a quarter turn, the slide out by three; base, table and hand weigh 2, 1 and 3: the center of mass is
    at (0, 1/2, 13/6) *)
Example C95_case : exists c h1 h2 s, run 0 (chain_from_robot (fun x : R => x) 9 lathe) (quiet ∅ 0) = Done c (quiet h1 3) /\
  run 0 (set_joint_positions_unchecked c [PI / 2; 3]) (quiet h1 3) = Done tt (quiet h2 3) /\
  run 0 (center_of_mass c) (quiet h2 3) = Done (V3 0 (1 / 2) (13 / 6)) s.
Proof.
  destruct lathe_load as (c & h1 & R1 & Hm).
  destruct (C95_center_of_mass 0 lathe ∅ 0 9 lathe_empty lathe_named lathe_sound lathe_known lathe_acyclic) as (c' & h1' & R1' & H); [cbn; lia|exact lathe_complete|].
  change (S 0 + length (r_joints lathe))%nat with 3%nat in *. rewrite R1 in R1'. injection R1' as <- <-.
  destruct (H [PI / 2; 3] lathe_q) as (h2 & cs & s & R2 & R3 & F); [rewrite Hm; exact C94_case_given|].
  exists c, h1, h2, s. split; [exact R1|]. split; [exact R2|]. rewrite R3. f_equal.
  assert (P0 : forall x, placed lathe lathe_q 0 x (joint_step turntable (PI / 2) x)) by (intros x; apply (placed_base lathe lathe_q 0 turntable); [reflexivity|exact lathe_base]).
  assert (P1 : forall x, placed lathe lathe_q 1 x (joint_step turntable (PI / 2) (joint_step slide 3 x))) by (intros x; apply (placed_step lathe lathe_q 1 slide 0); [reflexivity|exact lathe_above|apply P0]).
  cbn [r_links lathe] in F. inversion F as [|? [m1 y1] ? cs1 [M1 A1] F1]; subst. inversion F1 as [|? [m2 y2] ? cs2 [M2 A2] F2]; subst.
  inversion F2 as [|? [m3 y3] ? cs3 [M3 A3] F3]; subst. inversion F3; subst. cbn in M1, M2, M3. subst m1 m2 m3. cbn [snd ul_inertial bare_link ui_origin no_pose u_xyz] in A1, A2, A3.
  assert (y1 = V3 0 0 0) as ->.
  { destruct A1 as [[_ E]|(i & j & Hj & Hn & _)]; [exact E|]. destruct i as [|[|i]]; cbn in Hj; simplify_eq; discriminate. }
  assert (y2 = V3 0 0 1) as ->.
  { destruct A2 as [[Hf _]|(i & j & Hj & Hn & Hp)].
    - destruct (Hf turntable); [cbn; set_solver|reflexivity].
    - destruct i as [|[|i]]; cbn in Hj, Hn; simplify_eq. rewrite (placed_fun lathe lathe_q 0 _ _ _ lathe_named (P0 _) Hp), turntable_turns. f_equal; ring. }
  assert (y3 = V3 0 1 4) as ->.
  { destruct A3 as [[Hf _]|(i & j & Hj & Hn & Hp)].
    - destruct (Hf slide); [cbn; set_solver|reflexivity].
    - destruct i as [|[|i]]; cbn in Hj, Hn; simplify_eq. rewrite (placed_fun lathe lathe_q 1 _ _ _ lathe_named (P1 _) Hp), slide_step0, turntable_turns. f_equal; ring. }
  unfold mean, rsum, times. cbn. f_equal; field.
Qed.
(** ... but the table of the same robot is drawn without its quarter turn: its point (1, 0, 0) is put at
    (1, 0, 0), where the description puts it at (0, 1, 1) *)
Theorem C95_drawn_at_own_joint_refuted : exists c h1 h2 h3 n lk w, run 0 (chain_from_robot (fun x : R => x) 9 lathe) (quiet ∅ 0) = Done c (quiet h1 3) /\
  run 0 (set_joint_positions_unchecked c [PI / 2; 3]) (quiet h1 3) = Done tt (quiet h2 3) /\
  run 0 (update_link_transforms c) (quiet h2 3) = Done tt (quiet h3 3) /\
  h3 !! 1%nat = Some n /\ n_link n = Some lk /\ in_wt (l_inertial lk) = Some w /\
  move w (V3 1 0 0) = V3 1 0 0 /\ link_at lathe lathe_q (bare_link "table" 1) (V3 1 0 0) (V3 0 1 1).
Proof.
  destruct lathe_load as (c & h1 & R1 & Hm).
  destruct (draw_lemma 0 lathe ∅ 0 9 lathe_empty lathe_named lathe_sound lathe_known lathe_acyclic) as (c' & h1' & R1' & H); [cbn; lia|].
  change (S 0 + length (r_joints lathe))%nat with 3%nat in *. rewrite R1 in R1'. injection R1' as <- <-.
  destruct (H [PI / 2; 3] lathe_q) as (h2 & h3 & R2 & R3 & HD); [rewrite Hm; exact C94_case_given|].
  destruct (HD 0%nat turntable (bare_link "table" 1)) as (n & lk & Hn & Hlk & (w & Hw & [_ Hx]) & _); [reflexivity|cbn; set_solver|reflexivity|].
  exists c, h1, h2, h3, n, lk, w. split; [exact R1|]. split; [exact R2|]. split; [exact R3|]. split; [exact Hn|]. split; [exact Hlk|].
  split; [exact Hw|]. assert (E0 : pose_step no_pose (V3 1 0 0) = V3 1 0 0).
  { unfold pose_step, rot_x, rot_y, rot_z, plus. cbn. rewrite sin_0, cos_0. f_equal; ring. }
  split.
  - destruct (Hx (V3 1 0 0)) as [HU _]. cbn [ul_inertial bare_link ui_origin] in HU. rewrite E0 in HU.
    destruct HU as [[_ E]|(k & Hk & _)]; [exact E|destruct (lathe_base _ Hk)].
  - right. exists 0%nat, turntable. split; [reflexivity|]. split; [reflexivity|].
    replace (V3 0 1 1) with (joint_step turntable (lathe_q 0) (V3 1 0 0)) by (cbn [lathe_q]; rewrite turntable_turns; f_equal; ring).
    apply placed_base; [reflexivity|exact lathe_base].
Qed.
Print Assumptions C95_drawn_at_own_joint_refuted.
