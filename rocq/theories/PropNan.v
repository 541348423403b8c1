(** * C83: what the solver makes of NaN and infinities *)
From Coq Require Import String ZArith Lia Floats.SpecFloat.
From stdpp Require Import gmap.
From Verif Require Import Scalar ScalarF Geometry Joint Link Prog NodeM ChainM FuncsM IkM LuM RunLemmas SpecJoint SpecNode SpecGraph SpecChain SpecFK FKProofs SpecIk
  SpecStep IkProofs Ex PropIk PropError SpecNan NanProofs.

(** C83: a joint whose position is NaN or infinite shows in the pose of the end: all three
    coordinates of its position are NaN or infinite, if the joint slides, or turns and has
    another joint behind it *)
Theorem C83_end_pose prec emax (L : libm) t (h : gmap nat (node spec_float)) nx arm l1 a l2 n w :
  let F := FScalar prec emax L in
  nan_outside L -> all_live h (c_nodes arm) -> c_nodes arm = (l1 ++ a :: l2)%list -> h !! a = Some n -> wild (j_position (n_joint n)) ->
  match j_type (n_joint n) with Fixed => False | Rotational _ => l2 <> [] | Linear _ => True end ->
  run t (end_transform (Sc := F) arm) (quiet h nx) = Done w (quiet h nx) -> wild_vec (tr w).
Proof.
  intros F HL Hlive El Hn Hw Ht Hr.
  assert (Hj : forall l, all_live h l -> exists js, Forall2 (fun b j => exists m, h !! b = Some m /\ j = n_joint m) l js).
  { intros l. induction l as [|b l IH]; intros Hl; [exists []; constructor|]. destruct (Hl b) as [m Hm]; [set_solver|].
    destruct IH as [js Hjs]; [intros b' Hb'; apply Hl; set_solver|]. exists (n_joint m :: js). constructor; eauto. }
  destruct (Hj _ Hlive) as [js Hjs]. rewrite El in Hjs. apply Forall2_app_inv_l in Hjs as (js1 & js2 & H1 & H2 & ->). apply Forall2_cons_inv_l in H2 as (j & js3 & (m & Hm & ->) & H3 & ->).
  assert (m = n) as -> by congruence.
  assert (Hlo : Forall2 (local_at (Sc := F) h) (c_nodes arm) (map local_transform (js1 ++ n_joint n :: js3)%list)).
  { rewrite El, map_app. apply Forall2_app; [|constructor; [exists n; auto|]]; apply Forall2_fmap_r; (eapply Forall2_impl; [eassumption|]); intros b j (k & Hk & ->); exists k; auto. }
  unfold end_transform in Hr. rewrite (run_end_fold t h nx _ _ Hlo) in Hr. injection Hr as <-.
  apply wild_product; [exact HL|exact Hw|]. destruct (j_type (n_joint n)); try exact Ht. intros ->. apply Ht. inversion H3. reflexivity.
Qed.
Print Assumptions C83_end_pose.

Lemma wild_error prec emax (L : libm) c (target w : iso spec_float) :
  (position_x c = true /\ (wild (vx (tr target)) \/ wild (vx (tr w)))) \/ (position_y c = true /\ (wild (vy (tr target)) \/ wild (vy (tr w)))) \/
  (position_z c = true /\ (wild (vz (tr target)) \/ wild (vz (tr w)))) ->
  forall sv, ~ @on_target _ (FScalar prec emax L) sv c target w.
Proof.
  intros H sv [Hp _]. rewrite wild_norm in Hp; [discriminate|]. unfold position_error. cbn [vx vy vz].
  destruct H as [[-> H]|[[-> H]|[-> H]]]; cbn [keep]; [left|right; left|right; right]; apply wild_sub, H.
Qed.
(** C83: success is never reported for a target with NaN or infinity in a constrained
    coordinate of the position, nor with the arm at a position with NaN or infinity in one; so
    if the constraints mention any coordinate of the position, no sliding joint is left at NaN
    or infinity, and no turning one but the last. *)
Theorem C83_ok prec emax (L : libm) t ovf la sv (h : gmap nat (node spec_float)) nx arm target c s :
  let F := FScalar prec emax L in
  nan_outside L -> chain_of h (c_nodes arm) arm -> all_live h (c_nodes arm) -> limits_ok (Sc := F) h (c_movable arm) ->
  inside_limits (Sc := F) h (c_movable arm) \/
    (sized la /\ (ignored_joint_names c = [] \/ count_true (define_operational_space c) + length (ignored_joint_names c) < c_dof arm)) ->
  run t (solve_with_constraints (Sc := F) ovf la sv arm target c) (quiet h nx) = Done (Ok tt) s ->
  exists h' w, s = quiet h' nx /\ run t (end_transform (Sc := F) arm) s = Done w s /\
    (position_x c = true -> ~ wild (vx (tr target)) /\ ~ wild (vx (tr w))) /\
    (position_y c = true -> ~ wild (vy (tr target)) /\ ~ wild (vy (tr w))) /\
    (position_z c = true -> ~ wild (vz (tr target)) /\ ~ wild (vz (tr w))) /\
    (some_position c -> forall l1 a l2 n, c_nodes arm = (l1 ++ a :: l2)%list -> h' !! a = Some n -> wild (j_position (n_joint n)) ->
      match j_type (n_joint n) with Fixed => True | Rotational _ => l2 = [] | Linear _ => False end).
Proof.
  intros F HL Hch Hlive Hlo Hst Hr.
  assert (H : exists h' w, s = quiet h' nx /\ run t (end_transform (Sc := F) arm) s = Done w s /\ on_target (Sc := F) sv c target w /\ only_moved (c_movable arm) h h').
  { destruct Hst as [Hi|[Hz Hd]].
    - exact (@C31_ok_means_on_target _ F (F_OrdLaws prec emax L) t ovf la sv h nx arm target c s Hch Hlive Hlo Hi Hr).
    - exact (@C31_any_start _ F (F_OrdLaws prec emax L) t ovf la sv h nx arm target c s Hch Hlive Hlo Hz Hd Hr). }
  destruct H as (h' & w & -> & Hw & Ho & Hmv). exists h', w. split; [reflexivity|]. split; [exact Hw|].
  assert (N : forall P Q, (P \/ Q -> False) -> ~ P /\ ~ Q) by tauto.
  split; [|split; [|split]].
  - intros E. apply N. intros H. apply (wild_error prec emax L c target w) with (sv := sv); [auto|exact Ho].
  - intros E. apply N. intros H. apply (wild_error prec emax L c target w) with (sv := sv); [auto|exact Ho].
  - intros E. apply N. intros H. apply (wild_error prec emax L c target w) with (sv := sv); [auto|exact Ho].
  - intros Hc l1 a l2 n El Hn Hp.
    assert (Hlive' : all_live h' (c_nodes arm)).
    { intros b Hb. destruct (Hlive b Hb) as [m Hm]. destruct Hmv as [Hmv _]. specialize (Hmv b). rewrite Hm in Hmv. destruct (h' !! b); [eauto|contradiction]. }
    assert (D : match j_type (n_joint n) with Fixed => False | Rotational _ => l2 <> [] | Linear _ => True end -> False).
    { intros Ht. pose proof (C83_end_pose prec emax L t h' nx arm l1 a l2 n w HL Hlive' El Hn Hp Ht Hw) as (W1 & W2 & W3).
      apply (wild_error prec emax L c target w) with (sv := sv); [|exact Ho]. destruct Hc as [E|[E|E]]; rewrite E; auto 6. }
    destruct (j_type (n_joint n)); [exact I| |exact (D I)]. destruct l2; [reflexivity|]. exfalso. apply D. discriminate.
Qed.
Print Assumptions C83_ok.

(** C83: a NaN in the orientation of the target or of the arm's end is not noticed: the error
    in rotation is then zero *)
Theorem C83_blind prec emax (L : libm) (target w : iso spec_float) : let F := FScalar prec emax L in
  some_nan (rt target) \/ some_nan (rt w) ->
  calc_pose_diff (Sc := F) target w =
    [ssub (vx (tr target)) (vx (tr w)); ssub (vy (tr target)) (vy (tr w)); ssub (vz (tr target)) (vz (tr w)); szero; szero; szero].
Proof. intros F H. unfold calc_pose_diff, qrotation_to. subst F. rewrite (nan_rotation prec emax L) by exact H. reflexivity. Qed.
Print Assumptions C83_blind.
(** so with constraints on rotations only, a target whose orientation contains a NaN is never
    reported as not reached *)
Theorem C83_nan_orientation prec emax (L : libm) t ovf la sv (h : gmap nat (node spec_float)) nx arm target c k pd rd s :
  let F := FScalar prec emax L in
  some_nan (rt target) -> ~ some_position c ->
  slt (Scalar := F) szero (allowable_target_distance sv) = true -> slt (Scalar := F) szero (allowable_target_angle sv) = true ->
  chain_of h (c_nodes arm) arm -> all_live h (c_nodes arm) -> plain h (c_movable arm) -> inside_limits (Sc := F) h (c_movable arm) ->
  length (ignored_joint_names c) <= c_dof arm ->
  run t (solve_with_constraints (Sc := F) ovf la sv arm target c) (quiet h nx) <> Done (Err (NotConvergedError k pd rd)) s.
Proof.
  intros F Hn Hc Hd Ha H1 H2 H3 H4 H5 Hr. subst F.
  destruct (@C74_solver _ (FScalar prec emax L) t ovf la sv h nx arm target c _ s H1 H2 H3 H4 H5 Hr) as (_ & h' & w & _ & _ & _ & _ & Ho). apply Ho. clear -Hn Hc Hd Ha.
  assert (Ex : position_x c = false) by (destruct (position_x c) eqn:E; [exfalso; apply Hc; left; exact E|reflexivity]).
  assert (Ey : position_y c = false) by (destruct (position_y c) eqn:E; [exfalso; apply Hc; right; left; exact E|reflexivity]).
  assert (Ez : position_z c = false) by (destruct (position_z c) eqn:E; [exfalso; apply Hc; right; right; exact E|reflexivity]).
  split.
  - unfold position_error. rewrite Ex, Ey, Ez. exact Hd.
  - unfold rotation_error. rewrite (nan_rotation prec emax L) by (left; exact Hn).
    destruct (rotation_x c), (rotation_y c), (rotation_z c); exact Ha.
Qed.
Print Assumptions C83_nan_orientation.

(** ** cases: a hinge about z *)
(** sine and cosine at zero, NaN elsewhere *)
Definition LN : libm := Build_libm (fun x => match x with S754_zero s => S754_zero s | _ => S754_nan end) (fun x => match x with S754_zero _ => SFofZ 53 1024 1 | _ => S754_nan end)
  (fun y _ => y).
Lemma LN_ok : nan_outside LN.
Proof. intros [| | |] H; try contradiction; split; reflexivity. Qed.
Definition hinge_at (p : spec_float) : gmap nat (node spec_float) :=
  <[0 := Node None [] (Joint "hinge" (Rotational (@z_axis _ (F64 LN))) p (S754_zero false) None (@iso1 _ (F64 LN)) None None) None [] None None]> ∅.
Definition hinge_arm : chain := Chain [0] [0] 1.
Definition yaw_only : constraints := Constraints false false false false false true [].
Definition hinge_solver : solver spec_float := Solver (SFofZ 53 1024 1) (SFofZ 53 1024 1) (SFofZ 53 1024 1) 3 None.
Definition hinge_la : linalg spec_float := Linalg (@na_lu_solve _ (F64 LN)) (fun _ _ => None) (fun _ => None).
Definition nowhere : iso spec_float := Iso (@v0 _ (F64 LN)) (Qt S754_nan S754_nan S754_nan S754_nan).
(** success with a target that is not an orientation, and success that leaves the only joint
    of the arm at NaN *)
Theorem C83_rotation_refuted :
  (exists s, run 0 (solve_with_constraints (Sc := F64 LN) true hinge_la hinge_solver hinge_arm nowhere yaw_only) (quiet (hinge_at (S754_zero false)) 1) = Done (Ok tt) s) /\
  (exists s n, run 0 (solve_with_constraints (Sc := F64 LN) true hinge_la hinge_solver hinge_arm (@iso1 _ (F64 LN)) yaw_only) (quiet (hinge_at S754_nan) 1) = Done (Ok tt) s /\
    heap s !! 0 = Some n /\ j_position (n_joint n) = S754_nan).
Proof. split; [eexists; vm_compute; reflexivity|]. eexists _, _. split; [vm_compute; reflexivity|]. split; vm_compute; reflexivity. Qed.
Print Assumptions C83_rotation_refuted.
(** a slide along z, then a hinge about z *)
Definition crane (p q : spec_float) : gmap nat (node spec_float) :=
  <[0 := Node None [1] (Joint "slide" (Linear (@z_axis _ (F64 LN))) p (S754_zero false) None (@iso1 _ (F64 LN)) None None) None [] None None]>
  (<[1 := Node (Some 0) [] (Joint "hinge" (Rotational (@z_axis _ (F64 LN))) q (S754_zero false) None (@iso1 _ (F64 LN)) None None) None [] None None]> ∅).
Definition crane_arm : chain := Chain [0; 1] [0; 1] 2.
Definition seven_up : iso spec_float := Iso (V3 (S754_zero false) (S754_zero false) (SFofZ 53 1024 7)) (@q1 _ (F64 LN)).
Definition heights : constraints := Constraints false false true false false false ["hinge"%string].
Lemma crane_live p q : all_live (crane p q) (c_nodes crane_arm).
Proof. intros a Ha. cbn in Ha. apply elem_of_cons in Ha as [->|Ha]; [eexists; reflexivity|]. apply elem_of_list_singleton in Ha as ->. eexists; reflexivity. Qed.
Lemma crane_at p q a n : a ∈ c_movable crane_arm -> crane p q !! a = Some n -> j_limits (n_joint n) = None /\ no_mimic n.
Proof. intros Ha Hn. cbn in Ha. apply elem_of_cons in Ha as [->|Ha]; [|apply elem_of_list_singleton in Ha as ->]; vm_compute in Hn; injection Hn as <-; split; vm_compute; repeat split. Qed.
Example C83_end_pose_case : nan_outside LN /\ all_live (crane S754_nan (S754_zero false)) (c_nodes crane_arm) /\ c_nodes crane_arm = ([] ++ 0 :: [1])%list /\
  exists w s, run 0 (end_transform (Sc := F64 LN) crane_arm) (quiet (crane S754_nan (S754_zero false)) 2) = Done w s /\
    tr w = V3 S754_nan S754_nan S754_nan.
Proof. split; [exact LN_ok|]. split; [apply crane_live|]. split; [reflexivity|]. eexists _, _. split; vm_compute; reflexivity. Qed.
Example C83_ok_case : let h := crane (S754_zero false) (S754_zero false) in
  nan_outside LN /\ chain_of h (c_nodes crane_arm) crane_arm /\ all_live h (c_nodes crane_arm) /\ limits_ok (Sc := F64 LN) h (c_movable crane_arm) /\
  inside_limits (Sc := F64 LN) h (c_movable crane_arm) /\ some_position heights /\
  exists s, run 0 (solve_with_constraints (Sc := F64 LN) true hinge_la hinge_solver crane_arm seven_up heights) (quiet h 2) = Done (Ok tt) s.
Proof.
  cbn zeta. split; [exact LN_ok|]. split; [repeat split; vm_compute; reflexivity|]. split; [apply crane_live|].
  split; [intros a n Ha Hn; apply crane_at in Hn as [E _]; [|exact Ha]; intros r Er; congruence|].
  split; [intros a n Ha Hn; apply crane_at in Hn as [E _]; [|exact Ha]; intros r Er; congruence|].
  split; [right; right; reflexivity|]. eexists. vm_compute. reflexivity.
Qed.
(** with the slide of the crane at NaN nothing is reached *)
Example C83_nan_case : exists e s, run 0 (solve_with_constraints (Sc := F64 LN) true hinge_la hinge_solver crane_arm seven_up heights) (quiet (crane S754_nan (S754_zero false)) 2) = Done (Err e) s.
Proof. eexists _, _. vm_compute. reflexivity. Qed.
Example C83_nan_orientation_case : let h := hinge_at (S754_zero false) in some_nan (rt nowhere) /\ ~ some_position yaw_only /\
  slt (Scalar := F64 LN) szero (allowable_target_distance hinge_solver) = true /\ slt (Scalar := F64 LN) szero (allowable_target_angle hinge_solver) = true /\
  chain_of h (c_nodes hinge_arm) hinge_arm /\ all_live h (c_nodes hinge_arm) /\ plain h (c_movable hinge_arm) /\ inside_limits (Sc := F64 LN) h (c_movable hinge_arm) /\
  length (ignored_joint_names yaw_only) <= c_dof hinge_arm.
Proof.
  cbn zeta. split; [left; reflexivity|]. split; [intros [H|[H|H]]; discriminate H|]. split; [vm_compute; reflexivity|]. split; [vm_compute; reflexivity|].
  split; [repeat split; vm_compute; reflexivity|].
  split; [intros a Ha; cbn in Ha; apply elem_of_list_singleton in Ha as ->; eexists; reflexivity|].
  split; [split; [cbn; repeat constructor; set_solver|intros a Ha; cbn in Ha; apply elem_of_list_singleton in Ha as ->; eexists; split; [reflexivity|vm_compute; repeat split]]|].
  split; [intros a n Ha Hn; cbn in Ha; apply elem_of_list_singleton in Ha as ->; vm_compute in Hn; injection Hn as <-; intros r Er; discriminate Er|]. cbn. lia.
Qed.
