(** * The crate's own tests, run on the model

    Each example is one test or documentation example of /repo, transcribed
    statement by statement, with the crate's own expected values; [passes] is
    true when no assertion fails, nothing panics and nothing blocks.  f32 and f64
    are the IEEE formats, so [assert_eq!] on floats is checked bit for bit.
    These are tests of the model against the code, not proofs. *)
From Coq Require Import String ZArith QArith List Bool Floats.SpecFloat.
From Verif Require Import Scalar ScalarF Geometry Joint Link Prog NodeM ChainM FuncsM IkM UrdfM
  BuilderM ReplayLib ReplayUrdf.
From stdpp Require Import gmap.
Import ListNotations.
Open Scope string_scope.

Definition fuel : nat := 100.

Section F64.
  Local Instance S64 : Scalar spec_float := D64.
  Let eps : spec_float := d 1 4503599627370496.      (* f64::EPSILON *)
  Let mk (cs : list (nb_call spec_float)) : prog spec_float nat := nb_into_node (nb_calls cs).
  Let ROT := CJointType (Rotational y_axis).
  Let LIN := CJointType (Linear z_axis).
  Let TR (x y z : spec_float) := CTranslation (V3 x y z).
  Let z0 : spec_float := d 0 1.
  Let pos1 (a : nat) : prog spec_float spec_float := o <- node_joint_position a ;; some o.
  Let lim (lo hi : spec_float) := CLimits (range_from (lo, hi)).

  (** src/chain.rs:29-83 *)
  Definition doc_chain : prog spec_float unit :=
    l0 <- mk [CName "joint_pitch0"; TR z0 z0 (d 1 10); ROT] ;;
    l1 <- mk [CName "joint_pitch1"; TR z0 z0 (d 5 10); ROT] ;;
    l2 <- mk [CName "hand"; TR z0 z0 (d 5 10); CJointType Fixed] ;;
    connect l0 [l1; l2] ;;;
    tree <- from_root fuel l0 ;;
    check (bool_decide (dof tree = 2)) ;;;
    ps <- joint_positions tree ;;
    check (eqs ps [z0; z0]) ;;;
    ts <- update_transforms tree ;;
    check (eqs (map (fun t => vz (tr t)) ts) [d 1 10; d 6 10; d 11 10]) ;;;
    r <- set_joint_positions tree [d 1 1; d 2 1] ;; ok r ;;;
    ps <- joint_positions tree ;;
    check (eqs ps [d 1 1; d 2 1]) ;;;
    ts <- update_transforms tree ;;
    check (bool_decide (length ts = 3)).
  Example doc_chain_ok : passes doc_chain = true.
  Proof. vm_compute. reflexivity. Qed.

  (** src/chain.rs:254-265 *)
  Definition doc_iter : prog spec_float unit :=
    l0 <- node_new (joint_new "fixed0" Fixed) ;;
    l1 <- node_new (joint_new "fixed1" Fixed) ;;
    node_set_parent l1 l0 ;;;
    tree <- from_root fuel l0 ;;
    ns <- names (c_nodes tree) ;;
    check (bool_decide (ns = ["fixed0"; "fixed1"])).
  Example doc_iter_ok : passes doc_iter = true.
  Proof. vm_compute. reflexivity. Qed.

  (** src/chain.rs:292-305 *)
  Definition doc_dof : prog spec_float unit :=
    l0 <- mk [CJointType Fixed] ;; l1 <- mk [ROT] ;;
    node_set_parent l1 l0 ;;;
    tree <- from_root fuel l0 ;;
    check (bool_decide (dof tree = 1)).
  Example doc_dof_ok : passes doc_dof = true.
  Proof. vm_compute. reflexivity. Qed.

  (** src/chain.rs:313-329 *)
  Definition doc_find : prog spec_float unit :=
    l0 <- mk [CName "fixed"] ;;
    l1 <- mk [CName "pitch1"; TR z0 (d 1 10) z0; ROT] ;;
    node_set_parent l1 l0 ;;;
    tree <- from_root fuel l0 ;;
    o <- chain_find tree "pitch1" ;; j <- some o ;;
    r <- node_set_joint_position j (d 5 10) ;; ok r ;;;
    p <- pos1 j ;;
    check (seqb p (d 5 10)).
  Example doc_find_ok : passes doc_find = true.
  Proof. vm_compute. reflexivity. Qed.

  (** src/joint/range.rs:35-91 *)
  Definition doc_range : prog spec_float unit :=
    r <- some (range_new (d (-1) 1) (d 1 1)) ;;
    check (is_valid r z0 && is_valid r (d 1 1) && negb (is_valid r (d 15 10))) ;;;
    check (seqb (clamp r (d 5 10)) (d 5 10) && seqb (clamp r (d 2 1)) (d 1 1)
           && seqb (clamp r (d (-2) 1)) (d (-1) 1)) ;;;
    r <- some (range_from (d (-1) 1, d 1 1)) ;;
    check (is_valid r z0 && is_valid r (d 1 1) && negb (is_valid r (d 15 10))) ;;;
    check (negb (bool_decide (is_Some (range_new (d 1 1) (d (-1) 1))))).
  Example doc_range_ok : passes doc_range = true.
  Proof. vm_compute. reflexivity. Qed.

  (** src/joint/joint.rs:55-65, 85-102, 132-147, 210-218 *)
  Definition doc_joint : prog spec_float unit :=
    let fixed := joint_new "f0" Fixed in
    check (negb (bool_decide (is_Some (joint_position fixed)))) ;;;
    let rot := joint_new "r0" (Rotational y_axis) in
    p <- some (joint_position rot) ;; check (seqb p z0) ;;;
    check (is_err (snd (joint_set fixed (d 1 1)))) ;;;
    let rr := joint_set rot (d 2 10) in
    ok (snd rr) ;;;
    p <- some (joint_position (fst rr)) ;; check (seqb p (d 2 10)) ;;;
    l <- some (range_new (d (-1) 1) (d 1 1)) ;;
    let rot := Joint "r0" (Rotational y_axis) szero szero (Some l) iso1 None None in
    let rot := joint_set_clamped rot (d 2 1) in
    p <- some (joint_position rot) ;; check (seqb p (d 1 1)) ;;;
    let rot := joint_set_clamped rot (d (-2) 1) in
    p <- some (joint_position rot) ;; check (seqb p (d (-1) 1)) ;;;
    let lin := joint_new "l0" (Linear x_axis) in
    check (seqb (vx (tr (local_transform lin))) z0) ;;;
    let lr := joint_set lin (d (-1) 1) in
    ok (snd lr) ;;;
    check (seqb (vx (tr (local_transform (fst lr)))) (d (-1) 1)).
  Example doc_joint_ok : passes doc_joint = true.
  Proof. vm_compute. reflexivity. Qed.

  (** src/joint/mimic.rs:53-61 *)
  Definition doc_mimic : prog spec_float unit :=
    check (seqb (mimic_position (Mimic (d 1 1) (d 5 10)) (d 2 10)) (d 7 10)) ;;;
    check (seqb (mimic_position (Mimic (d (-2) 1) (d (-4) 10)) (d 2 10)) (d (-8) 10)).
  Example doc_mimic_ok : passes doc_mimic = true.
  Proof. vm_compute. reflexivity. Qed.

  (** src/node.rs:135-141, 164-172, 176-182, 574-591 *)
  Definition doc_node : prog spec_float unit :=
    l0 <- mk [] ;; l1 <- mk [] ;;
    node_set_parent l1 l0 ;;;
    e0 <- node_is_end l0 ;; e1 <- node_is_end l1 ;;
    check (negb e0 && e1) ;;;
    l0 <- mk [LIN; lim z0 (d 2 1)] ;;
    r <- node_set_joint_position l0 (d 1 1) ;; check (is_ok r) ;;;
    r <- node_set_joint_position l0 (d (-1) 1) ;; check (is_err r) ;;;
    l0 <- mk [CJointType Fixed] ;;
    r <- node_set_joint_position l0 z0 ;; check (is_err r) ;;;
    l0 <- mk [] ;; l1 <- mk [] ;; l2 <- mk [] ;;
    connect l0 [l1; l2] ;;;
    r0 <- node_is_root l0 ;; r1 <- node_is_root l1 ;;
    e1 <- node_is_end l1 ;; e2 <- node_is_end l2 ;;
    check (r0 && negb r1 && negb e1 && e2).
  Example doc_node_ok : passes doc_node = true.
  Proof. vm_compute. reflexivity. Qed.

  (** src/node.rs:186-202 *)
  Definition doc_node_mimic : prog spec_float unit :=
    j0 <- mk [LIN; lim z0 (d 2 1)] ;; j1 <- mk [LIN; lim z0 (d 2 1)] ;;
    node_set_mimic_parent j1 j0 (Mimic (d 15 10) (d 1 10)) ;;;
    p0 <- pos1 j0 ;; p1 <- pos1 j1 ;; check (eqs [p0; p1] [z0; z0]) ;;;
    r <- node_set_joint_position j0 (d 1 1) ;; check (is_ok r) ;;;
    p0 <- pos1 j0 ;; p1 <- pos1 j1 ;; check (eqs [p0; p1] [d 1 1; d 16 10]).
  Example doc_node_mimic_ok : passes doc_node_mimic = true.
  Proof. vm_compute. reflexivity. Qed.

  (** src/node.rs:232-242 *)
  Definition doc_node_clamped : prog spec_float unit :=
    l0 <- mk [LIN; lim (d (-1) 1) (d 1 1)] ;;
    node_set_joint_position_clamped l0 (d 2 1) ;;;
    p <- pos1 l0 ;; check (seqb p (d 1 1)) ;;;
    node_set_joint_position_clamped l0 (d (-2) 1) ;;;
    p <- pos1 l0 ;; check (seqb p (d (-1) 1)).
  Example doc_node_clamped_ok : passes doc_node_clamped = true.
  Proof. vm_compute. reflexivity. Qed.

  (** src/node.rs:280-302 *)
  Definition doc_world_transform : prog spec_float unit :=
    l0 <- mk [TR z0 z0 (d 2 10); ROT] ;;
    l1 <- mk [TR z0 z0 (d 1 1); LIN] ;;
    node_set_parent l1 l0 ;;;
    tree <- from_root fuel l0 ;;
    r <- set_joint_positions tree [smul (d 3141592 1000000) (d 5 10); d 1 10] ;; ok r ;;;
    o <- node_world_transform l1 ;; check (negb (bool_decide (is_Some o))) ;;;
    ts <- update_transforms tree ;;
    o <- node_world_transform l1 ;; w <- some o ;;
    check (near (vx (tr w)) (d 11 10) (d 1 10000)) ;;;
    check (near (vz (tr w)) (d 2 10) (d 1 10000)).
  Example doc_world_transform_ok : passes doc_world_transform = true.
  Proof. vm_compute. reflexivity. Qed.

  (** src/chain.rs:734-774, test_mimic *)
  Definition test_mimic : prog spec_float unit :=
    j0 <- mk [CName "j0"; TR z0 (d 1 10) z0; ROT] ;;
    j1 <- mk [CName "joint1"; TR z0 (d 1 10) (d 1 10); ROT] ;;
    j2 <- mk [CName "joint2"; TR z0 (d 1 10) (d 1 10); ROT] ;;
    node_set_parent j1 j0 ;;; node_set_parent j2 j1 ;;;
    node_set_mimic_parent j2 j1 (Mimic (d 2 1) (d 5 10)) ;;;
    arm <- from_root fuel j0 ;;
    ps <- joint_positions arm ;; check (bool_decide (length ps = 3)) ;;;
    r <- set_joint_positions arm [d 1 10; d 2 10; d 3 10] ;; ok r ;;;
    ps <- joint_positions arm ;;
    check (near (nth 0 ps szero) (d 1 10) eps && near (nth 1 ps szero) (d 2 10) eps
           && near (nth 2 ps szero) (d 9 10) eps).
  Example test_mimic_ok : passes test_mimic = true.
  Proof. vm_compute. reflexivity. Qed.

  (** src/funcs.rs:78-116, test_update_center_of_mass *)
  Definition test_update_center_of_mass : prog spec_float unit :=
    let zeros := M3 szero szero szero szero szero szero szero szero szero in
    j0 <- mk [TR z0 (d 1 1) z0] ;;
    j1 <- mk [TR z0 z0 (d 1 1); ROT] ;;
    node_set_link j0 (Some (lb_finalize (lb_calls [CLinkName "l0";
      CInertial (inertial_new iso1 (d 1 1) zeros)]))) ;;;
    let i1 := inertial_set_origin (inertial_new iso1 (d 4 1) zeros) (at_ z0 z0 (d 1 1)) in
    node_set_link j1 (Some (lb_finalize (lb_calls [CLinkName "l1"; CInertial i1]))) ;;;
    node_set_parent j1 j0 ;;;
    tree <- from_root fuel j0 ;;
    c <- center_of_mass tree ;;
    check (near (vx c) z0 eps && near (vy c) (d 1 1) eps && near (vz c) (d 16 10) eps) ;;;
    r <- node_set_joint_position j1 (d 5 10) ;; ok r ;;;
    c <- center_of_mass tree ;;
    check (near (vx c) (d 383540 1000000) (d 1 10000)) ;;;
    check (near (vy c) (d 1 1) eps) ;;;
    check (near (vz c) (d 1502066 1000000) (d 1 10000)).
  Example test_update_center_of_mass_ok : passes test_update_center_of_mass = true.
  Proof. vm_compute. reflexivity. Qed.

  (** src/funcs.rs:42-57 *)
  Definition doc_com : prog spec_float unit :=
    j0 <- mk [TR z0 (d 1 1) z0] ;; j1 <- mk [TR z0 z0 (d 1 1)] ;;
    node_set_link j0 (Some (lb_finalize (lb_calls [CInertial (inertial_from_mass (d 1 1))]))) ;;;
    node_set_link j1 (Some (lb_finalize (lb_calls [CInertial (inertial_from_mass (d 4 1))]))) ;;;
    node_set_parent j1 j0 ;;;
    tree <- from_root fuel j0 ;;
    center_of_mass tree ;;; Ret tt.
  Example doc_com_ok : passes doc_com = true.
  Proof. vm_compute. reflexivity. Qed.

  (** src/ik.rs:504-513, test_nullspace_func, and 91-100 *)
  Definition test_nullspace_func : prog spec_float unit :=
    g <- some (create_reference_positions_nullspace_function [z0; d 1 1] [d 5 10; d 1 10]) ;;
    v <- some (g [d 5 10; d 5 10]) ;;
    check (bool_decide (length v = 2) && near (nth 0 v szero) (d 25 100) eps
           && near (nth 1 v szero) (d (-5) 100) eps) ;;;
    check (forallb id (define_operational_space default_constraints)
           && bool_decide (ignored_joint_names default_constraints = [])).
  Example test_nullspace_func_ok : passes test_nullspace_func = true.
  Proof. vm_compute. reflexivity. Qed.

  (** tests/test_ik.rs:137-157, ik_fk6 *)
  Definition arm6 : prog spec_float chain :=
    let X := CJointType (Rotational x_axis) in let Z := CJointType (Rotational z_axis) in
    l0 <- mk [CName "shoulder_pitch"; ROT] ;;
    l1 <- mk [CName "shoulder_roll"; X; TR z0 (d 1 10) z0] ;;
    l2 <- mk [CName "shoulder_yaw"; Z; TR z0 z0 (d (-30) 100)] ;;
    l3 <- mk [CName "elbow_pitch"; ROT; TR z0 z0 (d (-15) 100)] ;;
    l4 <- mk [CName "wrist_yaw"; Z; TR z0 z0 (d (-15) 100)] ;;
    l5 <- mk [CName "wrist_pitch"; ROT; TR z0 z0 (d (-15) 100)] ;;
    connect l0 [l1; l2; l3; l4; l5] ;;;
    serial_from_end fuel l5.
  Definition ik_fk6 : prog spec_float unit :=
    arm <- arm6 ;;
    let angles := [d 8 10; d 2 10; z0; d (-12) 10; z0; d 1 10] in
    r <- set_joint_positions arm angles ;; ok r ;;;
    ts <- update_transforms arm ;;
    target <- some (last ts) ;;
    let solver := solver_new (d 1 1000) (d 1 1000) (d 8 10) 100 in
    r <- set_joint_positions arm [d 4 10; d 1 10; d 1 10; d (-1) 1; d 1 10; d 1 10] ;; ok r ;;;
    r <- solve true la solver arm target ;; ok r ;;;
    ps <- joint_positions arm ;;
    check (forallb (fun xy => near (fst xy) (snd xy) (d 2 1000)) (zip angles ps)).
  Example ik_fk6_ok : passes ik_fk6 = true.
  Proof. vm_compute. reflexivity. Qed.
End F64.

Section F32.
  Local Instance S32 : Scalar spec_float := D32.
  Let mk (cs : list (nb_call spec_float)) : prog spec_float nat := nb_into_node (nb_calls cs).
  Let ROT := CJointType (Rotational y_axis).
  Let TR (x y z : spec_float) := CTranslation (V3 x y z).
  Let z0 : spec_float := d 0 1.
  Let load : prog spec_float chain := chain_from_robot (SFconv 24 128) fuel sample_urdf.

  (** src/chain.rs:192-208 *)
  Definition doc_end_to_root : prog spec_float unit :=
    l0 <- node_new (joint_new "fixed0" Fixed) ;; l1 <- node_new (joint_new "fixed1" Fixed) ;;
    l2 <- node_new (joint_new "fixed2" Fixed) ;; l3 <- node_new (joint_new "fixed3" Fixed) ;;
    node_set_parent l1 l0 ;;; node_set_parent l2 l1 ;;; node_set_parent l3 l2 ;;;
    c <- from_end_to_root fuel l2 l1 ;;
    f0 <- chain_find c "fixed0" ;; f1 <- chain_find c "fixed1" ;;
    f2 <- chain_find c "fixed2" ;; f3 <- chain_find c "fixed3" ;;
    check (bool_decide (f0 = None /\ is_Some f1 /\ is_Some f2 /\ f3 = None)).
  Example doc_end_to_root_ok : passes doc_end_to_root = true.
  Proof. vm_compute. reflexivity. Qed.

  (** src/chain.rs:226-238 *)
  Definition doc_origin : prog spec_float unit :=
    l0 <- node_new (joint_new "fixed0" Fixed) ;; l1 <- node_new (joint_new "fixed1" Fixed) ;;
    node_set_parent l1 l0 ;;;
    c <- from_end fuel l1 ;;
    o <- chain_origin c ;;
    check (slt (sabs (vx (tr o))) (d 1 1000000)) ;;;
    let o := Iso (V3 (d 1 1) (vy (tr o)) (vz (tr o))) (rt o) in
    chain_set_origin c o ;;;
    o <- chain_origin c ;;
    check (near (vx (tr o)) (d 1 1) (d 1 1000000)).
  Example doc_origin_ok : passes doc_origin = true.
  Proof. vm_compute. reflexivity. Qed.

  (** src/chain.rs:532-546, 576-585, src/node.rs:120-128 *)
  Definition doc_serial : prog spec_float unit :=
    n <- mk [] ;; c <- from_root fuel n ;;
    o <- try_new true c ;; check (bool_decide (is_Some o)) ;;;
    n0 <- mk [] ;; n1 <- mk [] ;; n2 <- mk [] ;;
    node_set_parent n1 n0 ;;; node_set_parent n2 n0 ;;;
    r0 <- node_is_root n0 ;; r1 <- node_is_root n1 ;; check (r0 && negb r1) ;;;
    c <- from_root fuel n0 ;;
    o <- try_new true c ;; check (bool_decide (o = None)) ;;;
    n0 <- mk [] ;; n1 <- mk [] ;; n2 <- mk [] ;; n3 <- mk [] ;;
    connect n0 [n1; n2; n3] ;;;
    c <- serial_from_end_to_root fuel n2 n1 ;;
    check (bool_decide (length (c_nodes c) = 2)).
  Example doc_serial_ok : passes doc_serial = true.
  Proof. vm_compute. reflexivity. Qed.

  (** src/chain.rs:634-732, test_chain0 *)
  Definition test_chain0 : prog spec_float unit :=
    let t := d 1 10 in
    j0 <- mk [CName "j0"; TR z0 t z0; ROT] ;;
    j1 <- mk [TR z0 t t; CName "j1"; ROT] ;;
    j2 <- mk [CName "j2"; TR z0 t t; ROT] ;;
    j3 <- mk [CName "j3"; TR z0 t (d 2 10); ROT] ;;
    j4 <- mk [CName "j4"; TR z0 t t; ROT] ;;
    j5 <- mk [CName "j5"; TR z0 t t; ROT] ;;
    node_set_parent j1 j0 ;;; node_set_parent j2 j1 ;;; node_set_parent j3 j2 ;;;
    node_set_parent j4 j0 ;;; node_set_parent j5 j4 ;;;
    ds <- iter_descendants fuel j0 ;; ns <- names ds ;;
    check (bool_decide (length ns = 6)) ;;;
    Prog.mapM parent_world_transform ds ;;;
    up <- iter_ancestors fuel j0 ;;
    Prog.mapM (fun a => node_set_joint_position a (d (-5) 10)) up ;;;
    arm <- from_end fuel j3 ;;
    ps <- joint_positions arm ;;
    check (bool_decide (length ps = 4)).
  Example test_chain0_ok : passes test_chain0 = true.
  Proof. vm_compute. reflexivity. Qed.

  (** tests/test_chain.rs:4-23 and src/urdf.rs:388-411, test_tree, test_tree_from_file *)
  Definition test_tree : prog spec_float unit :=
    check (bool_decide (length (r_links sample_urdf) = 1 + 6 + 6)) ;;;
    tree <- load ;;
    check (bool_decide (dof tree = 12)) ;;;
    ns <- names (c_nodes tree) ;;
    check (bool_decide (length ns = 13 /\ ns !! 0 = Some "root" /\ ns !! 1 = Some "r_shoulder_yaw")) ;;;
    ns <- names (c_movable tree) ;;
    check (bool_decide (length ns = 12 /\ ns !! 0 = Some "r_shoulder_yaw")).
  Example test_tree_ok : passes test_tree = true.
  Proof. vm_compute. reflexivity. Qed.

  (** tests/test_chain.rs:25-45, test_clone *)
  Definition iso_list (t : iso spec_float) : list spec_float :=
    [vx (tr t); vy (tr t); vz (tr t); qi (rt t); qj (rt t); qk (rt t); qw (rt t)].
  Definition iso_eq (a b : option (iso spec_float)) : bool :=
    match a, b with
    | Some a, Some b => eqs (iso_list a) (iso_list b) | None, None => true | _, _ => false
    end.
  Definition test_clone : prog spec_float unit :=
    tree <- load ;;
    tree2 <- chain_clone fuel tree ;;
    check (bool_decide (dof tree = 12 /\ dof tree2 = 12)) ;;;
    let pos := [d 0 10; d 1 10; d 2 10; d 3 10; d 4 10; d 5 10; d 6 10; d 7 10; d 8 10; d 9 10;
                d (-1) 10; d (-2) 10] in
    let pos0 := repeat z0 12 in
    r <- set_joint_positions tree pos ;; ok r ;;;
    p <- joint_positions tree ;; check (eqs p pos) ;;;
    p <- joint_positions tree2 ;; check (eqs p pos0) ;;;
    r <- set_joint_positions tree2 pos ;; ok r ;;;
    p <- joint_positions tree2 ;; check (eqs p pos) ;;;
    w <- Prog.mapM node_world_transform (c_nodes tree) ;;
    w2 <- Prog.mapM node_world_transform (c_nodes tree2) ;;
    check (bool_decide (length w = length w2) && forallb (fun p => iso_eq (fst p) (snd p)) (zip w w2)).
  Example test_clone_ok : passes test_clone = true.
  Proof. vm_compute. reflexivity. Qed.

  (** src/urdf.rs:352-358 *)
  Example doc_link_to_joint_map :
    let m := link_to_joint_map sample_urdf in
    m !! "root_body" = Some ROOT_JOINT_NAME /\ m !! "r_wrist2" = Some "r_wrist_pitch" /\
    m !! "no_exist_link" = None.
  Proof. vm_compute. auto. Qed.

  (** src/ik.rs:394-422 *)
  Definition doc_solve : prog spec_float unit :=
    c <- load ;;
    o <- chain_find c "r_wrist_pitch" ;; w <- some o ;;
    arm <- serial_from_end fuel w ;;
    r <- set_joint_positions arm [d 1 10; d 2 10; z0; d (-5) 10; z0; d (-3) 10] ;; ok r ;;;
    ts <- update_transforms arm ;; t <- some (last ts) ;;
    let t := Iso (V3 (ssub (vx (tr t)) (d 1 10)) (vy (tr t)) (vz (tr t))) (rt t) in
    r <- solve true la solver_default arm t ;; ok r.
  Example doc_solve_ok : passes doc_solve = true.
  Proof. vm_compute. reflexivity. Qed.

  (** src/ik.rs:435-456 (an error is printed only) *)
  Definition doc_constraints : prog spec_float unit :=
    c <- load ;;
    o <- chain_find c "r_wrist_pitch" ;; w <- some o ;;
    arm <- serial_from_end fuel w ;;
    r <- set_joint_positions arm [d 1 10; d 2 10; z0; d (-5) 10; z0; d (-3) 10] ;; ok r ;;;
    ts <- update_transforms arm ;; t <- some (last ts) ;;
    let t := Iso (V3 (ssub (vx (tr t)) (d 1 10)) (vy (tr t)) (vz (tr t))) (rt t) in
    solve_with_constraints true la solver_default arm t (Constraints true true true false true false []) ;;;
    Ret tt.
  Example doc_constraints_ok : passes doc_constraints = true.
  Proof. vm_compute. reflexivity. Qed.

  (** README.md:47-80 *)
  Definition readme : prog spec_float (spec_float * spec_float) :=
    c <- load ;;
    r <- set_joint_positions c [d 2 10; d 2 10; z0; d (-1) 1; z0; z0; d 2 10; d 2 10; z0; d (-1) 1; z0; z0] ;; ok r ;;;
    o <- chain_find c "l_wrist_pitch" ;; w <- some o ;;
    update_transforms c ;;;
    o <- node_world_transform w ;; t <- some o ;;
    let t' := Iso (V3 (vx (tr t)) (vy (tr t)) (sadd (vz (tr t)) (d 1 10))) (rt t) in
    arm <- serial_from_end fuel w ;;
    r <- solve true la solver_default arm t' ;; ok r ;;;
    update_transforms c ;;;
    o <- node_world_transform w ;; t2 <- some o ;;
    check (near (vz (tr t2)) (vz (tr t')) (d 1 1000)) ;;;
    Ret (vz (tr t), vz (tr t2)).
  Example readme_ok : passes readme = true.
  Proof. vm_compute. reflexivity. Qed.

  (** tests/test_ik.rs:118-135, ik_fk7, and 159-177, ik_fk7_with_constraints *)
  Definition arm7 : prog spec_float chain :=
    let X := CJointType (Rotational x_axis) in let Z := CJointType (Rotational z_axis) in
    l0 <- mk [CName "shoulder_pitch"; ROT] ;;
    l1 <- mk [CName "shoulder_roll"; X; TR z0 (d 1 10) z0] ;;
    l2 <- mk [CName "shoulder_yaw"; Z; TR z0 z0 (d (-30) 100)] ;;
    l3 <- mk [CName "elbow_pitch"; ROT; TR z0 z0 (d (-15) 100)] ;;
    l4 <- mk [CName "wrist_yaw"; Z; TR z0 z0 (d (-15) 100)] ;;
    l5 <- mk [CName "wrist_pitch"; ROT; TR z0 z0 (d (-15) 100)] ;;
    l6 <- mk [CName "wrist_roll"; X; TR z0 z0 (d (-10) 100)] ;;
    connect l0 [l1; l2; l3; l4; l5; l6] ;;;
    from_root fuel l0.
  Definition angles7 := [d 8 10; d 2 10; z0; d (-15) 10; z0; d (-3) 10; z0].
  Definition ik_fk7 : prog spec_float unit :=
    arm <- arm7 ;;
    r <- set_joint_positions arm angles7 ;; ok r ;;;
    ts <- update_transforms arm ;; t <- some (last ts) ;;
    r <- solve true la (solver_new (d 1 1000) (d 1 1000) (d 5 10) 100) arm t ;; ok r ;;;
    ps <- joint_positions arm ;;
    check (forallb (fun xy => near (fst xy) (snd xy) (d 1 1000)) (zip angles7 ps)).
  Example ik_fk7_ok : passes ik_fk7 = true.
  Proof. vm_compute. reflexivity. Qed.
  Definition ik_fk7_with_constraints : prog spec_float unit :=
    arm <- arm7 ;;
    r <- set_joint_positions arm angles7 ;; ok r ;;;
    ts <- update_transforms arm ;; t <- some (last ts) ;;
    let c := Constraints true true true false true true ["wrist_roll"] in
    r <- solve_with_constraints true la (solver_new (d 1 1000) (d 1 1000) (d 5 10) 100) arm t c ;; ok r ;;;
    ps <- joint_positions arm ;;
    check (forallb (fun xy => near (fst xy) (snd xy) (d 1 1000)) (zip angles7 ps)
           && near (nth 6 angles7 szero) (nth 6 ps szero) (d 1 8388608)).
  Example ik_fk7_with_constraints_ok : passes ik_fk7_with_constraints = true.
  Proof. vm_compute. reflexivity. Qed.
End F32.
