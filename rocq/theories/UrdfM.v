(** * src/urdf.rs

    The input is the parsed [urdf_rs::Robot]; XML parsing belongs to the urdf-rs
    crate.  Numbers of the description are f64 ([S]) and are converted to the
    chain's scalar type [T] by [conv] ([na::convert]). *)
From Coq Require Import String.
From stdpp Require Import gmap strings.
From Verif Require Import Scalar Geometry Joint Link Prog NodeM ChainM.

Section Types.
  Context (S : Type).
  (** the parts of urdf_rs used by urdf.rs *)
  Inductive ugeometry :=
  | UBox (size : vec3 S) | UCylinder (radius length : S) | UCapsule (radius length : S)
  | USphere (radius : S) | UMesh (filename : string) (scale : option (vec3 S)).
  Record upose := UPose { u_xyz : vec3 S; u_rpy : vec3 S }.
  Record umaterial := UMaterial {
    um_name : string; um_color : option (S * S * S * S); um_texture : option string }.
  Record uinertial := UInertial {
    ui_origin : upose; ui_mass : S;
    ui_ixx : S; ui_ixy : S; ui_ixz : S; ui_iyy : S; ui_iyz : S; ui_izz : S }.
  Record uvisual := UVisual {
    uv_name : option string; uv_origin : upose; uv_geometry : ugeometry; uv_material : option umaterial }.
  Record ucollision := UCollision {
    uc_name : option string; uc_origin : upose; uc_geometry : ugeometry }.
  Record ulink := ULink {
    ul_name : string; ul_inertial : uinertial; ul_visual : list uvisual; ul_collision : list ucollision }.
  Inductive ujoint_type := URevolute | UContinuous | UPrismatic | UFixed | UFloating | UPlanar | USpherical.
  Record umimic := UMimic { um_joint : string; um_multiplier : option S; um_offset : option S }.
  Record ujoint := UJoint {
    uj_name : string; uj_type : ujoint_type; uj_origin : upose;
    uj_parent : string; uj_child : string; uj_axis : vec3 S;
    uj_lower : S; uj_upper : S; uj_mimic : option umimic }.
  Record robot := Robot { r_links : list ulink; r_joints : list ujoint }.
End Types.
Arguments UBox {S}. Arguments UCylinder {S}. Arguments UCapsule {S}. Arguments USphere {S}.
Arguments UMesh {S}.
Arguments UPose {S}. Arguments u_xyz {S}. Arguments u_rpy {S}.
Arguments UMaterial {S}. Arguments um_name {S}. Arguments um_color {S}. Arguments um_texture {S}.
Arguments UInertial {S}. Arguments ui_origin {S}. Arguments ui_mass {S}.
Arguments ui_ixx {S}. Arguments ui_ixy {S}. Arguments ui_ixz {S}. Arguments ui_iyy {S}.
Arguments ui_iyz {S}. Arguments ui_izz {S}.
Arguments UVisual {S}. Arguments uv_name {S}. Arguments uv_origin {S}. Arguments uv_geometry {S}.
Arguments uv_material {S}.
Arguments UCollision {S}. Arguments uc_name {S}. Arguments uc_origin {S}. Arguments uc_geometry {S}.
Arguments ULink {S}. Arguments ul_name {S}. Arguments ul_inertial {S}. Arguments ul_visual {S}.
Arguments ul_collision {S}.
Arguments UMimic {S}. Arguments um_joint {S}. Arguments um_multiplier {S}. Arguments um_offset {S}.
Arguments UJoint {S}. Arguments uj_name {S}. Arguments uj_type {S}. Arguments uj_origin {S}.
Arguments uj_parent {S}. Arguments uj_child {S}. Arguments uj_axis {S}. Arguments uj_lower {S}.
Arguments uj_upper {S}. Arguments uj_mimic {S}.
Arguments Robot {S}. Arguments r_links {S}. Arguments r_joints {S}.

(** urdf.rs:30 *)
Definition ROOT_JOINT_NAME : string := "root".

Section UrdfM.
  Context {S T : Type} `{SS : Scalar S} `{ST : Scalar T} (conv : S -> T).

  Definition conv_v3 (v : vec3 S) : vec3 T := V3 (conv (vx v)) (conv (vy v)) (conv (vz v)).
  (** urdf.rs:211-218: the quaternion is computed in f64, then converted *)
  Definition quaternion_from (rpy : vec3 S) : quat T :=
    let q := qeuler (vx rpy) (vy rpy) (vz rpy) in
    Qt (conv (qi q)) (conv (qj q)) (conv (qk q)) (conv (qw q)).
  (** urdf.rs:221-226 *)
  Definition translation_from (xyz : vec3 S) : vec3 T := conv_v3 xyz.
  (** urdf.rs:76-81 *)
  Definition isometry_from (p : upose S) : iso T :=
    Iso (translation_from (u_xyz p)) (quaternion_from (u_rpy p)).
  (** urdf.rs:199-208 *)
  Definition axis_from (a : vec3 S) : vec3 T := vnormalize (conv_v3 a).

  (** urdf.rs:32-74; a missing colour or texture is the Default of urdf_rs (all
      zero, empty name) *)
  Definition color_from (c : S * S * S * S) : color T :=
    let '(r, g, b, a) := c in Color (conv r) (conv g) (conv b) (conv a).
  Definition material_from (m : umaterial S) : material T :=
    Material (um_name m)
      (color_from (default (szero, szero, szero, szero) (um_color m)))
      (Texture (default ""%string (um_texture m))).
  Definition umaterial_default : umaterial S := UMaterial "" None None.
  (** urdf.rs:134-169, 385-386 *)
  Definition geometry_from (g : ugeometry S) : geometry T :=
    match g with
    | UBox s => GBox (conv (vx s)) (conv (vy s)) (conv (vz s))
    | UCylinder r l => GCylinder (conv r) (conv l)
    | UCapsule r l => GCapsule (conv r) (conv l)
    | USphere r => GSphere (conv r)
    | UMesh f s => GMesh f (conv_v3 (default (V3 sone sone sone) s))
    end.
  (** urdf.rs:83-105 *)
  Definition inertial_from (i : uinertial S) : inertial T :=
    inertial_new (isometry_from (ui_origin i)) (conv (ui_mass i))
      (M3 (conv (ui_ixx i)) (conv (ui_ixy i)) (conv (ui_ixz i))
          (conv (ui_ixy i)) (conv (ui_iyy i)) (conv (ui_iyz i))
          (conv (ui_ixz i)) (conv (ui_iyz i)) (conv (ui_izz i))).
  (** urdf.rs:107-132 *)
  Definition visual_from (v : uvisual S) : visual T :=
    visual_new (default ""%string (uv_name v)) (isometry_from (uv_origin v))
      (geometry_from (uv_geometry v)) (material_from (default umaterial_default (uv_material v))).
  Definition collision_from (c : ucollision S) : collision T :=
    collision_new (default ""%string (uc_name c)) (isometry_from (uc_origin c))
      (geometry_from (uc_geometry c)).
  (** urdf.rs:171-183 *)
  Definition link_from (l : ulink S) : link T :=
    Link (ul_name l) (inertial_from (ul_inertial l))
      (map visual_from (ul_visual l)) (map collision_from (ul_collision l)).
  (** urdf.rs:185-196 *)
  Definition mimic_from (m : umimic S) : mimic T :=
    Mimic (conv (default sone (um_multiplier m))) (conv (default szero (um_offset m))).

  (** urdf.rs:228-259; [None] is the failed assertion of Range::new *)
  Definition joint_limits_from (j : ujoint S) : option (option (range T)) :=
    if seqb (ssub (uj_upper j) (uj_lower j)) szero then Some None
    else Some <$> range_new (conv (uj_lower j)) (conv (uj_upper j)).
  Definition joint_type_from (j : ujoint S) : joint_type T :=
    match uj_type j with
    | URevolute | UContinuous => Rotational (axis_from (uj_axis j))
    | UPrismatic => Linear (axis_from (uj_axis j))
    | _ => Fixed
    end.
  Definition joint_from (j : ujoint S) : option (joint T) :=
    limits ← joint_limits_from j;
    Some (builder_finalize (uj_name j) (joint_type_from j) limits
            (isometry_from (uj_origin j))).

  (** ** Chain::from(&Robot), urdf.rs:265-320.  The log lines (286, 290, 296,
      303, 316) are not modelled.  HashMaps are finite maps. *)
  Record maps := Maps {
    ref_nodes : list nat;
    child_link_to_node : gmap string nat;
    joint_name_to_node : gmap string nat;
    parent_link_to_nodes : gmap string (list nat);
  }.
  (** urdf.rs:271-284 *)
  Fixpoint build_nodes (js : list (ujoint S)) (m : maps) : prog T maps :=
    match js with
    | [] => Ret m
    | j :: js =>
        jt <- expect (joint_from j) "assertion failed: min <= max" ;;
        nd <- node_new jt ;;
        build_nodes js (Maps
          (ref_nodes m ++ [nd])
          (<[uj_child j := nd]> (child_link_to_node m))
          (<[uj_name j := nd]> (joint_name_to_node m))
          (<[uj_parent j := default [] (parent_link_to_nodes m !! uj_parent j) ++ [nd]]>
             (parent_link_to_nodes m)))
    end.
  (** urdf.rs:285-299 *)
  Definition attach_link (m : maps) (root : nat) (l : ulink S) : prog T unit :=
    match child_link_to_node m !! ul_name l with
    | Some pn =>
        match parent_link_to_nodes m !! ul_name l with
        | Some cs => forM_ (fun c => node_set_parent c pn) cs
        | None => Ret tt
        end ;;;
        node_set_link pn (Some (link_from l))
    | None => node_set_link root (Some (link_from l))
    end.
  (** urdf.rs:301-310 *)
  Definition add_mimic (m : maps) (j : ujoint S) : prog T unit :=
    match uj_mimic j with
    | None => Ret tt
    | Some mi =>
        child <- expect (joint_name_to_node m !! uj_name j) "no entry found for key" ;;
        parent <- expect (joint_name_to_node m !! um_joint mi) "not found, mimic not found" ;;
        node_set_mimic_parent child parent (mimic_from mi)
    end.
  (** urdf.rs:312-318: the filter is evaluated lazily, one node at a time *)
  Definition adopt (root : nat) (a : nat) : prog T unit :=
    op <- node_parent a ;;
    match op with
    | None => node_set_parent a root
    | Some _ => Ret tt
    end.
  Definition root_joint : joint T := builder_finalize ROOT_JOINT_NAME Fixed None iso1.
  Definition chain_from_robot (fuel : nat) (r : robot S) : prog T chain :=
    root <- node_new root_joint ;;
    m <- build_nodes (r_joints r) (Maps [] ∅ ∅ ∅) ;;
    forM_ (attach_link m root) (r_links r) ;;;
    forM_ (add_mimic m) (r_joints r) ;;;
    forM_ (adopt root) (ref_nodes m) ;;;
    from_root fuel root.

  (** urdf.rs:359-370 *)
  Definition link_to_joint_map (r : robot S) : gmap string string :=
    foldl (fun m l => match m !! ul_name l with
                      | None => <[ul_name l := ROOT_JOINT_NAME]> m
                      | Some _ => m end)
      (foldl (fun m j => <[uj_child j := uj_name j]> m) ∅ (r_joints r)) (r_links r).
  (** urdf.rs:372-383 *)
  Definition joint_to_link_map (r : robot S) : gmap string string :=
    foldl (fun m l => match m !! ul_name l with
                      | None => <[ROOT_JOINT_NAME := ul_name l]> m
                      | Some _ => m end)
      (foldl (fun m j => <[uj_name j := uj_child j]> m) ∅ (r_joints r)) (r_links r).
End UrdfM.
