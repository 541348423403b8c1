(** * urdf/sample.urdf, as [urdf_rs::Robot]

    The test file of the crate written out as the value the XML parser gives
    (urdf/sample.urdf:1-251; attributes left out have urdf-rs' defaults, the
    effort and velocity limits are not used by the crate).  [n_ p q] is the f64
    nearest to p/q. *)
From Coq Require Import String ZArith List Floats.SpecFloat.
From Verif Require Import Scalar ScalarF Geometry Joint UrdfM.
Import ListNotations.
Open Scope string_scope.

Definition n_ (p : Z) (q : positive) : spec_float :=
  SFdiv 53 1024 (SFofZ 53 1024 p) (SFofZ 53 1024 (Zpos q)).
Definition u_inertial0 : uinertial spec_float :=
  UInertial (UPose (V3 (n_ 0 1) (n_ 0 1) (n_ 0 1)) (V3 (n_ 0 1) (n_ 0 1) (n_ 0 1))) (n_ 0 1) (n_ 0 1) (n_ 0 1) (n_ 0 1) (n_ 0 1) (n_ 0 1) (n_ 0 1).
Definition sample_links : list (ulink spec_float) := [
  ULink "root_body" (UInertial (UPose (V3 (n_ (0) 1) (n_ (0) 1) (n_ (1) 2)) (V3 (n_ (0) 1) (n_ (0) 1) (n_ (0) 1))) (n_ (1) 1) (n_ (100) 1) (n_ (0) 1) (n_ (0) 1) (n_ (100) 1) (n_ (0) 1) (n_ (100) 1))
    [UVisual None (UPose (V3 (n_ (0) 1) (n_ (0) 1) (n_ (0) 1)) (V3 (n_ (0) 1) (n_ (0) 1) (n_ (0) 1))) (UBox (V3 (n_ (1) 5) (n_ (1) 5) (n_ (2) 5))) (Some (UMaterial "Cyan" (Some ((n_ (1) 1), (n_ (1) 1), (n_ (1) 1), (n_ (1) 1))) None))]
    [UCollision None (UPose (V3 (n_ (0) 1) (n_ (0) 1) (n_ (0) 1)) (V3 (n_ (0) 1) (n_ (0) 1) (n_ (0) 1))) (UCylinder (n_ (1) 1) (n_ (1) 2))];
  ULink "l_shoulder1" u_inertial0
    [UVisual None (UPose (V3 (n_ (0) 1) (n_ (0) 1) (n_ (0) 1)) (V3 (n_ (0) 1) (n_ (0) 1) (n_ (0) 1))) (UBox (V3 (n_ (1) 10) (n_ (1) 10) (n_ (1) 10))) (Some (UMaterial "Cyan" (Some ((n_ (0) 1), (n_ (1) 1), (n_ (1) 1), (n_ (1) 1))) None))]
    [];
  ULink "l_shoulder2" u_inertial0
    [UVisual None (UPose (V3 (n_ (0) 1) (n_ (0) 1) (n_ (0) 1)) (V3 (n_ (0) 1) (n_ (0) 1) (n_ (0) 1))) (UBox (V3 (n_ (1) 10) (n_ (1) 10) (n_ (1) 10))) (Some (UMaterial "Cyan" (Some ((n_ (1) 1), (n_ (1) 1), (n_ (0) 1), (n_ (1) 1))) None))]
    [];
  ULink "l_shoulder3" u_inertial0
    [UVisual None (UPose (V3 (n_ (0) 1) (n_ (0) 1) (n_ (0) 1)) (V3 (n_ (0) 1) (n_ (0) 1) (n_ (0) 1))) (UBox (V3 (n_ (1) 10) (n_ (1) 10) (n_ (1) 5))) (Some (UMaterial "Cyan" (Some ((n_ (1) 2), (n_ (1) 2), (n_ (1) 5), (n_ (1) 1))) None))]
    [];
  ULink "l_elbow1" u_inertial0
    [UVisual None (UPose (V3 (n_ (0) 1) (n_ (0) 1) (n_ (0) 1)) (V3 (n_ (0) 1) (n_ (0) 1) (n_ (0) 1))) (UBox (V3 (n_ (1) 10) (n_ (1) 10) (n_ (1) 5))) (Some (UMaterial "Cyan" (Some ((n_ (4) 5), (n_ (1) 5), (n_ (1) 5), (n_ (1) 1))) None))]
    [];
  ULink "l_wrist1" u_inertial0
    [UVisual None (UPose (V3 (n_ (0) 1) (n_ (0) 1) (n_ (0) 1)) (V3 (n_ (0) 1) (n_ (0) 1) (n_ (0) 1))) (UBox (V3 (n_ (1) 10) (n_ (3) 20) (n_ (1) 10))) (Some (UMaterial "Cyan" (Some ((n_ (1) 1), (n_ (0) 1), (n_ (0) 1), (n_ (1) 1))) None))]
    [];
  ULink "l_wrist2" u_inertial0
    [UVisual None (UPose (V3 (n_ (0) 1) (n_ (0) 1) (n_ (0) 1)) (V3 (n_ (0) 1) (n_ (0) 1) (n_ (0) 1))) (UBox (V3 (n_ (1) 20) (n_ (2) 25) (n_ (3) 20))) (Some (UMaterial "Cyan" (Some ((n_ (0) 1), (n_ (0) 1), (n_ (1) 1), (n_ (1) 1))) None))]
    [];
  ULink "r_shoulder1" u_inertial0
    [UVisual None (UPose (V3 (n_ (0) 1) (n_ (0) 1) (n_ (0) 1)) (V3 (n_ (0) 1) (n_ (0) 1) (n_ (0) 1))) (UBox (V3 (n_ (1) 10) (n_ (1) 10) (n_ (1) 10))) (Some (UMaterial "Cyan" (Some ((n_ (0) 1), (n_ (1) 1), (n_ (1) 1), (n_ (1) 1))) None))]
    [];
  ULink "r_shoulder2" u_inertial0
    [UVisual None (UPose (V3 (n_ (0) 1) (n_ (0) 1) (n_ (0) 1)) (V3 (n_ (0) 1) (n_ (0) 1) (n_ (0) 1))) (UBox (V3 (n_ (1) 10) (n_ (1) 10) (n_ (1) 10))) (Some (UMaterial "Cyan" (Some ((n_ (1) 1), (n_ (1) 1), (n_ (0) 1), (n_ (1) 1))) None))]
    [];
  ULink "r_shoulder3" u_inertial0
    [UVisual None (UPose (V3 (n_ (0) 1) (n_ (0) 1) (n_ (0) 1)) (V3 (n_ (0) 1) (n_ (0) 1) (n_ (0) 1))) (UBox (V3 (n_ (1) 10) (n_ (1) 10) (n_ (1) 5))) (Some (UMaterial "Cyan" (Some ((n_ (1) 2), (n_ (1) 2), (n_ (1) 5), (n_ (1) 1))) None))]
    [];
  ULink "r_elbow1" u_inertial0
    [UVisual None (UPose (V3 (n_ (0) 1) (n_ (0) 1) (n_ (0) 1)) (V3 (n_ (0) 1) (n_ (0) 1) (n_ (0) 1))) (UBox (V3 (n_ (1) 10) (n_ (1) 10) (n_ (1) 5))) (Some (UMaterial "Cyan" (Some ((n_ (4) 5), (n_ (1) 5), (n_ (1) 5), (n_ (1) 1))) None))]
    [];
  ULink "r_wrist1" u_inertial0
    [UVisual None (UPose (V3 (n_ (0) 1) (n_ (0) 1) (n_ (0) 1)) (V3 (n_ (0) 1) (n_ (0) 1) (n_ (0) 1))) (UBox (V3 (n_ (1) 10) (n_ (3) 20) (n_ (1) 10))) (Some (UMaterial "Cyan" (Some ((n_ (1) 1), (n_ (0) 1), (n_ (0) 1), (n_ (1) 1))) None))]
    [];
  ULink "r_wrist2" u_inertial0
    [UVisual None (UPose (V3 (n_ (0) 1) (n_ (0) 1) (n_ (0) 1)) (V3 (n_ (0) 1) (n_ (0) 1) (n_ (0) 1))) (UBox (V3 (n_ (1) 20) (n_ (2) 25) (n_ (3) 20))) (Some (UMaterial "Cyan" (Some ((n_ (0) 1), (n_ (0) 1), (n_ (1) 1), (n_ (1) 1))) None))]
    []
].
Definition sample_joints : list (ujoint spec_float) := [
  UJoint "l_shoulder_yaw" URevolute (UPose (V3 (n_ (0) 1) (n_ (1) 5) (n_ (1) 5)) (V3 (n_ (0) 1) (n_ (0) 1) (n_ (0) 1)))
    "root" "l_shoulder1" (V3 (n_ (0) 1) (n_ (0) 1) (n_ (1) 1)) (n_ (-3) 1) (n_ (3) 1) None;
  UJoint "l_shoulder_pitch" URevolute (UPose (V3 (n_ (0) 1) (n_ (1) 10) (n_ (0) 1)) (V3 (n_ (0) 1) (n_ (0) 1) (n_ (0) 1)))
    "l_shoulder1" "l_shoulder2" (V3 (n_ (0) 1) (n_ (1) 1) (n_ (0) 1)) (n_ (-3) 1) (n_ (3) 1) None;
  UJoint "l_shoulder_roll" URevolute (UPose (V3 (n_ (0) 1) (n_ (1) 10) (n_ (0) 1)) (V3 (n_ (0) 1) (n_ (0) 1) (n_ (0) 1)))
    "l_shoulder2" "l_shoulder3" (V3 (n_ (1) 1) (n_ (0) 1) (n_ (0) 1)) (n_ (-2) 1) (n_ (3) 1) None;
  UJoint "l_elbow_pitch" URevolute (UPose (V3 (n_ (0) 1) (n_ (0) 1) (n_ (-1) 5)) (V3 (n_ (0) 1) (n_ (0) 1) (n_ (0) 1)))
    "l_shoulder3" "l_elbow1" (V3 (n_ (0) 1) (n_ (1) 1) (n_ (0) 1)) (n_ (-2) 1) (n_ (3) 1) None;
  UJoint "l_wrist_yaw" URevolute (UPose (V3 (n_ (0) 1) (n_ (0) 1) (n_ (-1) 5)) (V3 (n_ (0) 1) (n_ (0) 1) (n_ (0) 1)))
    "l_elbow1" "l_wrist1" (V3 (n_ (0) 1) (n_ (0) 1) (n_ (1) 1)) (n_ (-2) 1) (n_ (3) 1) None;
  UJoint "l_wrist_pitch" URevolute (UPose (V3 (n_ (0) 1) (n_ (0) 1) (n_ (-1) 5)) (V3 (n_ (0) 1) (n_ (0) 1) (n_ (0) 1)))
    "l_wrist1" "l_wrist2" (V3 (n_ (0) 1) (n_ (1) 1) (n_ (0) 1)) (n_ (-2) 1) (n_ (3) 1) None;
  UJoint "r_shoulder_yaw" URevolute (UPose (V3 (n_ (0) 1) (n_ (-1) 5) (n_ (1) 5)) (V3 (n_ (0) 1) (n_ (0) 1) (n_ (0) 1)))
    "root" "r_shoulder1" (V3 (n_ (0) 1) (n_ (0) 1) (n_ (1) 1)) (n_ (-3) 1) (n_ (3) 1) None;
  UJoint "r_shoulder_pitch" URevolute (UPose (V3 (n_ (0) 1) (n_ (-1) 10) (n_ (0) 1)) (V3 (n_ (0) 1) (n_ (0) 1) (n_ (0) 1)))
    "r_shoulder1" "r_shoulder2" (V3 (n_ (0) 1) (n_ (1) 1) (n_ (0) 1)) (n_ (-3) 1) (n_ (3) 1) None;
  UJoint "r_shoulder_roll" URevolute (UPose (V3 (n_ (0) 1) (n_ (-1) 10) (n_ (0) 1)) (V3 (n_ (0) 1) (n_ (0) 1) (n_ (0) 1)))
    "r_shoulder2" "r_shoulder3" (V3 (n_ (1) 1) (n_ (0) 1) (n_ (0) 1)) (n_ (-2) 1) (n_ (3) 1) None;
  UJoint "r_elbow_pitch" URevolute (UPose (V3 (n_ (0) 1) (n_ (0) 1) (n_ (-1) 5)) (V3 (n_ (0) 1) (n_ (0) 1) (n_ (0) 1)))
    "r_shoulder3" "r_elbow1" (V3 (n_ (0) 1) (n_ (1) 1) (n_ (0) 1)) (n_ (-2) 1) (n_ (3) 1) None;
  UJoint "r_wrist_yaw" URevolute (UPose (V3 (n_ (0) 1) (n_ (0) 1) (n_ (-1) 5)) (V3 (n_ (0) 1) (n_ (0) 1) (n_ (0) 1)))
    "r_elbow1" "r_wrist1" (V3 (n_ (0) 1) (n_ (0) 1) (n_ (1) 1)) (n_ (-2) 1) (n_ (1) 1) None;
  UJoint "r_wrist_pitch" URevolute (UPose (V3 (n_ (0) 1) (n_ (0) 1) (n_ (-1) 5)) (V3 (n_ (0) 1) (n_ (0) 1) (n_ (0) 1)))
    "r_wrist1" "r_wrist2" (V3 (n_ (0) 1) (n_ (1) 1) (n_ (0) 1)) (n_ (-2) 1) (n_ (3) 1) None
].
Definition sample_urdf : robot spec_float := Robot sample_links sample_joints.
