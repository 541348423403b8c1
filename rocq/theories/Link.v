(** * src/link.rs *)
From Coq Require Import String Bool List.
From Verif Require Import Scalar Geometry.

(** link.rs:24-30 *)
Inductive geometry (T : Type) :=
| GBox (depth width height : T)
| GCylinder (radius length : T)
| GCapsule (radius length : T)
| GSphere (radius : T)
| GMesh (filename : string) (scale : vec3 T).
Arguments GBox {T}. Arguments GCylinder {T}. Arguments GCapsule {T}.
Arguments GSphere {T}. Arguments GMesh {T}.

(** link.rs:33-38, 41-43, 54-58 *)
Record color (T : Type) := Color { c_r : T; c_g : T; c_b : T; c_a : T }.
Arguments Color {T}. Arguments c_r {T}. Arguments c_g {T}. Arguments c_b {T}. Arguments c_a {T}.
Record texture := Texture { tex_filename : string }.
Record material (T : Type) := Material { mat_name : string; mat_color : color T; mat_texture : texture }.
Arguments Material {T}. Arguments mat_name {T}. Arguments mat_color {T}. Arguments mat_texture {T}.

(** link.rs:61-66 *)
Record inertial (T : Type) := Inertial {
  in_origin : iso T; in_mass : T; in_inertia : mat3 T; in_wt : option (iso T) }.
Arguments Inertial {T}. Arguments in_origin {T}. Arguments in_mass {T}.
Arguments in_inertia {T}. Arguments in_wt {T}.

(** link.rs:108-114 *)
Record visual (T : Type) := Visual {
  vi_name : string; vi_origin : iso T; vi_geometry : geometry T;
  vi_material : material T; vi_wt : option (iso T) }.
Arguments Visual {T}. Arguments vi_name {T}. Arguments vi_origin {T}.
Arguments vi_geometry {T}. Arguments vi_material {T}. Arguments vi_wt {T}.

(** link.rs:153-158 *)
Record collision (T : Type) := Collision {
  co_name : string; co_origin : iso T; co_geometry : geometry T; co_wt : option (iso T) }.
Arguments Collision {T}. Arguments co_name {T}. Arguments co_origin {T}.
Arguments co_geometry {T}. Arguments co_wt {T}.

(** link.rs:191-196 *)
Record link (T : Type) := Link {
  l_name : string; l_inertial : inertial T;
  l_visuals : list (visual T); l_collisions : list (collision T) }.
Arguments Link {T}. Arguments l_name {T}. Arguments l_inertial {T}.
Arguments l_visuals {T}. Arguments l_collisions {T}.

Section Link.
  Context {T : Type} `{Sc : Scalar T}.

  (** link.rs:73-80 *)
  Definition inertial_from_mass (m : T) : inertial T := Inertial iso1 m mat3_id None.
  (** link.rs:81-88 *)
  Definition inertial_new (o : iso T) (m : T) (i : mat3 T) : inertial T := Inertial o m i None.
  (** link.rs:89-92 *)
  Definition inertial_set_origin (x : inertial T) (o : iso T) : inertial T :=
    Inertial o (in_mass x) (in_inertia x) None.
  (** link.rs:96-98 *)
  Definition inertial_clear_wt (x : inertial T) : inertial T :=
    Inertial (in_origin x) (in_mass x) (in_inertia x) None.
  (** link.rs:99-101 *)
  Definition inertial_set_wt (x : inertial T) (t : iso T) : inertial T :=
    Inertial (in_origin x) (in_mass x) (in_inertia x) (Some t).
  (** link.rs:120-133 *)
  Definition visual_new (n : string) (o : iso T) (g : geometry T) (m : material T) : visual T :=
    Visual n o g m None.
  (** link.rs:134-137 *)
  Definition visual_set_origin (x : visual T) (o : iso T) : visual T :=
    Visual (vi_name x) o (vi_geometry x) (vi_material x) None.
  (** link.rs:141-143 *)
  Definition visual_clear_wt (x : visual T) : visual T :=
    Visual (vi_name x) (vi_origin x) (vi_geometry x) (vi_material x) None.
  (** link.rs:144-146 *)
  Definition visual_set_wt (x : visual T) (t : iso T) : visual T :=
    Visual (vi_name x) (vi_origin x) (vi_geometry x) (vi_material x) (Some t).
  (** link.rs:164-171 *)
  Definition collision_new (n : string) (o : iso T) (g : geometry T) : collision T :=
    Collision n o g None.
  (** link.rs:172-175 *)
  Definition collision_set_origin (x : collision T) (o : iso T) : collision T :=
    Collision (co_name x) o (co_geometry x) None.
  (** link.rs:179-181 *)
  Definition collision_clear_wt (x : collision T) : collision T :=
    Collision (co_name x) (co_origin x) (co_geometry x) None.
  (** link.rs:182-184 *)
  Definition collision_set_wt (x : collision T) (t : iso T) : collision T :=
    Collision (co_name x) (co_origin x) (co_geometry x) (Some t).
  (** link.rs:198-210 and LinkBuilder::new link.rs:227-234 *)
  Definition link_default : link T := Link "" (inertial_new iso1 szero mat3_id) nil nil.
  (** LinkBuilder steps, link.rs:235-258 (finalize copies the four fields) *)
  Definition link_with_name (l : link T) (n : string) : link T :=
    Link n (l_inertial l) (l_visuals l) (l_collisions l).
  Definition link_with_inertial (l : link T) (i : inertial T) : link T :=
    Link (l_name l) i (l_visuals l) (l_collisions l).
  Definition link_add_visual (l : link T) (v : visual T) : link T :=
    Link (l_name l) (l_inertial l) (l_visuals l ++ v :: nil) (l_collisions l).
  Definition link_add_collision (l : link T) (c : collision T) : link T :=
    Link (l_name l) (l_inertial l) (l_visuals l) (l_collisions l ++ c :: nil).
End Link.
