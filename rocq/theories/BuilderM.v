(** * The builders: NodeBuilder (src/node.rs:486-569) and LinkBuilder
    (src/link.rs:213-268).

    Every setter takes the builder by value and returns it changed, so a use of a
    builder is a list of setter calls followed by [finalize] or [into_node]. *)
From Coq Require Import String List.
From Verif Require Import Scalar Geometry Joint Link Prog NodeM.
Import ListNotations.

(** node.rs:500-506 *)
Record node_builder (T : Type) := NodeBuilder {
  nb_name : string;
  nb_joint_type : joint_type T;
  nb_limits : option (range T);
  nb_origin : iso T;
}.
Arguments NodeBuilder {T}. Arguments nb_name {T}. Arguments nb_joint_type {T}.
Arguments nb_limits {T}. Arguments nb_origin {T}.
(** link.rs:213-222 *)
Record link_builder (T : Type) := LinkBuilder {
  lb_name : string;
  lb_inertial : inertial T;
  lb_visuals : list (visual T);
  lb_collisions : list (collision T);
}.
Arguments LinkBuilder {T}. Arguments lb_name {T}. Arguments lb_inertial {T}.
Arguments lb_visuals {T}. Arguments lb_collisions {T}.

Section Builders.
  Context {T : Type} `{Sc : Scalar T}.

  (** NodeBuilder::new and default, node.rs:508-528 *)
  Definition nb_new : node_builder T := NodeBuilder "" Fixed None iso1.
  (** node.rs:529-558 *)
  Definition nb_set_name (b : node_builder T) (n : string) :=
    NodeBuilder n (nb_joint_type b) (nb_limits b) (nb_origin b).
  Definition nb_set_joint_type (b : node_builder T) (t : joint_type T) :=
    NodeBuilder (nb_name b) t (nb_limits b) (nb_origin b).
  Definition nb_set_limits (b : node_builder T) (l : option (range T)) :=
    NodeBuilder (nb_name b) (nb_joint_type b) l (nb_origin b).
  Definition nb_set_origin (b : node_builder T) (o : iso T) :=
    NodeBuilder (nb_name b) (nb_joint_type b) (nb_limits b) o.
  (** [self.origin.translation = translation], node.rs:550-553 *)
  Definition nb_set_translation (b : node_builder T) (v : vec3 T) :=
    NodeBuilder (nb_name b) (nb_joint_type b) (nb_limits b) (Iso v (rt (nb_origin b))).
  (** [self.origin.rotation = rotation], node.rs:555-558 *)
  Definition nb_set_rotation (b : node_builder T) (q : quat T) :=
    NodeBuilder (nb_name b) (nb_joint_type b) (nb_limits b) (Iso (tr (nb_origin b)) q).
  (** node.rs:560-565 *)
  Definition nb_finalize (b : node_builder T) : joint T :=
    builder_finalize (nb_name b) (nb_joint_type b) (nb_limits b) (nb_origin b).
  (** node.rs:567-569, [From<Joint>] node.rs:364-371 *)
  Definition nb_into_node (b : node_builder T) : prog T nat := node_new (nb_finalize b).

  (** one setter call, and a use of the builder *)
  Inductive nb_call :=
  | CName (n : string) | CJointType (t : joint_type T) | CLimits (l : option (range T))
  | COrigin (o : iso T) | CTranslation (v : vec3 T) | CRotation (q : quat T).
  Definition nb_step (b : node_builder T) (c : nb_call) : node_builder T :=
    match c with
    | CName n => nb_set_name b n
    | CJointType t => nb_set_joint_type b t
    | CLimits l => nb_set_limits b l
    | COrigin o => nb_set_origin b o
    | CTranslation v => nb_set_translation b v
    | CRotation q => nb_set_rotation b q
    end.
  Definition nb_calls (cs : list nb_call) : node_builder T := fold_left nb_step cs nb_new.

  (** LinkBuilder::new and default, link.rs:227-234, 260-268 *)
  Definition lb_new : link_builder T := LinkBuilder "" (inertial_new iso1 szero mat3_id) [] [].
  (** link.rs:235-250 *)
  Definition lb_set_name (b : link_builder T) (n : string) :=
    LinkBuilder n (lb_inertial b) (lb_visuals b) (lb_collisions b).
  Definition lb_set_inertial (b : link_builder T) (i : inertial T) :=
    LinkBuilder (lb_name b) i (lb_visuals b) (lb_collisions b).
  Definition lb_add_visual (b : link_builder T) (v : visual T) :=
    LinkBuilder (lb_name b) (lb_inertial b) (lb_visuals b ++ [v]) (lb_collisions b).
  Definition lb_add_collision (b : link_builder T) (c : collision T) :=
    LinkBuilder (lb_name b) (lb_inertial b) (lb_visuals b) (lb_collisions b ++ [c]).
  (** link.rs:251-258 *)
  Definition lb_finalize (b : link_builder T) : link T :=
    Link (lb_name b) (lb_inertial b) (lb_visuals b) (lb_collisions b).

  Inductive lb_call :=
  | CLinkName (n : string) | CInertial (i : inertial T)
  | CVisual (v : visual T) | CCollision (c : collision T).
  Definition lb_step (b : link_builder T) (c : lb_call) : link_builder T :=
    match c with
    | CLinkName n => lb_set_name b n
    | CInertial i => lb_set_inertial b i
    | CVisual v => lb_add_visual b v
    | CCollision c => lb_add_collision b c
    end.
  Definition lb_calls (cs : list lb_call) : link_builder T := fold_left lb_step cs lb_new.
End Builders.
Arguments nb_call : clear implicits.
Arguments lb_call : clear implicits.
