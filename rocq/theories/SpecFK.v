(** * Specification vocabulary for forward kinematics *)
From stdpp Require Import gmap.
From Verif Require Import Scalar Geometry Joint Link Prog NodeM ChainM SpecNode SpecGraph SpecChain.

Section SpecFK.
  Context {T : Type} `{Sc : Scalar T}.
  Implicit Types (h : gmap nat (node T)).

  (** the local transform of node [a] *)
  Definition local_at h (a : nat) (t : iso T) : Prop :=
    exists n, h !! a = Some n /\ t = local_transform (n_joint n).
  (** [base * t1 * t2 * ...], associated to the left *)
  Definition product (base : iso T) (ts : list (iso T)) : iso T := foldl iso_mul base ts.

  (** the world transform of [a]: identity * local(root) * ... * local(a) along
      the live parent links.  No cache is mentioned. *)
  Definition world h (a : nat) (w : iso T) : Prop :=
    exists l ts, path_up h a l /\ Forall2 (local_at h) (rev l) ts /\ w = product iso1 ts.

  (** [n'] is [n] with [w] in the transform cache of its joint *)
  Definition with_wt (n : node T) (w : iso T) (n' : node T) : Prop :=
    j_wt_cache (n_joint n') = Some w /\
    j_name (n_joint n') = j_name (n_joint n) /\ j_type (n_joint n') = j_type (n_joint n) /\
    j_position (n_joint n') = j_position (n_joint n) /\ j_velocity (n_joint n') = j_velocity (n_joint n) /\
    j_limits (n_joint n') = j_limits (n_joint n) /\ j_origin (n_joint n') = j_origin (n_joint n) /\
    j_wv_cache (n_joint n') = j_wv_cache (n_joint n) /\
    n_parent n' = n_parent n /\ n_children n' = n_children n /\
    n_mimic_parent n' = n_mimic_parent n /\ n_mimic_children n' = n_mimic_children n /\
    n_mimic n' = n_mimic n /\ n_link n' = n_link n.
  (** in [h'], node [a] of [h] has [w] cached and is otherwise unchanged *)
  Definition cached h h' (a : nat) (w : iso T) : Prop :=
    exists n n', h !! a = Some n /\ h' !! a = Some n' /\ with_wt n w n'.

  (** what [world_transform()] returns *)
  Definition wt_of h (a : nat) (o : option (iso T)) : Prop :=
    exists n, h !! a = Some n /\ o = j_wt_cache (n_joint n).
  (** the cached world transform of [a] is present and right *)
  Definition fresh h (a : nat) : Prop := exists w, wt_of h a (Some w) /\ world h a w.

  (** consecutive nodes are parent and child *)
  Definition serial h (l : list nat) : Prop :=
    forall i a b, l !! i = Some a -> l !! (S i) = Some b -> live_parent h b a.

  (** ** Links *)
  Definition inertial_placed (pw : iso T) (i i' : inertial T) : Prop :=
    in_wt i' = Some (iso_mul pw (in_origin i)) /\
    in_origin i' = in_origin i /\ in_mass i' = in_mass i /\ in_inertia i' = in_inertia i.
  Definition visual_placed (pw : iso T) (v v' : visual T) : Prop :=
    vi_wt v' = Some (iso_mul pw (vi_origin v)) /\ vi_name v' = vi_name v /\
    vi_origin v' = vi_origin v /\ vi_geometry v' = vi_geometry v /\ vi_material v' = vi_material v.
  Definition collision_placed (pw : iso T) (c c' : collision T) : Prop :=
    co_wt c' = Some (iso_mul pw (co_origin c)) /\ co_name c' = co_name c /\
    co_origin c' = co_origin c /\ co_geometry c' = co_geometry c.
  (** [l'] is [l] with every world transform set relative to the frame [pw] *)
  Definition link_placed (pw : iso T) (l l' : link T) : Prop :=
    l_name l' = l_name l /\ inertial_placed pw (l_inertial l) (l_inertial l') /\
    Forall2 (visual_placed pw) (l_visuals l) (l_visuals l') /\
    Forall2 (collision_placed pw) (l_collisions l) (l_collisions l').

  (** the frame in which a node's link is placed: the parent's world transform *)
  Definition parent_frame h (a : nat) (pw : iso T) : Prop :=
    (no_parent h a /\ pw = iso1) \/ (exists p, live_parent h a p /\ world h p pw).
  (** [n'] is [n] with its joint's cache set to [w] and its link placed in [pw] *)
  Definition node_placed (n : node T) (w pw : iso T) (n' : node T) : Prop :=
    with_wt n w (set_n_link n' (n_link n)) /\
    match n_link n, n_link n' with
    | Some l, Some l' => link_placed pw l l'
    | None, None => True
    | _, _ => False
    end.

  (** ** Histories between two updates (C20) *)
  (** one call that may happen between updates, none of whose targets is [a] or
      an ancestor of [a] *)
  Definition off_path h (a b : nat) : Prop := ~ rtc (live_parent h) a b.
  Inductive calm_step (a : nat) : sh T -> sh T -> Prop :=
  | calm_set_position h h' nx nx' b n p r :
      mimic_wf h -> h !! b = Some n -> off_path h a b -> (forall c, c ∈ n_mimic_children n -> off_path h a c) ->
      run 0 (node_set_joint_position b p) (quiet h nx) = Done r (quiet h' nx') ->
      calm_step a (quiet h nx) (quiet h' nx')
  | calm_set_clamped h h' nx nx' b p :
      off_path h a b ->
      run 0 (node_set_joint_position_clamped b p) (quiet h nx) = Done tt (quiet h' nx') ->
      calm_step a (quiet h nx) (quiet h' nx')
  | calm_set_unchecked h h' nx nx' b p :
      off_path h a b ->
      run 0 (node_set_joint_position_unchecked b p) (quiet h nx) = Done tt (quiet h' nx') ->
      calm_step a (quiet h nx) (quiet h' nx')
  | calm_set_origin h h' nx nx' b o :
      off_path h a b ->
      run 0 (node_set_origin b o) (quiet h nx) = Done tt (quiet h' nx') ->
      calm_step a (quiet h nx) (quiet h' nx')
  | calm_set_link h h' nx nx' b l :                           (* any node *)
      run 0 (node_set_link b l) (quiet h nx) = Done tt (quiet h' nx') ->
      calm_step a (quiet h nx) (quiet h' nx')
  | calm_update h h' nx nx' c ws :                            (* any closed chain *)
      all_live h (c_nodes c) -> parents_first h (c_nodes c) ->
      run 0 (update_transforms c) (quiet h nx) = Done ws (quiet h' nx') ->
      calm_step a (quiet h nx) (quiet h' nx').
End SpecFK.
