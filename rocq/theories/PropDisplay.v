(** * C50: Display of chains *)
From Coq Require Import String Ascii ZArith Reals Lra Floats.SpecFloat.
From stdpp Require Import gmap.
From Verif Require Import Scalar ScalarR ScalarF Geometry Joint Link Prog NodeM ChainM SpecGraph GraphProofs SpecChain
  SpecDisplay DisplayProofs Ex PropGraph PropChain.

(** C50: the output is one line per node of the chain among the nodes [tr] below
    the first node, in the order of [tree_rows] (parents first, first child
    first), indented by four blanks per level; nothing is changed. *)
Theorem C50_display {T} `{Scalar T} (t : nat) (h : gmap nat (node T)) nx c tr fuel :
  head (c_nodes c) = Some (troot tr) -> tree_in h tr -> theight tr <= fuel ->
  run t (chain_fmt fuel c) (quiet h nx) =
  Done (table (node_text joint_type_fmt h) (c_nodes c) (tree_rows 0 tr)) (quiet h nx).
Proof. exact (run_chain_fmt t h nx c tr fuel). Qed.
Print Assumptions C50_display.
(** the rows are the nodes of the tree, each once for every place it has in it *)
Theorem C50_rows_are_preorder (tr : tree) : map snd (tree_rows 0 tr) = preorder_first tr.
Proof. exact (rows_preorder 0 tr). Qed.
Print Assumptions C50_rows_are_preorder.
(** a tree exists iff no cycle of child links is reachable; then Display returns *)
Theorem C50_display_returns {T} `{Scalar T} (t : nat) (h : gmap nat (node T)) nx c a fuel :
  children_live h -> head (c_nodes c) = Some a -> is_Some (h !! a) ->
  (forall b, rtc (lists_child h) a b -> ~ tc (lists_child h) b b) -> size (dom h) < fuel ->
  exists x, run t (chain_fmt fuel c) (quiet h nx) = Done x (quiet h nx).
Proof. exact (run_chain_fmt_acyclic t h nx c a fuel). Qed.
Print Assumptions C50_display_returns.
Theorem C50_empty_panics {T} `{Scalar T} (t : nat) (h : gmap nat (node T)) nx c fuel :
  c_nodes c = [] ->
  run t (chain_fmt fuel c) (quiet h nx) = Panicked "called `Option::unwrap()` on a `None` value" (quiet h nx).
Proof. exact (run_chain_fmt_empty t h nx c fuel). Qed.
Print Assumptions C50_empty_panics.

(** C50, tags: equal tags only for the same kind, for every axis and scalar. *)
Theorem C50_tags_kinds {T} `{Scalar T} (ty ty' : joint_type T) :
  joint_type_fmt ty = joint_type_fmt ty' -> same_kind ty ty'.
Proof. exact (tag_kind ty ty'). Qed.
Print Assumptions C50_tags_kinds.
(** the thirteen types with a signed coordinate axis have thirteen tags *)
Definition signed_axes {T} `{Scalar T} : list (vec3 T) :=
  [V3 sone szero szero; V3 szero sone szero; V3 szero szero sone;
   V3 (sneg sone) szero szero; V3 szero (sneg sone) szero; V3 szero szero (sneg sone)].
Definition standard_types {T} `{Scalar T} : list (joint_type T) :=
  Fixed :: map Rotational signed_axes ++ map Linear signed_axes.
Definition thirteen_tags : list string :=
  ["[⚓]"; "[⚙+X]"; "[⚙+Y]"; "[⚙+Z]"; "[⚙-X]"; "[⚙-Y]"; "[⚙-Z]";
   "[↕+X]"; "[↕+Y]"; "[↕+Z]"; "[↕-X]"; "[↕-Y]"; "[↕-Z]"]%string.
Theorem C50_tags_axes_float (L : libm) :
  map (joint_type_fmt (Sc := F64 L)) (standard_types (H := F64 L)) = thirteen_tags /\
  map (joint_type_fmt (Sc := F32 L)) (standard_types (H := F32 L)) = thirteen_tags /\ NoDup thirteen_tags.
Proof.
  split; [vm_compute; reflexivity|]. split; [vm_compute; reflexivity|].
  apply (bool_decide_unpack _). vm_compute. exact I.
Qed.
Print Assumptions C50_tags_axes_float.
Theorem C50_tags_axes_real : map joint_type_fmt (standard_types (T := R)) = thirteen_tags.
Proof.
  unfold standard_types, signed_axes, thirteen_tags. cbn [map app joint_type_fmt].
  unfold axis_to_string, veqb, x_axis, y_axis, z_axis, vneg. cbn. unfold Reqb.
  repeat (destruct (Req_EM_T _ _); try (exfalso; lra); cbn). reflexivity.
Qed.
Print Assumptions C50_tags_axes_real.
(** every other axis is left out *)
Theorem C50_tags_other (v : vec3 R) : v ∉ signed_axes ->
  joint_type_fmt (Rotational v) = "[⚙]"%string /\ joint_type_fmt (Linear v) = "[↕]"%string.
Proof.
  intros Hv. destruct v as [x y z]. unfold signed_axes in Hv. rewrite !not_elem_of_cons in Hv. cbn in Hv. destruct Hv as (H1 & H2 & H3 & H4 & H5 & H6 & _).
  assert (E : axis_to_string (V3 x y z) = ""%string); [|cbn [joint_type_fmt]; rewrite E; split; reflexivity].
  unfold axis_to_string, veqb, x_axis, y_axis, z_axis, vneg. cbn. unfold Reqb.
  repeat (destruct (Req_EM_T _ _); cbn; [|try reflexivity]); try reflexivity; exfalso; subst;
    first [apply H1; f_equal; lra|apply H2; f_equal; lra|apply H3; f_equal; lra|apply H4; f_equal; lra|apply H5; f_equal; lra|apply H6; f_equal; lra].
Qed.
Print Assumptions C50_tags_other.

(** ** Concrete case: 0 -> {1 -> {3}, 2}; the chain printed omits node 1 *)
Definition ex_disp : prog spec_float unit :=
  a <- node_new (fix_ "root") ;; b <- node_new (lin "j1" 0 1) ;;
  c <- node_new (rot "j2") ;; d <- node_new (lin "j3" 0 1) ;;
  node_set_parent b a ;;; node_set_parent c a ;;; node_set_parent d b ;;;
  node_set_link d (Some (link_with_name link_default "hand")).
Definition disp_tree : tree := TNode 0 [TNode 1 [TNode 3 []]; TNode 2 []].
Example C50_case_tree : tree_in (heap (after ex_disp)) disp_tree /\ theight disp_tree = 3.
Proof.
  split; [|reflexivity].
  repeat (econstructor; [vm_compute; reflexivity|vm_compute; reflexivity|]); repeat constructor;
  repeat (econstructor; [vm_compute; reflexivity|vm_compute; reflexivity|]); repeat constructor;
  repeat (econstructor; [vm_compute; reflexivity|vm_compute; reflexivity|]); repeat constructor.
Qed.
Example C50_case :
  (fst <$> final (run 0 (chain_fmt 3 (Chain [0; 2; 1; 3] [2; 1; 3] 3)) (after ex_disp))) =
    Some ("root [⚓]" ++ line_break ++ "    j1 [↕+Z]" ++ line_break ++ "        j3 [↕+Z] => /hand/" ++ line_break ++
          "    j2 [⚙+Y]" ++ line_break)%string /\
  (fst <$> final (run 0 (chain_fmt 3 (Chain [0; 3] [3] 1)) (after ex_disp))) =
    Some ("root [⚓]" ++ line_break ++ "        j3 [↕+Z] => /hand/" ++ line_break)%string.
Proof. vm_compute. split; reflexivity. Qed.
