(** * Specification vocabulary for the graph formed by the nodes *)
From stdpp Require Import gmap.
From Verif Require Import Scalar Geometry Joint Link Prog.

Section SpecGraph.
  Context {T : Type}.
  Implicit Types (h : gmap nat (node T)).

  (** [c] names [p] as its parent *)
  Definition has_parent h (c p : nat) : Prop :=
    exists n, h !! c = Some n /\ n_parent n = Some p.
  (** ... and [p] is still alive: what [Node::parent()] can see *)
  Definition live_parent h (c p : nat) : Prop :=
    has_parent h c p /\ is_Some (h !! p).
  (** a node that [Node::parent()] reports as having no parent *)
  Definition no_parent h (c : nat) : Prop :=
    is_Some (h !! c) /\ forall p, ~ live_parent h c p.
  (** [c] is listed among the children of [p] *)
  Definition lists_child h (p c : nat) : Prop :=
    exists n, h !! p = Some n /\ c ∈ n_children n.

  (** the graph is a forest: child lists and parent links agree, each child is
      listed once, every mentioned node is alive, and there are no cycles *)
  Record forest h : Prop := {
    forest_agree : forall p c, lists_child h p c <-> has_parent h c p;
    forest_once : forall p n, h !! p = Some n -> NoDup (n_children n);
    forest_live : forall c p, has_parent h c p -> is_Some (h !! p);
    forest_acyclic : forall a, ~ tc (has_parent h) a a;
  }.

  (** the path from [a] up to the root *)
  Inductive path_up h : nat -> list nat -> Prop :=
  | path_root a : no_parent h a -> path_up h a [a]
  | path_step a p l : live_parent h a p -> path_up h p l -> path_up h a (a :: l).

  (** ** Trees *)
  (** a tree of node addresses, children in the order of the child list *)
  Inductive tree := TNode (a : nat) (cs : list tree).
  Definition troot (t : tree) : nat := match t with TNode a _ => a end.
  Definition tsubs (t : tree) : list tree := match t with TNode _ cs => cs end.

  (** the heap contains the tree: at every node the child list is the list of
      the subtrees' roots *)
  Inductive tree_in h : tree -> Prop :=
  | tree_in_node a n cs :
      h !! a = Some n -> n_children n = map troot cs ->
      Forall (tree_in h) cs -> tree_in h (TNode a cs).

  (** depth-first, parents first, last child first *)
  Fixpoint preorder_last (t : tree) : list nat :=
    match t with
    | TNode a cs => a :: concat (rev (map preorder_last cs))
    end.
  (** depth-first, parents first, first child first *)
  Fixpoint preorder_first (t : tree) : list nat :=
    match t with
    | TNode a cs => a :: concat (map preorder_first cs)
    end.

  (** number of nodes *)
  Fixpoint tsize (t : tree) : nat :=
    match t with TNode _ cs => S (sum_list (map tsize cs)) end.

  (** child lists mention live nodes only (Rust: they are strong references) *)
  Definition children_live h : Prop :=
    forall p c, lists_child h p c -> is_Some (h !! c).

  (** every node of [l] except those with no parent comes after its parent *)
  Definition parents_first h (l : list nat) : Prop :=
    forall l1 a l2 p, l = l1 ++ a :: l2 -> live_parent h a p -> p ∈ l1.
End SpecGraph.

(** ** Histories of link operations (C10) *)
From Verif Require Import NodeM.
Section LinkHistory.
  Context {T : Type} `{Sc : Scalar T}.

  (** same live nodes, same parent and child links *)
  Definition same_links (h h' : gmap nat (node T)) : Prop :=
    forall a, (fun n => (n_parent n, n_children n)) <$> h' !! a
            = (fun n => (n_parent n, n_children n)) <$> h !! a.

  (** one call of a disciplined program, in a state with no call in progress *)
  Inductive link_step : sh T -> sh T -> Prop :=
  | step_new s j a s' : run 0 (node_new j) s = Done a s' -> link_step s s'
  | step_attach s c p s' :
      is_Some (heap s !! p) -> (forall q, ~ has_parent (heap s) c q) ->
      ~ rtc (lists_child (heap s)) c p ->          (* [p] is not in the subtree of [c] *)
      run 0 (node_set_parent c p) s = Done tt s' -> link_step s s'
  | step_detach s c p s' :
      has_parent (heap s) c p ->
      run 0 (node_remove_parent c p) s = Done tt s' -> link_step s s'
  | step_other h h' nx :                           (* anything that leaves links alone *)
      same_links h h' -> link_step (quiet h nx) (quiet h' nx).
  Definition linked (s : sh T) : Prop := rtc link_step (quiet ∅ 0) s.
End LinkHistory.
