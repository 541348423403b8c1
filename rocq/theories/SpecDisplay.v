(** * Specification vocabulary for Display of chains *)
From Coq Require Import String Ascii.
From stdpp Require Import gmap.
From Verif Require Import Scalar Geometry Joint Link Prog SpecGraph.

(** the nodes of a tree with their depths, parents first, first child first *)
Fixpoint tree_rows (depth : nat) (tr : tree) : list (nat * nat) :=
  match tr with TNode a cs => (depth, a) :: concat (map (tree_rows (S depth)) cs) end.
(** the length of the longest downward path *)
Fixpoint theight (tr : tree) : nat :=
  match tr with TNode _ cs => S (foldr max 0 (map theight cs)) end.

Definition space : string := String (ascii_of_nat 32) "".
Definition line_break : string := String (ascii_of_nat 10) "".
Fixpoint spaces (k : nat) : string := match k with 0 => ""%string | S k => (space ++ spaces k)%string end.
(** the rows whose node is in [nodes], one line each: four blanks per level of
    depth, the node's text, a line break *)
Definition table (text : nat -> string) (nodes : list nat) (rows : list (nat * nat)) : string :=
  String.concat "" (map (fun da : nat * nat => (spaces (4 * da.1) ++ text da.2 ++ line_break)%string)
    (List.filter (fun da : nat * nat => bool_decide (da.2 ∈ nodes)) rows)).

Section SpecDisplay.
  Context {T : Type} `{Sc : Scalar T}.
  (** the text of a node: joint name, tag of the joint type, and the link's name *)
  Definition node_text (tag : joint_type T -> string) (h : gmap nat (node T)) (a : nat) : string :=
    match h !! a with
    | Some n => (j_name (n_joint n) ++ space ++ tag (j_type (n_joint n)) ++
        match n_link n with Some l => " => /" ++ l_name l ++ "/" | None => "" end)%string
    | None => ""%string
    end.
  Definition same_kind (ty ty' : joint_type T) : Prop :=
    match ty, ty' with
    | Fixed, Fixed | Rotational _, Rotational _ | Linear _, Linear _ => True
    | _, _ => False
    end.
End SpecDisplay.
