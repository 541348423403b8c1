(** * src/ik.rs:63-96: Constraints read from and written to data (feature "serde-serialize")

    [derive(Serialize, Deserialize)] generates the two functions below.  The format (JSON,
    YAML, ...) is not modelled: a [value] is the data it carries. *)
From Coq Require Import String List.
From stdpp Require Import gmap strings.
From Verif Require Import IkM.
Local Open Scope string_scope.

Inductive value :=
| VNull | VBool (b : bool) | VNum (z : Z) | VStr (s : string) | VSeq (l : list value)
| VMap (l : list (string * value)).

(** ik.rs:65-82: the fields, in order *)
Definition flag_names : list string :=
  ["position_x"; "position_y"; "position_z"; "rotation_x"; "rotation_y"; "rotation_z"].
Definition names_field : string := "ignored_joint_names".

(** the derived [Serialize]: [serialize_struct] with one entry for each field *)
Definition serialize (c : constraints) : value :=
  VMap [("position_x", VBool (position_x c)); ("position_y", VBool (position_y c)); ("position_z", VBool (position_z c));
        ("rotation_x", VBool (rotation_x c)); ("rotation_y", VBool (rotation_y c)); ("rotation_z", VBool (rotation_z c));
        (names_field, VSeq (map VStr (ignored_joint_names c)))].

(** [bool::deserialize] and [Vec<String>::deserialize] *)
Definition as_bool (v : value) : option bool := match v with VBool b => Some b | _ => None end.
Definition as_str (v : value) : option string := match v with VStr s => Some s | _ => None end.
Fixpoint as_strs (l : list value) : option (list string) :=
  match l with
  | [] => Some []
  | v :: l => s ← as_str v; ss ← as_strs l; Some (s :: ss)
  end.
Definition as_names (v : value) : option (list string) :=
  match v with VSeq l => as_strs l | _ => None end.

(** the derived [visit_map].  The seven [Option] locals of the generated code are two finite
    maps here, from a field's name to what has been read.  A second entry for a field is an
    error ([duplicate_field]), so is a value of the wrong type; an unknown field is skipped. *)
Definition seen : Type := gmap string bool * gmap string (list string).
Fixpoint visit_map (l : list (string * value)) (st : seen) : option seen :=
  match l with
  | [] => Some st
  | (k, v) :: l =>
      if decide (k ∈ flag_names) then
        match st.1 !! k with
        | Some _ => None
        | None => b ← as_bool v; visit_map l (<[k := b]> st.1, st.2)
        end
      else if decide (k = names_field) then
        match st.2 !! k with
        | Some _ => None
        | None => ss ← as_names v; visit_map l (st.1, <[k := ss]> st.2)
        end
      else visit_map l st
  end.

(** ik.rs:84-86: what a missing flag is; a missing list is the empty [Vec] ([serde(default)]) *)
Definition default_true : bool := true.
Definition from_seen (st : seen) : constraints :=
  let flag k := default default_true (st.1 !! k) in
  Constraints (flag "position_x") (flag "position_y") (flag "position_z")
    (flag "rotation_x") (flag "rotation_y") (flag "rotation_z") (default [] (st.2 !! names_field)).

(** the derived [visit_seq]: one element for each field, in order; the fields after the last
    element are missing.  The formats reject elements that are left over. *)
Definition next_bool (l : list value) : option (bool * list value) :=
  match l with
  | [] => Some (default_true, [])
  | v :: l => b ← as_bool v; Some (b, l)
  end.
Definition next_names (l : list value) : option (list string * list value) :=
  match l with
  | [] => Some ([], [])
  | v :: l => ss ← as_names v; Some (ss, l)
  end.
Definition visit_seq (l : list value) : option constraints :=
  '(px, l) ← next_bool l; '(py, l) ← next_bool l; '(pz, l) ← next_bool l;
  '(rx, l) ← next_bool l; '(ry, l) ← next_bool l; '(rz, l) ← next_bool l;
  '(ns, l) ← next_names l;
  match l with [] => Some (Constraints px py pz rx ry rz ns) | _ => None end.

(** [Constraints::deserialize]; [None] is an error *)
Definition deserialize (v : value) : option constraints :=
  match v with
  | VMap l => from_seen <$> visit_map l (∅, ∅)
  | VSeq l => visit_seq l
  | _ => None
  end.
