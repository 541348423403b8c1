(** * src/node.rs: the methods of [Node] *)
From stdpp Require Import gmap.
From Coq Require Import String.
From Verif Require Import Scalar Geometry Joint Link Prog.

Section NodeM.
  Context {T : Type} `{Sc : Scalar T}.

  (** node.rs:60-70 *)
  Definition fresh_node (j : joint T) : node T := Node None [] j None [] None None.
  Definition node_new (j : joint T) : prog T nat := new (fresh_node j).

  (** node.rs:80-82 *)
  Definition node_joint_position (a : nat) : prog T (option T) :=
    read a (fun n => joint_position (n_joint n)).

  (** node.rs:84-89: the guard is the match scrutinee's temporary, so it is held
      while the weak reference is upgraded *)
  Definition node_parent (a : nat) : prog T (option nat) :=
    lock a ;;; n <- get a ;;
    match n_parent n with
    | Some w => b <- upgrade w ;; unlock a ;;; Ret (if b : bool then Some w else None)
    | None => unlock a ;;; Ret None
    end.

  (** node.rs:91-93 (the guard dereferenced once) *)
  Definition node_children (a : nat) : prog T (list nat) := read a n_children.

  (** node.rs:107-110: two separate critical sections *)
  Definition node_set_parent (self parent : nat) : prog T unit :=
    modify self (fun n => set_n_parent n (Some parent)) ;;;
    modify parent (fun n => set_n_children n (n_children n ++ [self])).

  (** node.rs:113-116; Node equality is pointer equality (node.rs:343-350) *)
  Definition node_remove_parent (self parent : nat) : prog T unit :=
    modify self (fun n => set_n_parent n None) ;;;
    modify parent (fun n => set_n_children n (filter (fun x => x <> self) (n_children n))).

  (** node.rs:129-131 *)
  Definition node_is_root (a : nat) : prog T bool :=
    read a (fun n => match n_parent n with None => true | Some _ => false end).
  (** node.rs:142-144 *)
  Definition node_is_end (a : nat) : prog T bool :=
    read a (fun n => match n_children n with [] => true | _ => false end).

  (** node.rs:148-150, 154-156 *)
  Definition node_set_origin (a : nat) (o : iso T) : prog T unit :=
    modify a (fun n => set_n_joint n (joint_set_origin (n_joint n) o)).
  Definition node_origin (a : nat) : prog T (iso T) :=
    read a (fun n => j_origin (n_joint n)).

  (** node.rs:203-224.  The guard [node] of [self] is held for the whole call;
      in the branch without Mimic, [self.joint()] (line 217) locks [self] again
      while [node] is alive. *)
  Fixpoint mimic_loop (self : nat) (p : T) (cs : list nat) : prog T (result T unit) :=
    match cs with
    | [] => Ret (Ok tt)
    | c :: cs =>
        lock c ;;; cn <- get c ;;
        match n_mimic cn with
        | Some m =>
            let jr := joint_set (n_joint cn) (mimic_position m p) in
            put c (set_n_joint cn (fst jr)) ;;;
            match snd jr with
            | Ok _ => unlock c ;;; mimic_loop self p cs
            | Err e => unlock c ;;; Ret (Err e)
            end
        | None =>
            from <- read self (fun n => j_name (n_joint n)) ;;
            to <- read c (fun n => j_name (n_joint n)) ;;
            unlock c ;;; Ret (Err (MimicError from to))
        end
    end.
  Definition node_set_joint_position (a : nat) (p : T) : prog T (result T unit) :=
    lock a ;;; n <- get a ;;
    match n_mimic_parent n with
    | Some _ => unlock a ;;; Ret (Ok tt)
    | None =>
        let jr := joint_set (n_joint n) p in
        put a (set_n_joint n (fst jr)) ;;;
        match snd jr with
        | Err e => unlock a ;;; Ret (Err e)
        | Ok _ =>
            r <- mimic_loop a p (n_mimic_children n) ;;
            unlock a ;;; Ret r
        end
    end.

  (** node.rs:243-249, 252-258 *)
  Definition node_set_joint_position_clamped (a : nat) (p : T) : prog T unit :=
    modify a (fun n => set_n_joint n (joint_set_clamped (n_joint n) p)).
  Definition node_set_joint_position_unchecked (a : nat) (p : T) : prog T unit :=
    modify a (fun n => set_n_joint n (joint_set_unchecked (n_joint n) p)).

  (** node.rs:304-306, 308-310 *)
  Definition node_world_transform (a : nat) : prog T (option (iso T)) :=
    read a (fun n => j_wt_cache (n_joint n)).
  Definition node_world_velocity (a : nat) : prog T (option (velocity T)) :=
    read a (fun n => j_wv_cache (n_joint n)).

  (** node.rs:260-266, 268-273 *)
  Definition parent_world_transform (a : nat) : prog T (option (iso T)) :=
    op <- node_parent a ;;
    match op with
    | Some p => node_world_transform p
    | None => Ret (Some iso1)
    end.
  Definition parent_world_velocity (a : nat) : prog T (option (velocity T)) :=
    op <- node_parent a ;;
    match op with
    | Some p => node_world_velocity p
    | None => Ret (Some velocity_zero)
    end.

  (** node.rs:312-317 *)
  Definition node_mimic_parent (a : nat) : prog T (option nat) :=
    lock a ;;; n <- get a ;;
    match n_mimic_parent n with
    | Some w => b <- upgrade w ;; unlock a ;;; Ret (if b : bool then Some w else None)
    | None => unlock a ;;; Ret None
    end.

  (** node.rs:319-323: three separate critical sections *)
  Definition node_set_mimic_parent (self parent : nat) (m : mimic T) : prog T unit :=
    modify self (fun n => set_n_mimic_parent n (Some parent)) ;;;
    modify parent (fun n => set_n_mimic_children n (n_mimic_children n ++ [self])) ;;;
    modify self (fun n => set_n_mimic n (Some m)).

  (** node.rs:325-331 *)
  Definition node_set_link (a : nat) (l : option (link T)) : prog T unit :=
    modify a (fun n => set_n_link n l).
  Definition node_link (a : nat) : prog T (option (link T)) := read a n_link.

  (** node.rs:352-362 *)
  Definition node_string (n : node T) : string :=
    (joint_fmt (n_joint n) ++
     match n_link n with Some l => " => /" ++ l_name l ++ "/" | None => "" end)%string.
  Definition node_fmt (a : nat) : prog T string := read a node_string.

  (** ** src/iterator.rs *)
  (** Ancestors::next, iterator.rs:45-52; the iterator state is [parent] *)
  Definition ancestors_next (it : option nat) : prog T (option (nat * option nat)) :=
    match it with
    | None => Ret None
    | Some a => p <- node_parent a ;; Ret (Some (a, p))
    end.
  (** [collect] of the iterator *)
  Fixpoint ancestors_collect (fuel : nat) (it : option nat) : prog T (list nat) :=
    match fuel with
    | 0 => NoFuel
    | S fuel =>
        r <- ancestors_next it ;;
        match r with
        | None => Ret []
        | Some (a, it') => l <- ancestors_collect fuel it' ;; Ret (a :: l)
        end
    end.
  (** node.rs:97-99 *)
  Definition iter_ancestors (fuel : nat) (a : nat) : prog T (list nat) :=
    ancestors_collect fuel (Some a).

  (** Descendants::next, iterator.rs:79-88.  The Vec used as a stack is kept with
      its last element (the top) first, so [stack.extend(children)] puts the
      reversed children in front. *)
  Definition descendants_next (stack : list nat) : prog T (option (nat * list nat)) :=
    match stack with
    | [] => Ret None
    | a :: st => ch <- node_children a ;; Ret (Some (a, rev ch ++ st))
    end.
  Fixpoint descendants_collect (fuel : nat) (stack : list nat) : prog T (list nat) :=
    match fuel with
    | 0 => NoFuel
    | S fuel =>
        r <- descendants_next stack ;;
        match r with
        | None => Ret []
        | Some (a, stack') => l <- descendants_collect fuel stack' ;; Ret (a :: l)
        end
    end.
  (** node.rs:102-104 *)
  Definition iter_descendants (fuel : nat) (a : nat) : prog T (list nat) :=
    descendants_collect fuel [a].
End NodeM.

(** [connect![x0 => x1 => ...]], node.rs:592-601 *)
Fixpoint connect {T} (x : nat) (rest : list nat) : prog T unit :=
  match rest with
  | [] => Ret tt
  | y :: rest => node_set_parent y x ;;; connect y rest
  end.
