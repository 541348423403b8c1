(** * src/chain.rs *)
From Coq Require Import String NArith.
From stdpp Require Import gmap.
From Verif Require Import Scalar Geometry Joint Link Prog NodeM.

(** chain.rs:85-89 *)
Record chain := Chain { c_nodes : list nat; c_movable : list nat; c_dof : nat }.

(** usize subtraction: panics under overflow checks, wraps modulo 2^64 otherwise *)
Definition usize_sub {T} (ovf : bool) (a b : nat) : prog T N :=
  if decide (b <= a) then Ret (N.of_nat (a - b))
  else if ovf then Panic "attempt to subtract with overflow"
  else Ret (2 ^ 64 + N.of_nat a - N.of_nat b)%N.

Section ChainM.
  Context {T : Type} `{Sc : Scalar T}.

  (** chain.rs:174-185 *)
  Definition from_nodes (nodes : list nat) : prog T chain :=
    movable <- filterM (fun a => read a (fun n : node T => is_movable (n_joint n))) nodes ;;
    Ret (Chain nodes movable (length movable)).
  (** chain.rs:128-131 *)
  Definition from_root (fuel : nat) (root : nat) : prog T chain :=
    nodes <- iter_descendants fuel root ;; from_nodes nodes.
  (** chain.rs:153-157 *)
  Definition from_end (fuel : nat) (end_ : nat) : prog T chain :=
    nodes <- iter_ancestors fuel end_ ;; from_nodes (rev nodes).
  (** chain.rs:209-219: the loop pushes nodes until [root] has been pushed *)
  Fixpoint ancestors_until (fuel : nat) (it : option nat) (root : nat) : prog T (list nat) :=
    match fuel with
    | 0 => NoFuel
    | S fuel =>
        r <- ancestors_next it ;;
        match r with
        | None => Ret []
        | Some (a, it') =>
            if decide (a = root) then Ret [a]
            else l <- ancestors_until fuel it' root ;; Ret (a :: l)
        end
    end.
  Definition from_end_to_root (fuel : nat) (end_ root : nat) : prog T chain :=
    nodes <- ancestors_until fuel (Some end_) root ;; from_nodes (rev nodes).

  (** [self.nodes[0]] *)
  Definition first_node (c : chain) : prog T nat :=
    expect (head (c_nodes c)) "index out of bounds: the len is 0 but the index is 0".
  (** chain.rs:239-241, 244-246 *)
  Definition chain_set_origin (c : chain) (o : iso T) : prog T unit :=
    a <- first_node c ;; node_set_origin a o.
  Definition chain_origin (c : chain) : prog T (iso T) :=
    a <- first_node c ;; node_origin a.

  (** chain.rs:274-276: each joint guard is taken, used by [f], and dropped *)
  Definition iter_joints {A} (c : chain) (f : joint T -> prog T A) : prog T (list A) :=
    mapM (fun a => lock a ;;; n <- get a ;; x <- f (n_joint n) ;; unlock a ;;; Ret x) (c_movable c).
  (** chain.rs:279-287, consumed by reading the links one after the other.  The
      guard of the [if] condition is dropped before the second lock; the
      dereference of LinkRefGuard (node.rs:446-449) unwraps. *)
  Fixpoint links_loop (l : list nat) : prog T (list (link T)) :=
    match l with
    | [] => Ret []
    | a :: l =>
        b <- read a (fun n => match n_link n with Some _ => true | None => false end) ;;
        if b : bool then
          lock a ;;; n <- get a ;;
          x <- expect (n_link n) "called `Option::unwrap()` on a `None` value" ;;
          unlock a ;;; xs <- links_loop l ;; Ret (x :: xs)
        else links_loop l
    end.
  Definition iter_links (c : chain) : prog T (list (link T)) := links_loop (c_nodes c).

  (** chain.rs:306-308 *)
  Definition dof (c : chain) : nat := c_dof c.
  (** chain.rs:330-332 *)
  Definition chain_find (c : chain) (name : string) : prog T (option nat) :=
    findM (fun a => read a (fun n : node T => String.eqb (j_name (n_joint n)) name)) (c_nodes c).
  (** chain.rs:336-344; the [expect] runs while the joint guard is held *)
  Definition joint_positions (c : chain) : prog T (list T) :=
    iter_joints c (fun j =>
      expect (joint_position j) "Must be a bug: movable joint must have position").

  (** chain.rs:349-360 *)
  Definition set_joint_positions (c : chain) (ps : list T) : prog T (result T unit) :=
    if decide (length ps = c_dof c) then
      forM_try (fun ap => node_set_joint_position (fst ap) (snd ap)) (zip (c_movable c) ps)
    else Ret (Err (SizeMismatchError (length ps) (c_dof c))).
  (** chain.rs:365-369, 373-377 *)
  Definition set_joint_positions_clamped (c : chain) (ps : list T) : prog T unit :=
    forM_ (fun ap => node_set_joint_position_clamped (fst ap) (snd ap)) (zip (c_movable c) ps).
  Definition set_joint_positions_unchecked (c : chain) (ps : list T) : prog T unit :=
    forM_ (fun ap => node_set_joint_position_unchecked (fst ap) (snd ap)) (zip (c_movable c) ps).

  (** chain.rs:380-389 *)
  Definition update_transform (a : nat) : prog T (iso T) :=
    opt <- parent_world_transform a ;;
    pt <- expect opt "cache must exist" ;;
    lt <- read a (fun n => local_transform (n_joint n)) ;;
    let t := iso_mul pt lt in
    modify a (fun n => set_n_joint n (joint_set_wt (n_joint n) t)) ;;;
    Ret t.
  Definition update_transforms (c : chain) : prog T (list (iso T)) :=
    mapM update_transform (c_nodes c).

  (** chain.rs:392-437.  The scrutinee [node.joint().joint_type] (line 402) keeps
      its guard until the end of the [let] statement (line 432), i.e. while the
      arms run. *)
  Definition velocity_in_match (a : nat) (j : joint T) (ptf : iso T) (pv : velocity T)
      : prog T (velocity T) :=
    match j_type j with
    | Fixed => Ret pv
    | Rotational axis =>
        op <- node_parent a ;;
        parent <- expect op "parent must exist" ;;
        parent_vel <- read parent (fun n => tr (j_origin (n_joint n))) ;;
        owt <- node_world_transform a ;;
        wt <- expect owt "cache must exist" ;;
        ojv <- read a (fun n => joint_velocity (n_joint n)) ;;
        jv <- expect ojv "called `Option::unwrap()` on a `None` value" ;;
        Ret (Velocity
          (vadd (v_translation pv)
                (vcross (v_rotation pv) (mat3_mul (q_to_mat (rt ptf)) parent_vel)))
          (vadd (v_rotation pv) (mat3_mul (q_to_mat (rt wt)) (vscale axis jv))))
    | Linear axis =>
        owt <- node_world_transform a ;;
        wt <- expect owt "cache must exist" ;;
        ojv <- read a (fun n => joint_velocity (n_joint n)) ;;
        jv <- expect ojv "called `Option::unwrap()` on a `None` value" ;;
        Ret (Velocity
          (vadd (v_translation pv) (mat3_mul (q_to_mat (rt wt)) (vscale axis jv)))
          (v_rotation pv))
    end.
  Definition update_velocity (a : nat) : prog T (velocity T) :=
    optf <- parent_world_transform a ;;
    ptf <- expect optf "transform cache must exist" ;;
    opv <- parent_world_velocity a ;;
    pv <- expect opv "velocity cache must exist" ;;
    lock a ;;; n <- get a ;;
    v <- velocity_in_match a (n_joint n) ptf pv ;;
    unlock a ;;;
    modify a (fun n => set_n_joint n (joint_set_wv (n_joint n) v)) ;;;
    Ret v.
  Definition update_velocities (c : chain) : prog T (list (velocity T)) :=
    update_transforms c ;;; mapM update_velocity (c_nodes c).

  (** chain.rs:440-458 *)
  Definition link_update (pt : iso T) (l : link T) : link T :=
    Link (l_name l)
      (inertial_set_wt (l_inertial l) (iso_mul pt (in_origin (l_inertial l))))
      (map (fun v => visual_set_wt v (iso_mul pt (vi_origin v))) (l_visuals l))
      (map (fun c => collision_set_wt c (iso_mul pt (co_origin c))) (l_collisions l)).
  Definition update_link_transform (a : nat) : prog T unit :=
    opt <- parent_world_transform a ;;
    pt <- expect opt "cache must exist" ;;
    modify a (fun n => set_n_link n (link_update pt <$> n_link n)).
  Definition update_link_transforms (c : chain) : prog T unit :=
    update_transforms c ;;; forM_ update_link_transform (c_nodes c).

  (** ** Clone, chain.rs:461-505 *)
  (** chain.rs:479-483: the guard of [n.link()] lives while [node] is locked *)
  Definition clone_node (a : nat) : prog T nat :=
    lock a ;;; n <- get a ;; nn <- node_new (n_joint n) ;; unlock a ;;;
    lock a ;;; n <- get a ;; node_set_link nn (n_link n) ;;; unlock a ;;;
    Ret nn.
  (** [self.nodes.iter().position(|x| *x == p)] *)
  Fixpoint index_of (x : nat) (l : list nat) : option nat :=
    match l with
    | [] => None
    | y :: l => if decide (y = x) then Some 0 else S <$> index_of x l
    end.
  (** chain.rs:487-498: one iteration, with [a = self.nodes[i]], [na = new_nodes[i]].
      The guard of [self.nodes[i].lock()] (line 496) lives during the call. *)
  Definition clone_connect (nodes news : list nat) (ana : nat * nat) : prog T unit :=
    let a := fst ana in let na := snd ana in
    op <- node_parent a ;;
    match op with
    | Some p =>
        i <- expect (index_of p nodes) "called `Option::unwrap()` on a `None` value" ;;
        np <- expect (news !! i) "index out of bounds" ;;
        node_set_parent na np
    | None => Ret tt
    end ;;;
    om <- node_mimic_parent a ;;
    match om with
    | Some m =>
        i <- expect (index_of m nodes) "called `Option::unwrap()` on a `None` value" ;;
        nm <- expect (news !! i) "index out of bounds" ;;
        lock a ;;; n <- get a ;;
        mi <- expect (n_mimic n) "called `Option::unwrap()` on a `None` value" ;;
        node_set_mimic_parent na nm mi ;;;
        unlock a
    | None => Ret tt
    end.
  (** Simplification: the new nodes that are not reachable from the new root
      (possible only when the chain has several roots) are left on the heap
      instead of being deallocated. *)
  Definition chain_clone (fuel : nat) (c : chain) : prog T chain :=
    match c_nodes c with
    | [] => Ret (Chain [] [] 0)
    | a0 :: _ =>
        b <- node_is_root a0 ;;
        assert_ b "assertion failed: self.nodes[0].is_root()" ;;;
        news <- mapM clone_node (c_nodes c) ;;
        forM_ (clone_connect (c_nodes c) news) (zip (c_nodes c) news) ;;;
        na0 <- expect (head news) "index out of bounds" ;;
        b' <- node_is_root na0 ;;
        assert_ b' "assertion failed: new_nodes[0].is_root()" ;;;
        from_root fuel na0
    end.

  (** ** Display, chain.rs:92-112.  [node.children()] keeps its guard during the
      loop over the children. *)
  Fixpoint indent (level : nat) : string :=
    match level with 0 => "" | S l => "    " ++ indent l end%string.
  Definition newline : string := String (Ascii.ascii_of_nat 10) "".
  Definition concat_strings (l : list string) : string := foldr String.append ""%string l.
  Fixpoint fmt_with_indent_level (fuel : nat) (nodes : list nat) (a level : nat) : prog T string :=
    match fuel with
    | 0 => NoFuel
    | S fuel =>
        line <- (if decide (a ∈ nodes)
                 then s <- node_fmt a ;; Ret (indent level ++ s ++ newline)%string
                 else Ret ""%string) ;;
        lock a ;;; n <- get a ;;
        rest <- mapM (fun ch => fmt_with_indent_level fuel nodes ch (S level)) (n_children n) ;;
        unlock a ;;;
        Ret (line ++ concat_strings rest)%string
    end.
  Definition chain_fmt (fuel : nat) (c : chain) : prog T string :=
    a <- expect (head (c_nodes c)) "called `Option::unwrap()` on a `None` value" ;;
    fmt_with_indent_level fuel (c_nodes c) a 0.

  (** ** SerialChain, chain.rs:511-632: a newtype around Chain *)
  Definition serial_from_end := from_end.                     (* chain.rs:566-570 *)
  Definition serial_from_end_to_root := from_end_to_root.     (* chain.rs:586-590 *)
  Definition serial_clone := chain_clone.                     (* chain.rs:604-613 *)
  (** chain.rs:547-557; [num - 1] underflows on an empty chain *)
  Fixpoint all_one_child (l : list nat) : prog T bool :=
    match l with
    | [] => Ret true
    | a :: l =>
        ch <- node_children a ;;
        if decide (length ch = 1) then all_one_child l else Ret false
    end.
  Definition try_new (ovf : bool) (c : chain) : prog T (option chain) :=
    k <- usize_sub ovf (length (c_nodes c)) 1 ;;
    b <- all_one_child (take (if decide (k <= N.of_nat (length (c_nodes c)))%N
                              then N.to_nat k else length (c_nodes c)) (c_nodes c)) ;;
    Ret (if b : bool then Some c else None).
  (** chain.rs:597-601 *)
  Fixpoint end_fold (acc : iso T) (l : list nat) : prog T (iso T) :=
    match l with
    | [] => Ret acc
    | a :: l =>
        lt <- read a (fun n => local_transform (n_joint n)) ;;
        end_fold (iso_mul acc lt) l
    end.
  Definition end_transform (c : chain) : prog T (iso T) := end_fold iso1 (c_nodes c).
End ChainM.
