(** * src/funcs.rs *)
From Coq Require Import String.
From stdpp Require Import gmap.
From Verif Require Import Scalar Geometry Joint Link Prog NodeM ChainM.

(** DMatrix<T>: number of rows and the columns *)
Record mat (T : Type) := Mat { m_rows : nat; m_cols : list (list T) }.
Arguments Mat {T}. Arguments m_rows {T}. Arguments m_cols {T}.

Section FuncsM.
  Context {T : Type} `{Sc : Scalar T}.

  (** funcs.rs:20-32 *)
  Definition jacobian_column (p_n : vec3 T) (t_i : iso T) (ty : joint_type T) : prog T (list T) :=
    match ty with
    | Linear axis =>
        let p_i := qrot (rt t_i) axis in
        Ret [vx p_i; vy p_i; vz p_i; szero; szero; szero]
    | Rotational axis =>
        let p_i := tr t_i in
        let a_i := qrot (rt t_i) axis in
        let dp_i := vcross a_i (vsub p_n p_i) in
        Ret [vx dp_i; vy dp_i; vz dp_i; vx a_i; vy a_i; vz a_i]
    | Fixed => Panic "impossible, bug of jacobian"
    end.
  (** funcs.rs:8-38.  The joint guard is held while the column is computed, so
      the [unwrap] of line 19 panics with the guard. *)
  Definition jacobian (arm : chain) : prog T (mat T) :=
    t_n <- end_transform arm ;;
    update_transforms arm ;;;
    let p_n := tr t_n in
    cols <- iter_joints arm (fun j =>
      t_i <- expect (j_wt_cache j) "called `Option::unwrap()` on a `None` value" ;;
      jacobian_column p_n t_i (j_type j)) ;;
    if decide (dof arm <= length cols) then Ret (Mat 6 (take (dof arm) cols))
    else Panic "index out of bounds".

  (** funcs.rs:58-76.  The guard of [node.link()] (line 68) is held over the
      [if let] body, which locks nothing. *)
  Definition com_step (acc : vec3 T * T) (a : nat) : prog T (vec3 T * T) :=
    owt <- node_world_transform a ;;
    match owt with
    | Some t =>
        read a (fun n =>
          match n_link n with
          | Some l =>
              let it := iso_mul_tr t (tr (in_origin (l_inertial l))) in
              let m := in_mass (l_inertial l) in
              (vadd (fst acc) (vscale (tr it) m), sadd (snd acc) m)
          | None => acc
          end)
    | None => Ret acc
    end.
  Fixpoint com_loop (acc : vec3 T * T) (l : list nat) : prog T (vec3 T * T) :=
    match l with
    | [] => Ret acc
    | a :: l => acc' <- com_step acc a ;; com_loop acc' l
    end.
  Definition center_of_mass (c : chain) : prog T (vec3 T) :=
    update_transforms c ;;;
    acc <- com_loop (v0, szero) (c_nodes c) ;;
    Ret (vdivs (fst acc) (snd acc)).
End FuncsM.
