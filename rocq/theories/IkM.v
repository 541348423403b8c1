(** * src/ik.rs

    The dense linear algebra of nalgebra (LU, SVD and pseudo inverse) is not
    modelled: it enters as an arbitrary record of functions [linalg], and every
    theorem quantifies over it. *)
From Coq Require Import String NArith QArith.
From stdpp Require Import gmap.
From Verif Require Import Scalar Geometry Joint Link Prog NodeM ChainM FuncsM.

(** [lu_solve m b]: [m.lu().solve(&b)]; [svd_solve m b]:
    [m.svd(true, true).solve(&b, 0.0001)], [None] when nalgebra panics or returns
    an error; [pinv m]: [m.pseudo_inverse(0.0001)] likewise. *)
Record linalg (T : Type) := Linalg {
  lu_solve : mat T -> list T -> option (list T);
  svd_solve : mat T -> list T -> option (list T);
  pinv : mat T -> option (mat T);
}.
Arguments Linalg {T}. Arguments lu_solve {T}. Arguments svd_solve {T}. Arguments pinv {T}.

(** ik.rs:63-82 *)
Record constraints := Constraints {
  position_x : bool; position_y : bool; position_z : bool;
  rotation_x : bool; rotation_y : bool; rotation_z : bool;
  ignored_joint_names : list string;
}.
(** ik.rs:101-111 *)
Definition default_constraints : constraints :=
  Constraints true true true true true true [].
(** ik.rs:114-123 *)
Definition define_operational_space (c : constraints) : list bool :=
  [position_x c; position_y c; position_z c; rotation_x c; rotation_y c; rotation_z c].
(** [operational_space.iter().filter(|x| **x).count()] *)
Definition count_true (l : list bool) : nat := length (filter (fun b => b = true) l).

(** [remove_row]/[remove_column]/[insert_row] of nalgebra: panic out of range *)
Definition remove_nth {T A} (i : N) (l : list A) : prog T (list A) :=
  if decide (i < N.of_nat (length l))%N
  then Ret (take (N.to_nat i) l ++ drop (S (N.to_nat i)) l)
  else Panic "index out of range".
Definition insert_nth {T A} (i : nat) (x : A) (l : list A) : prog T (list A) :=
  if decide (i <= length l) then Ret (take i l ++ x :: drop i l)
  else Panic "index out of range".

(** Vec<usize>::sort_unstable *)
Fixpoint insert_sorted (x : nat) (l : list nat) : list nat :=
  match l with
  | [] => [x]
  | y :: l' => if decide (x <= y) then x :: l else y :: insert_sorted x l'
  end.
Definition sort_unstable (l : list nat) : list nat := foldr insert_sorted [] l.

Section IkM.
  Context {T : Type} `{Sc : Scalar T}.

  (** ik.rs:30-39 *)
  Definition calc_pose_diff (a b : iso T) : list T :=
    let p := vsub (tr a) (tr b) in
    let w := qscaled_axis (qrotation_to (rt b) (rt a)) in
    [vx p; vy p; vz p; vx w; vy w; vz w].
  (** the entries of [l] whose flag is set *)
  Fixpoint select {A} (flags : list bool) (l : list A) : list A :=
    match flags, l with
    | b :: flags, x :: l => if b then x :: select flags l else select flags l
    | _, _ => []
    end.
  (** ik.rs:41-60 *)
  Definition calc_pose_diff_with_constraints (a b : iso T) (ops : list bool) : list T :=
    select ops (calc_pose_diff a b).

  (** ik.rs:361-384: three entries for the position then three for the rotation,
      zero where the flag is off.  [target_diff[index]] is always in range when
      the difference has one entry per set flag; [szero] is returned otherwise
      (unreachable). *)
  Fixpoint spread (flags : list bool) (d : list T) : list T * list T :=
    match flags with
    | [] => ([], d)
    | true :: flags =>
        match d with
        | x :: d => let r := spread flags d in (x :: fst r, snd r)
        | [] => let r := spread flags [] in (szero :: fst r, snd r)
        end
    | false :: flags => let r := spread flags d in (szero :: fst r, snd r)
    end.
  Definition to_v3 (l : list T) : vec3 T :=
    match l with [x; y; z] => V3 x y z | _ => v0 end.
  Definition target_diff_to_len_rot_diff (d : list T) (ops : list bool) : vec3 T * vec3 T :=
    let r := spread (take 3 ops) d in
    (to_v3 (fst r), to_v3 (fst (spread (drop 3 ops) (snd r)))).

  (** ik.rs:144-156.  The null space function is a pure function of the joint
      positions here, [None] meaning that it panics; a closure with interior
      mutability is not modelled. *)
  Record solver := Solver {
    allowable_target_distance : T;
    allowable_target_angle : T;
    jacobian_multiplier : T;
    num_max_try : nat;
    nullspace_function : option (list T -> option (list T));
  }.
  (** ik.rs:171-184, 198-205 *)
  Definition solver_new (d a m : T) (n : nat) : solver := Solver d a m n None.
  Definition set_nullspace_function (s : solver) (f : list T -> option (list T)) : solver :=
    Solver (allowable_target_distance s) (allowable_target_angle s)
      (jacobian_multiplier s) (num_max_try s) (Some f).
  Definition clear_nullspace_function (s : solver) : solver :=
    Solver (allowable_target_distance s) (allowable_target_angle s)
      (jacobian_multiplier s) (num_max_try s) None.
  (** ik.rs:476-478 *)
  Definition solver_default : solver :=
    solver_new (sofQ (Qmake 1 1000)) (sofQ (Qmake 1 200)) (sofQ (Qmake 1 2)) 10.

  (** ik.rs:207-213 *)
  Definition add_positions_with_multiplier (s : solver) (input add : list T) : list T :=
    zip_with (fun ang ad => sadd ang (smul (jacobian_multiplier s) ad)) input add.

  (** Matrix products of the null space branch (ik.rs:252-255).  Simplification:
      sums are taken left to right, nalgebra may associate them differently. *)
  Definition lsum (l : list T) : T := foldl sadd szero l.
  Definition row (m : mat T) (r : nat) : list T := map (fun c => nth r c szero) (m_cols m).
  Definition mat_vec (m : mat T) (v : list T) : list T :=
    map (fun r => lsum (zip_with smul (row m r) v)) (seq 0 (m_rows m)).
  Definition mat_mul (a b : mat T) : mat T := Mat (m_rows a) (map (mat_vec a) (m_cols b)).
  Definition ident (n : nat) : mat T :=
    Mat n (map (fun c => map (fun r => if decide (r = c) then sone else szero) (seq 0 n)) (seq 0 n)).
  Definition mat_sub (a b : mat T) : mat T :=
    Mat (m_rows a) (zip_with (zip_with ssub) (m_cols a) (m_cols b)).
  Definition vec_add (a b : list T) : list T := zip_with sadd a b.

  (** ik.rs:229-235 *)
  Fixpoint remove_rows (ovf : bool) (i removed : nat) (ops : list bool) (m : mat T) : prog T (mat T) :=
    match ops with
    | [] => Ret m
    | true :: ops => remove_rows ovf (S i) removed ops m
    | false :: ops =>
        k <- usize_sub ovf i removed ;;
        if decide (k < N.of_nat (m_rows m))%N then
          remove_rows ovf (S i) (S removed) ops
            (Mat (m_rows m - 1)
               (map (fun c => take (N.to_nat k) c ++ drop (S (N.to_nat k)) c) (m_cols m)))
        else Panic "Row index out of range."
    end.
  (** ik.rs:237-239, and for a vector ik.rs:249-251 *)
  Fixpoint remove_columns {A} (ovf : bool) (i : nat) (idx : list nat) (l : list A) : prog T (list A) :=
    match idx with
    | [] => Ret l
    | j :: idx =>
        k <- usize_sub ovf j i ;;
        l' <- remove_nth k l ;;
        remove_columns ovf (S i) idx l'
    end.
  (** ik.rs:256-258, 266-268 *)
  Fixpoint insert_rows (idx : list nat) (l : list T) : prog T (list T) :=
    match idx with
    | [] => Ret l
    | j :: idx => l' <- insert_nth j szero l ;; insert_rows idx l'
    end.

  (** ik.rs:241-282: the new joint positions from the reduced Jacobian *)
  Definition new_positions (ovf : bool) (la : linalg T) (s : solver)
      (orig err : list T) (jac : mat T) (available : N) (required : nat) (idx : list nat)
      : prog T (result T (list T)) :=
    if decide (N.of_nat required < available)%N then
      match nullspace_function s with
      | Some f =>
          jinv <- expect (pinv la jac) "called `Result::unwrap()` on an `Err` value" ;;
          sub <- expect (f orig) "panic in the null space function" ;;
          sub <- remove_columns ovf 0 idx sub ;;
          if decide (m_rows jinv = length (m_cols jac) /\ available = N.of_nat (m_rows jinv)
                     /\ length sub = m_rows jinv) then
            let d_q := vec_add (mat_vec jinv err)
              (mat_vec (mat_sub (ident (m_rows jinv)) (mat_mul jinv jac)) sub) in
            d_q <- insert_rows idx d_q ;;
            Ret (Ok (add_positions_with_multiplier s orig d_q))
          else Panic "Matrix dimensions mismatch."
      | None =>
          d_q <- expect (svd_solve la jac err) "called `Result::unwrap()` on an `Err` value" ;;
          d_q <- insert_rows idx d_q ;;
          Ret (Ok (add_positions_with_multiplier s orig d_q))
      end
    else
      match lu_solve la jac err with
      | Some d_q => Ret (Ok (add_positions_with_multiplier s orig d_q))
      | None => Ret (Err InverseMatrixError)
      end.

  (** ik.rs:215-289 *)
  Definition solve_one_loop_with_constraints (ovf : bool) (la : linalg T) (s : solver)
      (arm : chain) (target : iso T) (ops : list bool) (idx : list nat)
      : prog T (result T (list T)) :=
    let required := count_true ops in
    orig <- joint_positions arm ;;
    available <- usize_sub ovf (dof arm) (length idx) ;;
    t_n <- end_transform arm ;;
    let err := calc_pose_diff_with_constraints target t_n ops in
    jac <- jacobian arm ;;
    jac <- remove_rows ovf 0 0 ops jac ;;
    cols <- remove_columns ovf 0 idx (m_cols jac) ;;
    let jac := Mat (m_rows jac) cols in
    r <- new_positions ovf la s orig err jac available required idx ;;
    match r with
    | Err e => Ret (Err e)
    | Ok ps =>
        set_joint_positions_clamped arm ps ;;;
        t <- end_transform arm ;;
        Ret (Ok (calc_pose_diff_with_constraints target t ops))
    end.

  (** ik.rs:307-320: the indices of the ignored joints, or the error *)
  Fixpoint ignored_indices (arm : chain) (names : list string) : prog T (result T (list nat)) :=
    match names with
    | [] => Ret (Ok [])
    | nm :: names =>
        o <- positionM (fun a => read a (fun n : node T => String.eqb (j_name (n_joint n)) nm))
               (c_movable arm) ;;
        match o with
        | Some i =>
            r <- ignored_indices arm names ;;
            Ret (match r with Ok l => Ok (i :: l) | Err e => Err e end)
        | None => Ret (Err (InvalidJointNameError nm))
        end
    end.

  (** ik.rs:323-339, 340-345; [n] iterations remain, [last] is
      [last_target_distance] *)
  Definition reached (s : solver) (lr : vec3 T * vec3 T) : bool :=
    slt (vnorm (fst lr)) (allowable_target_distance s) &&
    slt (vnorm (snd lr)) (allowable_target_angle s).
  Fixpoint ik_loop (ovf : bool) (la : linalg T) (s : solver) (arm : chain) (target : iso T)
      (ops : list bool) (idx : list nat) (orig : list T)
      (n : nat) (last : option (vec3 T * vec3 T)) : prog T (result T unit) :=
    match n with
    | 0 =>
        r <- set_joint_positions arm orig ;;
        match r with
        | Err e => Ret (Err e)
        | Ok _ =>
            lr <- expect last "called `Option::unwrap()` on a `None` value" ;;
            Ret (Err (NotConvergedError (num_max_try s) (fst lr) (snd lr)))
        end
    | S n =>
        r <- solve_one_loop_with_constraints ovf la s arm target ops idx ;;
        match r with
        | Err e => Ret (Err e)
        | Ok diff =>
            let lr := target_diff_to_len_rot_diff diff ops in
            if reached s lr then
              ps <- joint_positions arm ;;
              set_joint_positions_clamped arm ps ;;;
              Ret (Ok tt)
            else ik_loop ovf la s arm target ops idx orig n (Some lr)
        end
    end.

  (** ik.rs:291-346 *)
  Definition solve_with_constraints_internal (ovf : bool) (la : linalg T) (s : solver)
      (arm : chain) (target : iso T) (c : constraints) : prog T (result T unit) :=
    let ops := define_operational_space c in
    let required := count_true ops in
    orig <- joint_positions arm ;;
    available <- usize_sub ovf (dof arm) (length (ignored_joint_names c)) ;;
    if decide (available < N.of_nat required)%N then
      Ret (Err (PreconditionError (N.to_nat available) required))
    else
      ri <- ignored_indices arm (ignored_joint_names c) ;;
      match ri with
      | Err e => Ret (Err e)
      | Ok idx =>
          ik_loop ovf la s arm target ops (sort_unstable idx) orig (num_max_try s) None
      end.

  (** ik.rs:457-469 *)
  Definition solve_with_constraints (ovf : bool) (la : linalg T) (s : solver)
      (arm : chain) (target : iso T) (c : constraints) : prog T (result T unit) :=
    orig <- joint_positions arm ;;
    re <- solve_with_constraints_internal ovf la s arm target c ;;
    if is_err re then
      r <- set_joint_positions arm orig ;;
      match r with Err e => Ret (Err e) | Ok _ => Ret re end
    else Ret re.

  (** ik.rs:423-425 *)
  Definition solve (ovf : bool) (la : linalg T) (s : solver) (arm : chain) (target : iso T)
      : prog T (result T unit) :=
    solve_with_constraints ovf la s arm target default_constraints.

  (** ik.rs:488-502; the outer [None] is the failed [assert_eq!], the inner one
      the out of range [positions[i]] *)
  Fixpoint nullspace_rows (ref w pos : list T) : option (list T) :=
    match ref, w with
    | r :: ref, x :: w =>
        match pos with
        | p :: pos => cons (smul x (ssub p r)) <$> nullspace_rows ref w pos
        | [] => None
        end
    | _, _ => Some []
    end.
  Definition create_reference_positions_nullspace_function (ref w : list T)
      : option (list T -> option (list T)) :=
    if decide (length ref = length w) then Some (nullspace_rows ref w) else None.
End IkM.
Arguments solver : clear implicits.
