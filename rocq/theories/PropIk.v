(** * C31, C32, C34, C35, C36, C38: the inverse kinematics solver *)
From Coq Require Import String NArith ZArith Reals Floats.SpecFloat Sorting.Sorted.
From stdpp Require Import gmap.
From Verif Require Import Scalar ScalarR ScalarF Geometry Joint Link Prog NodeM ChainM FuncsM IkM
  SpecJoint SpecNode SpecChain SpecIk IkProofs IkProofs2 Ex PropGraph PropChain PropFK.

(** C31, for every scalar arithmetic with the laws of IEEE comparisons and every
    linear algebra.  [h'] is the state after the call. *)
Theorem C31_ok_means_on_target {T} `{Scalar T} `{!OrdLaws T} t ovf (la : linalg T) (sv : solver T)
    (h : gmap nat (node T)) nx arm target c s :
  chain_of h (c_nodes arm) arm -> all_live h (c_nodes arm) -> limits_ok h (c_movable arm) ->
  inside_limits h (c_movable arm) ->
  run t (solve_with_constraints ovf la sv arm target c) (quiet h nx) = Done (Ok tt) s ->
  exists h' w, s = quiet h' nx /\ run t (end_transform arm) s = Done w s /\ on_target sv c target w /\
    only_moved (c_movable arm) h h'.
Proof.
  intros H1 H2 H3 H4 H5. apply solve_ok_lemma in H5 as (h' & w & -> & H6 & _ & H7 & H8); try assumption.
  - eauto 6.
  - left. apply inside_rest. assumption.
Qed.
Print Assumptions C31_ok_means_on_target.
(** C31 from arbitrary starting positions (even NaN or out of limits), when the
    linear solver returns one correction per unknown and every joint is written:
    no ignored joints, or redundant freedom. *)
Theorem C31_any_start {T} `{Scalar T} `{!OrdLaws T} t ovf (la : linalg T) (sv : solver T)
    (h : gmap nat (node T)) nx arm target c s :
  chain_of h (c_nodes arm) arm -> all_live h (c_nodes arm) -> limits_ok h (c_movable arm) ->
  sized la -> ignored_joint_names c = [] \/
    count_true (define_operational_space c) + length (ignored_joint_names c) < c_dof arm ->
  run t (solve_with_constraints ovf la sv arm target c) (quiet h nx) = Done (Ok tt) s ->
  exists h' w, s = quiet h' nx /\ run t (end_transform arm) s = Done w s /\ on_target sv c target w /\
    only_moved (c_movable arm) h h'.
Proof.
  intros H1 H2 H3 H4 H5 H6. apply solve_ok_lemma in H6 as (h' & w & -> & H6 & _ & H7 & H8); eauto 6.
Qed.
Print Assumptions C31_any_start.
Theorem C31_solve {T} `{Scalar T} `{!OrdLaws T} t ovf (la : linalg T) (sv : solver T)
    (h : gmap nat (node T)) nx arm target s :
  chain_of h (c_nodes arm) arm -> all_live h (c_nodes arm) -> limits_ok h (c_movable arm) ->
  inside_limits h (c_movable arm) \/ sized la ->
  run t (solve ovf la sv arm target) (quiet h nx) = Done (Ok tt) s ->
  exists h' w, s = quiet h' nx /\ run t (end_transform arm) s = Done w s /\
    slt (vnorm (vsub (tr target) (tr w))) (allowable_target_distance sv) = true /\
    slt (vnorm (qscaled_axis (qmul (rt target) (qconj (rt w))))) (allowable_target_angle sv) = true.
Proof.
  intros H1 H2 H3 [H4|H4] H5.
  - apply C31_ok_means_on_target in H5 as (h' & w & -> & Hw & [Hd Ha] & _); try assumption. eauto 8.
  - apply C31_any_start in H5 as (h' & w & -> & Hw & [Hd Ha] & _); try assumption; [eauto 8|left; reflexivity].
Qed.
Print Assumptions C31_solve.

(** *** concrete arms *)
(** solves one equation in one unknown, or proposes 1 for each of three unknowns *)
Definition la1 : linalg spec_float := Linalg
  (fun m b => match m_cols m, b with [[a]], [x] => Some [sdiv x a] | _, _ => None end)
  (fun m b => Some (map (fun _ => f 1) (m_cols m))) (fun m => None).
Definition only_z (names : list string) : constraints := Constraints false false true false false false names.
Definition sv1 (n : nat) : solver spec_float := Solver (f 1) (f 1) (f 1) n None.
Definition up (z : Z) : iso spec_float := trans 0 0 z.
(** a pole of three sliding joints with limits [0, 10], [0, 10] and none *)
Definition pole : prog spec_float unit :=
  a <- node_new (lin "j0" 0 10) ;; b <- node_new (lin "j1" 0 10) ;; c <- node_new (lin_at "j2" iso1) ;;
  node_set_parent b a ;;; node_set_parent c b.
Definition pole3 : chain := Chain [0; 1; 2] [0; 1; 2] 3.
Definition pole2 : chain := Chain [0; 1] [0; 1] 2.
Definition pole1 : chain := Chain [0] [0] 1.
Definition height (c : chain) (s : sh spec_float) : option spec_float :=
  match run 0 (end_transform c) s with Done w _ => Some (vz (tr w)) | _ => None end.
Definition positions (c : chain) (s : sh spec_float) : list (option spec_float) := map (pos_of s) (c_movable c).

Lemma limits_ok_check {T} `{Scalar T} (h : gmap nat (node T)) l :
  forallb (fun a => match h !! a with
                    | Some n => match j_limits (n_joint n) with Some r => sle (rmin r) (rmax r) | None => true end
                    | None => true end) l = true -> limits_ok h l.
Proof.
  rewrite forallb_forall. intros Hl a n Ha Hn r Hr. apply elem_of_list_In, Hl in Ha. rewrite Hn, Hr in Ha. exact Ha.
Qed.
Lemma inside_check {T} `{Scalar T} (h : gmap nat (node T)) l :
  forallb (fun a => match h !! a with
                    | Some n => match j_limits (n_joint n) with
                                | Some r => sle (rmin r) (j_position (n_joint n)) && sle (j_position (n_joint n)) (rmax r)
                                | None => true end
                    | None => true end) l = true -> inside_limits h l.
Proof.
  rewrite forallb_forall. intros Hl a n Ha Hn r Hr. apply elem_of_list_In, Hl in Ha. rewrite Hn, Hr in Ha.
  apply andb_prop in Ha. exact Ha.
Qed.
Lemma EF_OrdLaws : OrdLaws spec_float.
Proof. exact (F_OrdLaws 53 1024 L0). Qed.

Example C31_case : let s := after pole in let s' := do_ (solve_with_constraints true la1 (sv1 5) pole1 (up 7) (only_z [])) s in
  chain_of (heap s) (c_nodes pole1) pole1 /\ all_live (heap s) (c_nodes pole1) /\
  limits_ok (heap s) (c_movable pole1) /\ inside_limits (heap s) (c_movable pole1) /\
  (fst <$> final (run 0 (solve_with_constraints true la1 (sv1 5) pole1 (up 7) (only_z [])) s)) = Some (Ok tt) /\
  height pole1 s' = Some (f 7).
Proof.
  cbn zeta. split; [unfold chain_of; vm_compute; repeat split|]. split; [apply all_live_check; vm_compute; reflexivity|].
  split; [apply limits_ok_check; vm_compute; reflexivity|]. split; [apply inside_check; vm_compute; reflexivity|].
  vm_compute. split; reflexivity.
Qed.
(** C31 fails for a joint that starts outside its limits and is not written by the
    iterations (an ignored joint and no redundant freedom): the solver reaches
    height 25 and reports success, but the last clamping of all joints drops the
    arm to 15. *)
Definition bad_start : prog spec_float unit := pole ;;; node_set_joint_position_unchecked 1 (f 20).
Theorem C31_out_of_limits_start_refuted :
  let s := after bad_start in let p := solve_with_constraints true la1 (sv1 5) pole2 (up 25) (only_z ["j0"%string]) in
  chain_of (heap s) (c_nodes pole2) pole2 /\ all_live (heap s) (c_nodes pole2) /\ limits_ok (heap s) (c_movable pole2) /\
  (fst <$> final (run 0 p s)) = Some (Ok tt) /\
  height pole2 (do_ p s) = Some (f 15) /\
  slt (vnorm (position_error (only_z []) (up 25) (up 15))) (allowable_target_distance (sv1 5)) = false.
Proof.
  cbn zeta. split; [unfold chain_of; vm_compute; repeat split|]. split; [apply all_live_check; vm_compute; reflexivity|].
  split; [apply limits_ok_check; vm_compute; reflexivity|]. vm_compute. repeat split.
Qed.
Print Assumptions C31_out_of_limits_start_refuted.

(** C32 *)
Theorem C32_err_restores {T} `{Scalar T} t ovf (la : linalg T) (sv : solver T) (h : gmap nat (node T)) nx arm target c e s :
  chain_of h (c_nodes arm) arm -> all_live h (c_nodes arm) -> plain h (c_movable arm) -> inside_limits h (c_movable arm) ->
  run t (solve_with_constraints ovf la sv arm target c) (quiet h nx) = Done (Err e) s ->
  exists h', s = quiet h' nx /\ heaps same_but_caches h h'.
Proof. exact (solve_err_lemma t ovf la sv h nx arm target c e s). Qed.
Print Assumptions C32_err_restores.
Example C32_case : let s := after pole in let p := solve_with_constraints true la1 (sv1 4) pole3 (up 30) (only_z []) in
  chain_of (heap s) (c_nodes pole3) pole3 /\ all_live (heap s) (c_nodes pole3) /\ plain (heap s) (c_movable pole3) /\
  inside_limits (heap s) (c_movable pole3) /\
  (fst <$> final (run 0 p s)) = Some (Err (NotConvergedError 4 (V3 (f 0) (f 0) (f 18)) (V3 (f 0) (f 0) (f 0)))) /\
  positions pole3 (do_ p s) = [Some (f 0); Some (f 0); Some (f 0)].
Proof.
  cbn zeta. split; [unfold chain_of; vm_compute; repeat split|]. split; [apply all_live_check; vm_compute; reflexivity|].
  split; [apply plain_check; [cbn; repeat constructor; set_solver|vm_compute; reflexivity]|].
  split; [apply inside_check; vm_compute; reflexivity|]. vm_compute. split; reflexivity.
Qed.
(** a mimic child whose mimic parent is not in the arm stays moved *)
Definition follower : prog spec_float unit :=
  a <- node_new (lin_at "source" iso1) ;; b <- node_new (lin_at "follower" iso1) ;;
  node_set_mimic_parent b a (Mimic (f 1) (f 0)).
Theorem C32_mimic_child_refuted :
  let s := after follower in let arm := Chain [1] [1] 1 in
  let p := solve_with_constraints true (Linalg (fun _ _ => Some [f 2]) (fun _ _ => None) (fun _ => None))
             (sv1 1) arm (up 30) (only_z []) in
  chain_of (heap s) (c_nodes arm) arm /\ inside_limits (heap s) (c_movable arm) /\
  (fst <$> final (run 0 p s)) = Some (Err (NotConvergedError 1 (V3 (f 0) (f 0) (f 28)) (V3 (f 0) (f 0) (f 0)))) /\
  pos_of s 1 = Some (f 0) /\ pos_of (do_ p s) 1 = Some (f 2).
Proof.
  cbn zeta. split; [unfold chain_of; vm_compute; repeat split|]. split; [apply inside_check; vm_compute; reflexivity|].
  vm_compute. repeat split.
Qed.
Print Assumptions C32_mimic_child_refuted.
(** a joint that starts outside its limits replaces the error and leaves the joints
    after it moved *)
Theorem C32_out_of_limits_start_refuted :
  let s := after bad_start in let p := solve_with_constraints true la1 (sv1 1) pole3 (up 50) (only_z []) in
  chain_of (heap s) (c_nodes pole3) pole3 /\ plain (heap s) (c_movable pole3) /\
  (fst <$> final (run 0 p s)) = Some (Err (OutOfLimitError "j1" (f 20) (f 10) (f 0))) /\
  positions pole3 s = [Some (f 0); Some (f 20); Some (f 0)] /\
  positions pole3 (do_ p s) = [Some (f 0); Some (f 10); Some (f 1)].
Proof.
  cbn zeta. split; [unfold chain_of; vm_compute; repeat split|].
  split; [apply plain_check; [cbn; repeat constructor; set_solver|vm_compute; reflexivity]|].
  vm_compute. repeat split.
Qed.
Print Assumptions C32_out_of_limits_start_refuted.

(** C34: over the reals an ignored joint stays exactly where it was. *)
Theorem C34_ignored_real t ovf (la : linalg R) (sv : solver R) (h : gmap nat (node R)) nx arm target c s :
  chain_of h (c_nodes arm) arm -> all_live h (c_nodes arm) -> NoDup (c_movable arm) -> limits_ok h (c_movable arm) ->
  inside_limits h (c_movable arm) -> NoDup (ignored_joint_names c) ->
  count_true (define_operational_space c) + length (ignored_joint_names c) < c_dof arm ->
  run t (solve_with_constraints ovf la sv arm target c) (quiet h nx) = Done (Ok tt) s ->
  forall nm j a, nm ∈ ignored_joint_names c -> first_named h (c_movable arm) nm j -> c_movable arm !! j = Some a ->
    position_at (heap s) a = position_at h a.
Proof.
  intros Hc Hl Hnd Hlim Hin Hn Hlt E nm j a Hnm Hj Ha.
  apply (solve_ignored_lemma eq) in E as (h' & -> & HE); try assumption; [|reflexivity|congruence| | |apply inside_rest; assumption].
  - destruct (movable_live _ _ _ Hc a) as [n Hna]; [eapply elem_of_list_lookup_2; exact Ha|].
    assert (Hp : position_at h a = Some (j_position (n_joint n))) by (unfold position_at; rewrite Hna; reflexivity).
    destruct (HE nm j a _ Hnm Hj Ha Hp) as (p' & Hp' & <-). rewrite Hp. exact Hp'.
  - intros x. symmetry. apply real_add_zero.
  - intros r x y -> Hx. exact Hx.
Qed.
Print Assumptions C34_ignored_real.
(** C34 for f32, f64 and every other IEEE format: the same number (a negative zero
    may become a positive one). *)
Theorem C34_ignored_float prec emax L t ovf (la : linalg spec_float) (sv : solver spec_float)
    (h : gmap nat (node spec_float)) nx arm target c s :
  let F := FScalar prec emax L in
  chain_of h (c_nodes arm) arm -> all_live h (c_nodes arm) -> NoDup (c_movable arm) -> limits_ok (Sc := F) h (c_movable arm) ->
  inside_limits (Sc := F) h (c_movable arm) -> NoDup (ignored_joint_names c) -> finite (jacobian_multiplier sv) ->
  count_true (define_operational_space c) + length (ignored_joint_names c) < c_dof arm ->
  run t (solve_with_constraints (Sc := F) ovf la sv arm target c) (quiet h nx) = Done (Ok tt) s ->
  forall nm j a p, nm ∈ ignored_joint_names c -> first_named h (c_movable arm) nm j -> c_movable arm !! j = Some a ->
    position_at h a = Some p -> exists p', position_at (heap s) a = Some p' /\ same_number p p'.
Proof.
  cbn zeta. intros Hc Hl Hnd Hlim Hin Hn Hm Hlt E nm j a p Hnm Hj Ha Hp. pose proof (F_OrdLaws prec emax L) as OL.
  apply (solve_ignored_lemma (OL := OL) same_number) in E as (h' & -> & HE); try assumption.
  - exact (HE nm j a p Hnm Hj Ha Hp).
  - intros x. left. reflexivity.
  - exact same_number_trans.
  - intros x. apply float_add_zero. assumption.
  - intros r x y. apply float_clamp_same.
  - apply (inside_rest (OL := OL)). assumption.
Qed.
Print Assumptions C34_ignored_float.
(** C34, one iteration, any scalar: the exact position computed for an ignored joint
    ([ops] the constraints, [idx] the sorted distinct indices of the ignored ones). *)
Theorem C34_one_iteration {T} `{Scalar T} t ovf (la : linalg T) (sv : solver T) (h h' : gmap nat (node T)) nx arm target ops idx diff :
  chain_of h (c_nodes arm) arm -> all_live h (c_nodes arm) -> NoDup (c_movable arm) ->
  StronglySorted lt idx -> count_true ops + length idx < c_dof arm ->
  run t (solve_one_loop_with_constraints ovf la sv arm target ops idx) (quiet h nx) = Done (Ok diff) (quiet h' nx) ->
  forall j a n, j ∈ idx -> c_movable arm !! j = Some a -> h !! a = Some n ->
    position_at h' a = Some (clamp_to (j_limits (n_joint n)) (sadd (j_position (n_joint n)) (smul (jacobian_multiplier sv) szero))).
Proof. exact (one_loop_ignored t ovf la sv h h' nx arm target ops idx diff). Qed.
Print Assumptions C34_one_iteration.
(** C34, no redundant freedom: the corrections go to the first joints in order,
    ignored or not. *)
Theorem C34_square_branch {T} `{Scalar T} t ovf (la : linalg T) (sv : solver T) (h h' : gmap nat (node T)) nx arm target ops idx diff :
  chain_of h (c_nodes arm) arm -> all_live h (c_nodes arm) -> NoDup (c_movable arm) ->
  count_true ops + length idx = c_dof arm ->
  run t (solve_one_loop_with_constraints ovf la sv arm target ops idx) (quiet h nx) = Done (Ok diff) (quiet h' nx) ->
  exists d : list T, forall j a n x, c_movable arm !! j = Some a -> h !! a = Some n -> d !! j = Some x ->
    position_at h' a = Some (clamp_to (j_limits (n_joint n)) (sadd (j_position (n_joint n)) (smul (jacobian_multiplier sv) x))).
Proof. exact (one_loop_square t ovf la sv h h' nx arm target ops idx diff). Qed.
Print Assumptions C34_square_branch.
(** with redundant freedom joint j0 is left alone ... *)
Example C34_case : let s := after pole in let p := solve_with_constraints true la1 (sv1 5) pole3 (up 4) (only_z ["j0"%string]) in
  inside_limits (heap s) (c_movable pole3) /\ first_named (heap s) (c_movable pole3) "j0" 0 /\
  (fst <$> final (run 0 p s)) = Some (Ok tt) /\
  positions pole3 (do_ p s) = [Some (f 0); Some (f 2); Some (f 2)].
Proof.
  cbn zeta. split; [apply inside_check; vm_compute; reflexivity|]. split.
  { exists 0. split; [reflexivity|]. split; [eexists; split; vm_compute; reflexivity|]. intros j b Hj. lia. }
  vm_compute. split; reflexivity.
Qed.
(** ... and without it, the ignored joint j0 gets j1's correction *)
Theorem C34_equal_dof_refuted :
  let s := after pole in let p := solve_with_constraints true la1 (sv1 5) pole2 (up 7) (only_z ["j0"%string]) in
  inside_limits (heap s) (c_movable pole2) /\
  (fst <$> final (run 0 p s)) = Some (Ok tt) /\
  positions pole2 s = [Some (f 0); Some (f 0)] /\ positions pole2 (do_ p s) = [Some (f 7); Some (f 0)].
Proof. cbn zeta. split; [apply inside_check; vm_compute; reflexivity|]. vm_compute. repeat split. Qed.
Print Assumptions C34_equal_dof_refuted.

(** C35 *)
Theorem C35_precondition {T} `{Scalar T} t ovf (la : linalg T) (sv : solver T) (h : gmap nat (node T)) nx arm target c :
  chain_of h (c_nodes arm) arm -> plain h (c_movable arm) -> inside_limits h (c_movable arm) ->
  length (ignored_joint_names c) <= c_dof arm ->
  c_dof arm - length (ignored_joint_names c) < count_true (define_operational_space c) ->
  exists h', run t (solve_with_constraints ovf la sv arm target c) (quiet h nx) =
      Done (Err (PreconditionError (c_dof arm - length (ignored_joint_names c)) (count_true (define_operational_space c)))) (quiet h' nx) /\
    heaps same_but_caches h h'.
Proof. intros. apply solve_early; try assumption. apply internal_precondition; assumption. Qed.
Print Assumptions C35_precondition.
Theorem C35_unknown_name {T} `{Scalar T} t ovf (la : linalg T) (sv : solver T) (h : gmap nat (node T)) nx arm target c l1 nm l2 :
  chain_of h (c_nodes arm) arm -> plain h (c_movable arm) -> inside_limits h (c_movable arm) ->
  count_true (define_operational_space c) + length (ignored_joint_names c) <= c_dof arm ->
  ignored_joint_names c = l1 ++ nm :: l2 -> nowhere_named h (c_movable arm) nm ->
  (forall nm', nm' ∈ l1 -> ~ nowhere_named h (c_movable arm) nm') ->
  exists h', run t (solve_with_constraints ovf la sv arm target c) (quiet h nx) =
      Done (Err (InvalidJointNameError nm)) (quiet h' nx) /\ heaps same_but_caches h h'.
Proof. intros. apply solve_early; try assumption. eapply internal_unknown; eassumption. Qed.
Print Assumptions C35_unknown_name.
(** both are decided before any joint is moved, whatever the positions *)
Theorem C35_before_moving {T} `{Scalar T} t ovf (la : linalg T) (sv : solver T) (h : gmap nat (node T)) nx arm target c :
  chain_of h (c_nodes arm) arm ->
  (length (ignored_joint_names c) <= c_dof arm ->
   c_dof arm - length (ignored_joint_names c) < count_true (define_operational_space c) ->
   run t (solve_with_constraints_internal ovf la sv arm target c) (quiet h nx) =
     Done (Err (PreconditionError (c_dof arm - length (ignored_joint_names c)) (count_true (define_operational_space c)))) (quiet h nx)) /\
  (forall l1 nm l2, count_true (define_operational_space c) + length (ignored_joint_names c) <= c_dof arm ->
   ignored_joint_names c = l1 ++ nm :: l2 -> nowhere_named h (c_movable arm) nm ->
   (forall nm', nm' ∈ l1 -> ~ nowhere_named h (c_movable arm) nm') ->
   run t (solve_with_constraints_internal ovf la sv arm target c) (quiet h nx) =
     Done (Err (InvalidJointNameError nm)) (quiet h nx)).
Proof.
  intros Hc. split; [intros; apply internal_precondition; assumption|]. intros. eapply internal_unknown; eassumption.
Qed.
Print Assumptions C35_before_moving.
Theorem C35_too_many_names_panics {T} `{Scalar T} t (la : linalg T) (sv : solver T) (h : gmap nat (node T)) nx arm target c :
  chain_of h (c_nodes arm) arm -> c_dof arm < length (ignored_joint_names c) ->
  run t (solve_with_constraints true la sv arm target c) (quiet h nx) =
    Panicked "attempt to subtract with overflow" (quiet h nx).
Proof. exact (solve_overflow_panic t la sv h nx arm target c). Qed.
Print Assumptions C35_too_many_names_panics.
Theorem C35_too_many_names_never_ok {T} `{Scalar T} t ovf (la : linalg T) (sv : solver T) (h : gmap nat (node T)) nx arm target c s :
  chain_of h (c_nodes arm) arm -> all_live h (c_nodes arm) -> c_dof arm < length (ignored_joint_names c) ->
  run t (solve_with_constraints ovf la sv arm target c) (quiet h nx) <> Done (Ok tt) s.
Proof. exact (solve_wrapping_never t ovf la sv h nx arm target c s). Qed.
Print Assumptions C35_too_many_names_never_ok.
Theorem C35_no_tries_panics {T} `{Scalar T} t ovf (la : linalg T) (sv : solver T) (h : gmap nat (node T)) nx arm target c :
  num_max_try sv = 0 ->
  chain_of h (c_nodes arm) arm -> plain h (c_movable arm) -> inside_limits h (c_movable arm) ->
  count_true (define_operational_space c) + length (ignored_joint_names c) <= c_dof arm ->
  (forall nm, nm ∈ ignored_joint_names c -> ~ nowhere_named h (c_movable arm) nm) ->
  exists h', run t (solve_with_constraints ovf la sv arm target c) (quiet h nx) =
    Panicked "called `Option::unwrap()` on a `None` value" (quiet h' nx).
Proof. exact (solve_no_tries t ovf la sv h nx arm target c). Qed.
Print Assumptions C35_no_tries_panics.
Example C35_case : let s := after pole in
  let go ovf n c cs := run 0 (solve_with_constraints ovf la1 (sv1 n) c (up 4) cs) s in
  chain_of (heap s) (c_nodes pole2) pole2 /\ plain (heap s) (c_movable pole2) /\ inside_limits (heap s) (c_movable pole2) /\
  (fst <$> final (go true 3 pole2 default_constraints)) = Some (Err (PreconditionError 2 6)) /\
  (fst <$> final (go true 3 pole2 (only_z ["nobody"%string]))) = Some (Err (InvalidJointNameError "nobody")) /\
  (match go true 3 pole2 (only_z ["a"; "b"; "c"]%string) with Panicked m _ => m | _ => ""%string end) = "attempt to subtract with overflow"%string /\
  (match go false 3 pole2 (only_z ["j0"; "j1"; "j0"]%string) with Panicked m _ => m | _ => ""%string end) = "index out of range"%string /\
  (match go true 0 pole2 (only_z []) with Panicked m _ => m | _ => ""%string end) = "called `Option::unwrap()` on a `None` value"%string.
Proof.
  cbn zeta. split; [unfold chain_of; vm_compute; repeat split|].
  split; [apply plain_check; [cbn; repeat constructor; set_solver|vm_compute; reflexivity]|].
  split; [apply inside_check; vm_compute; reflexivity|]. vm_compute. repeat split.
Qed.

(** C36: the enabled coordinates, in order *)
Theorem C36_masked_difference {T} `{Scalar T} (c : constraints) (a b : iso T) :
  let d := qscaled_axis (qmul (rt a) (qconj (rt b))) in
  calc_pose_diff_with_constraints a b (define_operational_space c) =
    (if position_x c then [ssub (vx (tr a)) (vx (tr b))] else []) ++
    (if position_y c then [ssub (vy (tr a)) (vy (tr b))] else []) ++
    (if position_z c then [ssub (vz (tr a)) (vz (tr b))] else []) ++
    (if rotation_x c then [vx d] else []) ++
    (if rotation_y c then [vy d] else []) ++
    (if rotation_z c then [vz d] else []).
Proof. destruct c as [[] [] [] [] [] [] names]; reflexivity. Qed.
Print Assumptions C36_masked_difference.
Theorem C36_spread_again {T} `{Scalar T} (c : constraints) (a b : iso T) :
  target_diff_to_len_rot_diff (calc_pose_diff_with_constraints a b (define_operational_space c)) (define_operational_space c)
  = (position_error c a b, rotation_error c a b).
Proof. exact (masked_norms c a b). Qed.
Print Assumptions C36_spread_again.
(** the rows removed from a matrix of six rows *)
Theorem C36_rows_kept {T} `{Scalar T} t ovf (c : constraints) (cols : list (list T)) s :
  Forall (fun col => length col = 6) cols ->
  run t (remove_rows ovf 0 0 (define_operational_space c) (Mat 6 cols)) s =
  Done (Mat (count_true (define_operational_space c))
          (map (fun col => concat (zip_with (fun (b : bool) x => if b then [x] else []) (define_operational_space c) col)) cols)) s.
Proof.
  intros Hc. pose proof (run_remove_rows t ovf (define_operational_space c) 0 0 0 cols s eq_refl) as Hr.
  cbn [Nat.add take drop app] in Hr. change (length (define_operational_space c)) with 6 in Hr. rewrite Hr by exact Hc.
  do 2 f_equal. apply map_ext_in. intros col Hin. rewrite Forall_forall in Hc.
  specialize (Hc col (proj2 (elem_of_list_In _ _) Hin)). rewrite skipn_O. apply select_all. rewrite Hc. reflexivity.
Qed.
Print Assumptions C36_rows_kept.
(** and the matrix the solver computes has six rows *)
Theorem C36_jacobian_shape {T} `{Scalar T} t (h : gmap nat (node T)) nx arm J s :
  all_live h (c_nodes arm) -> run t (jacobian arm) (quiet h nx) = Done J s ->
  m_rows J = 6 /\ length (m_cols J) = c_dof arm /\ Forall (fun col => length col = 6) (m_cols J).
Proof. intros Hl E. apply jacobian_done in E as (h' & _ & _ & Hj); assumption. Qed.
Print Assumptions C36_jacobian_shape.
Example C36_case :
  calc_pose_diff_with_constraints (up 5) (up 2) (define_operational_space (only_z [])) = [f 3] /\
  (fst <$> final (run 0 (remove_rows true 0 0 (define_operational_space (only_z []))
     (Mat 6 [[f 1; f 2; f 3; f 4; f 5; f 6]])) empty_sh)) = Some (Mat 1 [[f 3]]).
Proof. vm_compute. split; reflexivity. Qed.

(** C38 *)
Theorem C38_nullspace {T} `{Scalar T} (ref w : list T) :
  (create_reference_positions_nullspace_function ref w = None <-> length ref <> length w) /\
  forall g, create_reference_positions_nullspace_function ref w = Some g -> forall pos,
    (length ref <= length pos ->
      exists v, g pos = Some v /\ length v = length ref /\
        forall i r x p, ref !! i = Some r -> w !! i = Some x -> pos !! i = Some p -> v !! i = Some (smul x (ssub p r))) /\
    (length pos < length ref -> g pos = None).
Proof.
  unfold create_reference_positions_nullspace_function. split.
  - case_decide as Hd; split; congruence.
  - case_decide as Hd; [|discriminate]. intros g E pos. injection E as <-. apply nullspace_rows_spec. assumption.
Qed.
Print Assumptions C38_nullspace.
Example C38_case :
  (g ← create_reference_positions_nullspace_function [f 1; f 2] [f 3; f 1]; g [f 5; f 5; f 9]) = Some [f 12; f 3] /\
  (g ← create_reference_positions_nullspace_function [f 1; f 2] [f 3; f 1]; g [f 5]) = None /\
  create_reference_positions_nullspace_function [f 1; f 2] [f 3] = None.
Proof. vm_compute. repeat split. Qed.
