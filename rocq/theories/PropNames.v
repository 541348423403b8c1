(** * C90: the list of ignored joints *)
From Coq Require Import String NArith ZArith Floats.SpecFloat Sorting.Sorted.
From stdpp Require Import gmap.
From Verif Require Import Scalar ScalarF Geometry Joint Link Prog NodeM ChainM FuncsM IkM RunLemmas
  SpecJoint SpecNode SpecGraph GraphProofs LinkProofs SpecChain ChainProofs SpecFK FKProofs SpecIk IkProofs IkProofs2
  SpecStep StepProofs SpecVerdict VerdictProofs NamesProofs Ex PropGraph PropChain PropFK PropIk PropStep.

Section Props.
  Context {T : Type} `{Sc : Scalar T}.
  Implicit Types (h : gmap nat (node T)).

  (** the order of the names does not matter, as long as the arm has all of them *)
  Theorem C90_order t ovf (la : linalg T) (sv : solver T) h nx arm target c c' :
    chain_of h (c_nodes arm) arm -> flags c' = flags c -> ignored_joint_names c' ≡ₚ ignored_joint_names c ->
    (forall nm, nm ∈ ignored_joint_names c -> exists i, first_named h (c_movable arm) nm i) ->
    run t (solve_with_constraints ovf la sv arm target c') (quiet h nx) = run t (solve_with_constraints ovf la sv arm target c) (quiet h nx).
  Proof. exact (order_lemma t ovf la sv h nx arm target c c'). Qed.

  (** repeating the name of the first joint makes the solver panic, with or without
      overflow checks *)
  Theorem C90_first_twice t ovf (la : linalg T) (sv : solver T) h nx arm target c idx :
    chain_of h (c_nodes arm) arm -> all_live h (c_nodes arm) -> parents_first h (c_nodes arm) ->
    (N.of_nat (c_dof arm) < 2 ^ 64)%N -> num_max_try sv <> 0 ->
    ignored_at h arm c (0 :: 0 :: idx) -> count (flags c) + length (ignored_joint_names c) <= c_dof arm ->
    exists m s, run t (solve_with_constraints ovf la sv arm target c) (quiet h nx) = Panicked m s.
  Proof. exact (first_twice_lemma t ovf la sv h nx arm target c idx). Qed.

  (** an iteration for which joint number j + 1 was named twice: the system is solved
      without the joints j and j + 1, and its solution moves the joints other than
      j + 1 and j + 2 *)
  Theorem C90_twice t ovf (la : linalg T) (sv : solver T) h nx arm target c j cols h1 w x :
    chain_of h (c_nodes arm) arm -> all_live h (c_nodes arm) -> NoDup (c_movable arm) ->
    run t (end_transform arm) (quiet h nx) = Done w (quiet h nx) ->
    run t (jacobian arm) (quiet h nx) = Done (Mat 6 cols) (quiet h1 nx) ->
    count (flags c) + 2 < c_dof arm -> S (S j) < c_dof arm -> nullspace_function sv = None ->
    svd_solve la (reduced (flags c) [j; S j] cols) (flagged (flags c) (calc_pose_diff target w)) = Some x -> length x + 2 = c_dof arm ->
    exists full, length full = c_dof arm /\ spread_to [S j; S (S j)] x full /\
      moved_by t h nx arm target c (jacobian_multiplier sv) full
        (run t (solve_one_loop_with_constraints ovf la sv arm target (flags c) [S j; S j]) (quiet h nx)).
  Proof.
    intros Hc Hl Hnd Hw HJ Hreq Hj Hn Hx Hlx.
    destruct (step_twice t ovf la sv h nx arm target (flags c) j cols h1 w x Hc Hl Hnd eq_refl Hw HJ Hreq Hj Hn Hx Hlx) as (full & H1 & H2 & H3).
    exists full. split; [exact H1|]. split; [exact H2|]. apply moved_by_intro. exact H3.
  Qed.
  (** so the joint before the repeated one gets the correction computed for the joint
      after it, and that joint gets none *)
  Theorem C90_mixed_up (j : nat) (cols : list (list T)) (x full : list T) :
    spread_to [S j; S (S j)] x full -> S (S j) < length cols -> length x + 2 = length cols ->
    without [j; S j] cols !! j = cols !! S (S j) /\ full !! j = x !! j /\ full !! S (S j) = Some szero.
  Proof.
    intros [Hw Hz] Hj Hlx. split; [|split; [|apply Hz; set_solver]].
    - unfold without. rewrite without_from_cons by first [lia | repeat constructor]. rewrite Nat.sub_0_r.
      rewrite lookup_app_r by (rewrite take_length; lia). rewrite take_length. replace (j - j `min` length cols) with 0 by lia.
      destruct (drop (S j) cols) as [|y l] eqn:E; [apply (f_equal length) in E; rewrite drop_length in E; cbn in E; lia|].
      cbn [without_from]. rewrite decide_True by set_solver. assert (El : l = drop (S (S j)) cols).
      { replace (S (S j)) with (S j + 1) by lia. rewrite <- drop_drop, E. reflexivity. }
      rewrite without_from_none by (intros k Hk; apply elem_of_list_singleton in Hk as ->; lia). rewrite El, lookup_drop, Nat.add_0_r. reflexivity.
    - rewrite <- Hw. unfold without. destruct (decide (j < length full)) as [Hlt|Hge].
      + assert (E : full = take (S j) full ++ drop (S j) full) by (symmetry; apply take_drop). rewrite E at 2. rewrite without_from_app.
        rewrite without_from_none by (intros k Hk; rewrite take_length; rewrite !elem_of_cons, elem_of_nil in Hk; destruct Hk as [->|[->|[]]]; lia).
        rewrite lookup_app_l by (rewrite take_length; lia). rewrite lookup_take by lia. reflexivity.
      + assert (Hsj : full !! S j = Some szero) by (apply Hz; set_solver). apply lookup_lt_Some in Hsj. lia.
  Qed.
  (** the last joint named twice: the iteration panics *)
  Theorem C90_last_twice t ovf (la : linalg T) (sv : solver T) h nx arm target c j cols h1 w x :
    chain_of h (c_nodes arm) arm -> all_live h (c_nodes arm) ->
    run t (end_transform arm) (quiet h nx) = Done w (quiet h nx) ->
    run t (jacobian arm) (quiet h nx) = Done (Mat 6 cols) (quiet h1 nx) ->
    count (flags c) + 2 < c_dof arm -> S (S j) = c_dof arm -> nullspace_function sv = None ->
    svd_solve la (reduced (flags c) [j; S j] cols) (flagged (flags c) (calc_pose_diff target w)) = Some x -> length x + 2 = c_dof arm ->
    exists m s, run t (solve_one_loop_with_constraints ovf la sv arm target (flags c) [S j; S j]) (quiet h nx) = Panicked m s.
  Proof. intros Hc Hl. exact (step_last_twice t ovf la sv h nx arm target (flags c) j cols h1 w x Hc Hl eq_refl). Qed.
End Props.
Print Assumptions C90_order.
Print Assumptions C90_first_twice.
Print Assumptions C90_twice.
Print Assumptions C90_mixed_up.
Print Assumptions C90_last_twice.

(** ** a slide along x that carries three slides along z *)
Definition bench : prog spec_float unit :=
  a <- node_new (builder_finalize "j0" (Linear x_axis) None iso1) ;; b <- node_new (lin_at "j1" iso1) ;;
  c <- node_new (lin_at "j2" iso1) ;; d <- node_new (lin_at "j3" iso1) ;;
  node_set_parent b a ;;; node_set_parent c b ;;; node_set_parent d c.
Definition bench4 : chain := Chain [0; 1; 2; 3] [0; 1; 2; 3] 4.
(** the least-norm solution for one row *)
Definition la_row : linalg spec_float :=
  let entry := fun k : list spec_float => nth 0 k (f 0) in
  Linalg (fun _ _ => None)
    (fun m b => let n := foldl sadd (f 0) (map (fun k => smul (entry k) (entry k)) (m_cols m)) in
       Some (map (fun k => sdiv (smul (entry k) (nth 0 b (f 0))) n) (m_cols m))) (fun _ => None).
Lemma bench_hyps : let s := after bench in
  chain_of (heap s) (c_nodes bench4) bench4 /\ all_live (heap s) (c_nodes bench4) /\ parents_first (heap s) (c_nodes bench4) /\ plain (heap s) (c_movable bench4).
Proof.
  cbn zeta. split; [unfold chain_of; vm_compute; repeat split|]. split; [apply all_live_check; vm_compute; reflexivity|].
  split; [apply parents_first_check; vm_compute; reflexivity|]. apply plain_check; [cbn; repeat constructor; set_solver|vm_compute; reflexivity].
Qed.
(** joint j1 named once or twice: the answer is Ok both times, but named twice it
    makes j0 move sideways, which does not bring the end any higher, and keeps j2
    still *)
Theorem C90_twice_refuted : let s := after bench in
  let p := fun names => solve_with_constraints true la_row (sv1 5) bench4 (up 4) (only_z names) in
  chain_of (heap s) (c_nodes bench4) bench4 /\ all_live (heap s) (c_nodes bench4) /\ plain (heap s) (c_movable bench4) /\
  (fst <$> final (run 0 (p ["j1"%string]) s)) = Some (Ok tt) /\
  positions bench4 (do_ (p ["j1"%string]) s) = [Some (f 0); Some (f 0); Some (f 2); Some (f 2)] /\
  (fst <$> final (run 0 (p ["j1"%string; "j1"%string]) s)) = Some (Ok tt) /\
  positions bench4 (do_ (p ["j1"%string; "j1"%string]) s) = [Some (sdiv (f 7) (f 2)); Some (f 0); Some (f 0); Some (sdiv (f 7) (f 2))].
Proof.
  cbn zeta. destruct bench_hyps as (H1 & H2 & _ & H4). split; [exact H1|]. split; [exact H2|]. split; [exact H4|].
  split; [vm_compute; reflexivity|]. split; [vm_compute; reflexivity|]. split; vm_compute; reflexivity.
Qed.
Print Assumptions C90_twice_refuted.
(** the other cases *)
Example C90_case : let s := after bench in
  let p := fun ovf names => run 0 (solve_with_constraints ovf la_row (sv1 5) bench4 (up 4) (only_z names)) s in
  (fst <$> final (p true ["j1"%string; "j0"%string])) = Some (Ok tt) /\
  (fst <$> final (p true ["j0"%string; "j1"%string])) = Some (Ok tt) /\
  (exists m s', p true ["j0"%string; "j0"%string] = Panicked m s') /\ (exists m s', p false ["j0"%string; "j0"%string] = Panicked m s') /\
  (exists m s', p true ["j3"%string; "j3"%string] = Panicked m s') /\
  ignored_at (heap s) bench4 (only_z ["j0"%string; "j0"%string]) [0; 0].
Proof.
  cbn zeta. split; [vm_compute; reflexivity|]. split; [vm_compute; reflexivity|].
  split; [eexists _, _; vm_compute; reflexivity|]. split; [eexists _, _; vm_compute; reflexivity|]. split; [eexists _, _; vm_compute; reflexivity|].
  assert (F : first_named (heap (after bench)) (c_movable bench4) "j0" 0).
  { exists 0. split; [reflexivity|]. split; [eexists; split; vm_compute; reflexivity|]. intros j b Hj. lia. }
  exists [0; 0]. split; [repeat constructor; exact F|]. split; [reflexivity|]. repeat constructor.
Qed.
