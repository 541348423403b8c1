(** * C66: the LU solve of the solver over the reals *)
From Coq Require Import String NArith Reals Lra Sorting.Sorted.
From stdpp Require Import gmap.
From Verif Require Import Scalar ScalarR Geometry Joint Link Prog NodeM ChainM FuncsM IkM LuM RunLemmas
  SpecJoint SpecNode SpecGraph GraphProofs SpecChain ChainProofs SpecFK FKProofs SpecIk JacProofs SpecGeom RGeom GeomProofs JacReal PoseDiff
  SpecStep SpecLin IkProofs StepProofs LinAlgR LinArm LinIk LuProofs TrajProofs PropGeom PropJac PropIk PropStep PropTraj.
From Verif Require Ex.
Local Open Scope R_scope.

(** C66: the answer is the solution, and the only one *)
Theorem C66_lu_exact (J : mat R) n b x : shaped J n n -> length b = n -> na_lu_solve J b = Some x ->
  solves J x b /\ (forall x', solves J x' b -> x' = x) /\ regular J.
Proof.
  intros (Hr & Hn & Hc) Hb E. unfold na_lu_solve in E. rewrite decide_True in E by (rewrite Hr; auto).
  rewrite Hr in E. rewrite gauss_lu in E by (try split; assumption).
  pose proof (gauss_spec n (m_cols J) b (conj Hn Hc) Hb) as H. rewrite E in H. destruct H as (Hx & Hs & Hu).
  assert (Hu' : forall x', solves J x' b -> x' = x).
  { intros x' [H1 H2]. apply Hu; [congruence|]. rewrite Hr in H2. exact H2. }
  split; [split; [congruence|rewrite Hr; exact Hs]|]. split; [exact Hu'|].
  intros z [Hz Hz0]. rewrite Hr in Hz0. rewrite <- Hz. apply (combine_unique n (m_cols J) b x Hc); try assumption; [congruence|].
  intros x' H1 H2. apply Hu; congruence.
Qed.
Print Assumptions C66_lu_exact.
(** C66: no answer if and only if the columns are dependent *)
Theorem C66_lu_singular (J : mat R) n b : shaped J n n -> length b = n -> na_lu_solve J b = None <-> ~ regular J.
Proof.
  intros (Hr & Hn & Hc) Hb. split.
  - intros E Hreg. unfold na_lu_solve in E. rewrite decide_True in E by (rewrite Hr; auto).
    rewrite Hr in E. rewrite gauss_lu in E by (try split; assumption).
    pose proof (gauss_spec n (m_cols J) b (conj Hn Hc) Hb) as H. rewrite E in H. destruct H as (z & Hz & (y & Hy & Hy0) & Hz0).
    assert (Ez : z = zeros (length (m_cols J))) by (apply Hreg; split; [congruence|rewrite Hr; exact Hz0]).
    rewrite Ez in Hy. apply elem_of_list_In, repeat_spec in Hy. contradiction.
  - intros Hreg. destruct (na_lu_solve J b) as [x|] eqn:E; [|reflexivity].
    exfalso. apply Hreg. eapply C66_lu_exact; [exact (conj Hr (conj Hn Hc))|exact Hb|exact E].
Qed.
Print Assumptions C66_lu_singular.
(** in any arithmetic the answer has one entry for each column *)
Theorem C66_lu_length {T} `{Scalar T} (m : mat T) b x : na_lu_solve m b = Some x -> length x = length (m_cols m).
Proof.
  unfold na_lu_solve. destruct (decide _) as [(Hn & Hb & Hc)|]; [|discriminate]. rewrite gauss_lu by (try split; assumption). rewrite Hn.
  clear -Hn Hb Hc. destruct m as [n cols]. cbn in *. revert cols b x Hn Hb Hc. induction n as [|n IH]; intros cols b x Hn Hb Hc E.
  - destruct cols; [|discriminate]. injection E as <-. reflexivity.
  - destruct cols as [|c0 cs]; [discriminate|]. injection Hn as Hn. apply Forall_cons in Hc as [Hc0 Hcs]. cbn [gauss] in E.
    destruct (gauss n _ _) as [xs|] eqn:Eg; [|discriminate]. destruct (seqb _ _) eqn:Ez in E; [discriminate|]. injection E as <-. cbn [length]. f_equal.
    set (z := seqb (nth (icamax c0) c0 szero) szero) in Eg. set (k := if z then 0%nat else icamax c0) in Eg.
    assert (L0 : length (tail (swap_rows k c0)) = n) by (apply tail_length_1; rewrite swap_rows_length; exact Hc0).
    assert (Lb : length (tail (swap_rows k b)) = n) by (apply tail_length_1; rewrite swap_rows_length; exact Hb).
    eapply IH; [| | |exact Eg].
    + destruct z; rewrite !map_length; exact Hn.
    + rewrite axpy_length; destruct z; rewrite ?map_length; congruence.
    + pose proof (swap_cols _ k cs Hcs) as Hcs'. destruct z; apply Forall_map; (eapply Forall_impl; [exact Hcs'|]); cbn; intros c Ec; pose proof (tail_length_1 c n Ec) as Et.
      * exact Et.
      * rewrite axpy_length; rewrite map_length; congruence.
Qed.
Print Assumptions C66_lu_length.

(** the matrix the solver decomposes is square *)
Lemma reduced_shaped (ops : list bool) idx (cols : list (list R)) dof : length ops = 6%nat ->
  StronglySorted lt idx -> Forall (fun j => (j < dof)%nat) idx -> length cols = dof -> Forall (fun c => length c = 6%nat) cols ->
  shaped (reduced ops idx cols) (count ops) (dof - length idx).
Proof.
  intros Hops Hs Hi Hd Hc. split; [reflexivity|]. split.
  - unfold reduced. cbn [m_cols]. rewrite map_length.
    assert (Hrc : run (T := R) 0 (remove_columns true 0 idx cols) (quiet ∅ 0) = Done (without_from 0 idx cols) (quiet ∅ 0)).
    { apply run_remove_columns; [exact Hs|]. rewrite Hd. eapply Forall_impl; [exact Hi|]. cbn. intros. lia. }
    apply remove_columns_length in Hrc. unfold without. lia.
  - unfold reduced. cbn [m_cols]. apply Forall_map. eapply Forall_impl; [apply Forall_without; exact Hc|].
    cbn. intros c E. apply flagged_length. congruence.
Qed.
(** C66: an iteration on an arm with as many free joints as constrained coordinates reports
    [InverseMatrixError], with all joints where they were, exactly if the columns of the reduced
    Jacobian are dependent; otherwise it moves by the one solution of the linear system *)
Theorem C66_iteration (t : nat) ovf la (sv : solver R) h nx arm target (c : constraints) idx cols s w :
  chain_of h (c_nodes arm) arm -> all_live h (c_nodes arm) -> NoDup (c_movable arm) ->
  StronglySorted lt idx -> Forall (fun j => (j < c_dof arm)%nat) idx -> (count (flags c) + length idx = c_dof arm)%nat ->
  (forall m b, lu_solve la m b = na_lu_solve m b) ->
  run t (end_transform arm) (quiet h nx) = Done w (quiet h nx) ->
  run t (jacobian arm) (quiet h nx) = Done (Mat 6 cols) s ->
  let J := reduced (flags c) idx cols in
  let err := flagged (flags c) (pose_error target w) in
  let iteration := run t (solve_one_loop_with_constraints ovf la sv arm target (flags c) idx) (quiet h nx) in
  (~ regular J -> iteration = Done (Err InverseMatrixError) s /\ exists h', s = quiet h' nx /\ heaps same_but_caches h h') /\
  (regular J -> exists x, solves J x err /\ (forall x', solves J x' err -> x' = x) /\
     moved_by t h nx arm target c (jacobian_multiplier sv) x iteration).
Proof.
  intros Hc Hl Hnd Hs Hi Hcnt Hla Hw HJ J err iteration.
  destruct (jacobian_done t h nx arm (Mat 6 cols) s Hl HJ) as (h1 & -> & _ & _ & Hd & H6). cbn [m_cols] in Hd, H6.
  assert (HsJ : shaped J (count (flags c)) (count (flags c))).
  { pose proof (reduced_shaped (flags c) idx cols (c_dof arm) eq_refl Hs Hi Hd H6) as H. replace (c_dof arm - length idx)%nat with (count (flags c)) in H by lia. exact H. }
  assert (Herr : length err = count (flags c)) by (unfold err; apply flagged_length; reflexivity).
  destruct (C53_iteration t ovf la sv h nx arm target c idx cols h1 w Hc Hl Hnd Hs Hi Hw HJ) as [_ H]. specialize (H ltac:(lia)). destruct H as [Hsome Hnone].
  fold J in Hsome, Hnone. change (flagged (flags c) (calc_pose_diff target w)) with err in *. rewrite Hla in *. fold iteration in Hsome, Hnone. split.
  - intros Hreg. apply (C66_lu_singular J _ err HsJ Herr) in Hreg. destruct (Hnone Hreg) as [E Hh]. split; [exact E|]. eauto.
  - intros Hreg. destruct (na_lu_solve J err) as [x|] eqn:Ex.
    + destruct (C66_lu_exact J _ err x HsJ Herr Ex) as (H1 & H2 & _). exists x. auto.
    + apply (C66_lu_singular J _ err HsJ Herr) in Ex. contradiction.
Qed.
Print Assumptions C66_iteration.
(** C66: with independent columns the hypothesis of C51 and C65 about the linear algebra holds *)
Theorem C66_exact_solver (c : constraints) (cols : list (list R)) la (sv : solver R) dof b :
  length cols = dof -> Forall (fun k => length k = 6%nat) cols -> count (flags c) = dof ->
  (forall m b, lu_solve la m b = na_lu_solve m b) ->
  let J := reduced (flags c) [] cols in regular J -> length b = dof ->
  solves_exactly la sv dof (count (flags c)) 0 J /\ exists x, solves J x b.
Proof.
  intros Hd H6 Hcnt Hla J Hreg Hb.
  assert (HsJ : shaped J dof dof).
  { pose proof (reduced_shaped (flags c) [] cols dof eq_refl (SSorted_nil _) (Forall_nil_2 _) Hd H6) as H. rewrite Hcnt in H. cbn [length] in H. rewrite Nat.sub_0_r in H. exact H. }
  assert (Hsol : forall b, length b = dof -> exists x, na_lu_solve J b = Some x /\ solves J x b).
  { intros b' Hb'. destruct (na_lu_solve J b') as [x|] eqn:Ex.
    - exists x. split; [reflexivity|]. eapply C66_lu_exact; [exact HsJ|exact Hb'|exact Ex].
    - apply (C66_lu_singular J _ b' HsJ Hb') in Ex. contradiction. }
  split.
  - unfold solves_exactly. rewrite decide_False by lia. split; [reflexivity|]. intros b' [x [Hx Hxb]]. rewrite Hla. apply Hsol.
    rewrite <- Hxb. apply (act_length J dof dof x HsJ).
  - destruct (Hsol b Hb) as (x & _ & Hx). eauto.
Qed.
Print Assumptions C66_exact_solver.
(** C66: so on an arm with as many joints as constrained coordinates and a regular Jacobian,
    an iteration with the LU solve and a small multiplier brings the arm closer *)
Theorem C66_closer (t : nat) ovf (h : gmap nat (node R)) nx arm e l target (c : constraints) la sv cols s w :
  path_up h e l -> chain_of h (rev l) arm ->
  (forall a n, a ∈ l -> h !! a = Some n -> unit_joint (n_joint n)) ->
  (forall a n r, a ∈ c_movable arm -> h !! a = Some n -> j_limits (n_joint n) = Some r ->
     rmin r < j_position (n_joint n) < rmax r) ->
  run t (jacobian arm) (quiet h nx) = Done (Mat 6 cols) s ->
  run t (end_transform arm) (quiet h nx) = Done w (quiet h nx) ->
  count (flags c) = c_dof arm -> (forall m b, lu_solve la m b = na_lu_solve m b) ->
  regular (reduced (flags c) [] cols) ->
  exists del, 0 < del /\
  forall sv', nullspace_function sv' = nullspace_function sv -> 0 < jacobian_multiplier sv' < del ->
  exists d h' w',
    run t (solve_one_loop_with_constraints ovf la sv' arm target (flags c) []) (quiet h nx) = Done (Ok d) (quiet h' nx) /\
    run t (end_transform arm) (quiet h' nx) = Done w' (quiet h' nx) /\
    (position_error c target w <> V3 0 0 0 -> len (position_error c target w') < len (position_error c target w)) /\
    (unit_quat (rt target) -> rotation_x c = true -> rotation_y c = true -> rotation_z c = true ->
     0 < len (rotation_error c target w) < PI ->
     len (rotation_error c target w') < len (rotation_error c target w)).
Proof.
  intros Hp Hc Hu Hin HJ Hw Hcnt Hla Hreg.
  assert (Hl : all_live h (c_nodes arm)).
  { destruct Hc as (-> & _). apply all_live_rev. eapply path_all_live, Hp. }
  destruct (jacobian_done t h nx arm (Mat 6 cols) s Hl HJ) as (h1 & -> & _ & _ & Hd & H6). cbn [m_cols] in Hd, H6.
  destruct (C66_exact_solver c cols la sv (c_dof arm) (flagged (flags c) (pose_error target w)) Hd H6 Hcnt Hla Hreg) as [H1 H2].
  { rewrite flagged_length by reflexivity. exact Hcnt. }
  exact (C65_closer t ovf h nx arm e l target c la sv cols _ w [] Hp Hc Hu Hin HJ Hw H1 H2 (SSorted_nil _) (Forall_nil_2 _)).
Qed.
Print Assumptions C66_closer.

(** the arm of C65, now with the LU solve *)
Definition na_la : linalg R := Linalg na_lu_solve (fun _ _ => None) (fun _ => None).
Lemma six_regular : regular (reduced (flags all_six) [] cols6).
Proof.
  intros z [Hz E]. change (length z = 6%nat) in Hz. do 7 (destruct z as [|? z]; try discriminate Hz). clear Hz.
  change (m_rows _) with 6%nat in E. change (m_cols _) with cols6 in *. unfold cols6 in E. cbn in E. injection E as E1 E2 E3 E4 E5 E6.
  cbn. repeat (apply (f_equal2 (@cons R)); [lra|]). reflexivity.
Qed.
Example C66_case (t nx : nat) ovf : exists del, 0 < del /\ forall m, 0 < m < del ->
  exists d h' w',
    run t (solve_one_loop_with_constraints ovf na_la (slow m) arm6 there (flags all_six) []) (quiet robot6 nx) = Done (Ok d) (quiet h' nx) /\
    run t (end_transform arm6) (quiet h' nx) = Done w' (quiet h' nx) /\
    len (position_error all_six there w') < len (position_error all_six there iso1).
Proof.
  destruct (serial_jacobian t robot6 nx arm6 5%nat [5; 4; 3; 2; 1; 0]%nat six robot6_path six_chain six_joints) as (h1 & HJ). rewrite six_cols in HJ.
  assert (Hw : run t (end_transform arm6) (quiet robot6 nx) = Done iso1 (quiet robot6 nx)).
  { rewrite <- six_end. unfold end_transform, end_at. apply run_end_fold, joints_locals, six_joints. }
  destruct (C66_closer t ovf robot6 nx arm6 5%nat [5; 4; 3; 2; 1; 0]%nat there all_six na_la (slow 1) cols6 (quiet h1 nx) iso1 robot6_path six_chain) as (del & Hdel & H);
    [| |exact HJ|exact Hw|reflexivity|reflexivity|exact six_regular|].
  - intros a n Ha Hn. destruct (robot6_in a Ha) as [j Hj]. rewrite (robot6_at a j Hj) in Hn. apply Some_inj in Hn as <-.
    change (n_joint (node_six a j)) with j. pose proof six_unit as Hu. rewrite Forall_forall in Hu. apply Hu. eapply elem_of_list_lookup_2, Hj.
  - intros a n r Ha Hn. destruct (robot6_mov a Ha) as [j Hj]. rewrite (robot6_at a j Hj) in Hn. apply Some_inj in Hn as <-.
    change (n_joint (node_six a j)) with j. pose proof six_inside as Hu. rewrite Forall_forall in Hu. apply (Hu j). eapply elem_of_list_lookup_2, Hj.
  - exists del. split; [exact Hdel|]. intros m Hm. destruct (H (slow m) eq_refl Hm) as (d & h' & w' & G1 & G2 & G3 & _).
    exists d, h', w'. split; [exact G1|]. split; [exact G2|]. apply G3. unfold position_error. cbn. intros E. injection E. lra.
Qed.
(** a regular and a singular matrix; the first pivot is in the last row *)
Definition three : mat R := Mat 3 [[0; 1; 2]; [1; 1; 0]; [0; 2; 4]].
Example C66_singular_case b : length b = 3%nat -> na_lu_solve three b = None.
Proof.
  intros Hb. apply (C66_lu_singular three 3%nat b); [repeat constructor|exact Hb|].
  intros H. specialize (H [2; 0; -1]). assert (E : [2; 0; -1] = [0; 0; 0]); [|injection E; lra].
  apply H. split; [reflexivity|]. cbn. repeat (apply (f_equal2 (@cons R)); [ring|]). reflexivity.
Qed.
(** and in 64 bit floats *)
  Example lu_64 : na_lu_solve (Mat 3 [[Ex.f 0; Ex.f 1; Ex.f 2]; [Ex.f 1; Ex.f 1; Ex.f 0]; [Ex.f 0; Ex.f 2; Ex.f 8]]) [Ex.f 2; Ex.f 9; Ex.f 26] = Some [Ex.f 1; Ex.f 2; Ex.f 3] /\
    na_lu_solve (Mat 3 [[Ex.f 0; Ex.f 1; Ex.f 2]; [Ex.f 1; Ex.f 1; Ex.f 0]; [Ex.f 0; Ex.f 2; Ex.f 4]]) [Ex.f 2; Ex.f 9; Ex.f 26] = None.
  Proof. split; vm_compute; reflexivity. Qed.
