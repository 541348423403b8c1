(** * C51, C53, C54: one iteration of the solver, exactly *)
From Coq Require Import String NArith Reals Lra Sorting.Sorted.
From stdpp Require Import gmap.
From Verif Require Import Scalar ScalarR Geometry Joint Link Prog NodeM ChainM FuncsM IkM RunLemmas
  SpecJoint SpecNode SpecGraph GraphProofs SpecChain SpecFK FKProofs SpecIk IkProofs JacProofs SpecGeom RGeom
  SpecStep StepProofs LinAlgR LinArm LinIk PropGeom.

Section Step.
  Context {T : Type} `{Sc : Scalar T}.
  (** the iteration ended normally in heap [h'], having moved each joint of the arm
      by [m] times the entry of [full], and nothing else *)
  Definition moved_by t (h : gmap nat (node T)) nx arm target (c : constraints) (m : T) (full : list T)
      (r : outcome T (result T (list T))) : Prop :=
    exists h' w, r = Done (Ok (flagged (flags c) (calc_pose_diff target w))) (quiet h' nx) /\
      run t (end_transform arm) (quiet h' nx) = Done w (quiet h' nx) /\
      only_moved (c_movable arm) h h' /\
      forall j a n, c_movable arm !! j = Some a -> h !! a = Some n ->
        position_at h' a = Some (match full !! j with
          | Some y => limited (j_limits (n_joint n)) (sadd (j_position (n_joint n)) (smul m y))
          | None => j_position (n_joint n) end).
  Lemma moved_by_intro t h nx arm target c m full r : step_to t h nx arm target (flags c) m full r -> moved_by t h nx arm target c m full r.
  Proof.
    intros (h' & w & E & Hw & Hf & Ho & Hp). exists h', w. split; [exact E|]. split; [exact Hw|].
    split; [apply only_moved_intro; assumption|exact Hp].
  Qed.
  (** C53: what the iteration does with the reduced system *)
  Theorem C53_iteration (t : nat) ovf la (sv : solver T) h nx arm target (c : constraints) idx cols h1 w :
    chain_of h (c_nodes arm) arm -> all_live h (c_nodes arm) -> NoDup (c_movable arm) ->
    StronglySorted lt idx -> Forall (fun j => j < c_dof arm) idx ->
    run t (end_transform arm) (quiet h nx) = Done w (quiet h nx) ->
    run t (jacobian arm) (quiet h nx) = Done (Mat 6 cols) (quiet h1 nx) ->
    let J := reduced (flags c) idx cols in
    let err := flagged (flags c) (calc_pose_diff target w) in
    let iteration := run t (solve_one_loop_with_constraints ovf la sv arm target (flags c) idx) (quiet h nx) in
    (count (flags c) + length idx < c_dof arm -> nullspace_function sv = None ->
       (forall x, svd_solve la J err = Some x -> length x + length idx = c_dof arm ->
          exists full, length full = c_dof arm /\ spread_to idx x full /\
            moved_by t h nx arm target c (jacobian_multiplier sv) full iteration) /\
       (svd_solve la J err = None -> exists m s, iteration = Panicked m s)) /\
    (c_dof arm <= count (flags c) + length idx ->
       (forall x, lu_solve la J err = Some x -> moved_by t h nx arm target c (jacobian_multiplier sv) x iteration) /\
       (lu_solve la J err = None -> iteration = Done (Err InverseMatrixError) (quiet h1 nx) /\ heaps same_but_caches h h1)).
  Proof.
    intros Hc Hl Hnd Hs Hr Hw HJ J err iteration. split.
    - intros Hreq Hns. split.
      + intros x Hx Hlx. destruct (step_svd t ovf la sv h nx arm target (flags c) idx cols h1 w Hc Hl Hnd eq_refl Hs Hr Hw HJ x Hreq Hns Hx Hlx)
          as (full & H1 & H2 & H3). exists full. auto using moved_by_intro.
      + intros Hx. exact (step_svd_panic t ovf la sv h nx arm target (flags c) idx cols h1 w Hc Hl eq_refl Hs Hr Hw HJ Hreq Hns Hx).
    - intros Hreq. split.
      + intros x Hx. apply moved_by_intro. exact (step_lu t ovf la sv h nx arm target (flags c) idx cols h1 w Hc Hl Hnd eq_refl Hs Hr Hw HJ x Hreq Hx).
      + intros Hx. split; [exact (step_lu_singular t ovf la sv h nx arm target (flags c) idx cols h1 w Hc Hl eq_refl Hs Hr Hw HJ Hreq Hx)|].
        apply unch_heaps. eapply step_unch; [exact Hl|exact HJ].
  Qed.
  (** C54: setting a null space function stores it, clearing it forgets it, and both keep the
      parameters, so a solver whose function was cleared is the one before *)
  Theorem C54_set_clear (sv : solver T) (f : list T -> option (list T)) :
    let params (s : solver T) := (allowable_target_distance s, allowable_target_angle s, jacobian_multiplier s, num_max_try s) in
    nullspace_function (set_nullspace_function sv f) = Some f /\ params (set_nullspace_function sv f) = params sv /\
    nullspace_function (clear_nullspace_function sv) = None /\ params (clear_nullspace_function sv) = params sv /\
    forall d a m n, let new := solver_new d a m n in
      nullspace_function new = None /\ params new = (d, a, m, n) /\ clear_nullspace_function (set_nullspace_function new f) = new.
  Proof. repeat split. Qed.
End Step.
Print Assumptions C53_iteration.
Print Assumptions C54_set_clear.
(** C53: the solver from [Default] has the documented parameters, and the default constraints
    are all six coordinates and no ignored joint *)
Theorem C53_defaults :
  let sv : solver R := solver_default in
  (allowable_target_distance sv = 1 / 1000 /\ allowable_target_angle sv = 5 / 1000 /\ jacobian_multiplier sv = 1 / 2)%R /\
  num_max_try sv = 10 /\ nullspace_function sv = None /\
  flags default_constraints = [true; true; true; true; true; true] /\ ignored_joint_names default_constraints = [].
Proof. repeat split; cbn; unfold Q2R; cbn; lra. Qed.
Print Assumptions C53_defaults.

Local Open Scope R_scope.
(** C54: the motion [full] of an iteration with a null space function moves the
    constrained coordinates by J J+ err, whatever the function returns *)
Theorem C54_null_space (t : nat) ovf la (sv : solver R) h nx arm target (c : constraints) idx cols h1 w f P sub :
  chain_of h (c_nodes arm) arm -> all_live h (c_nodes arm) -> NoDup (c_movable arm) ->
  StronglySorted lt idx -> Forall (fun j => (j < c_dof arm)%nat) idx ->
  run t (end_transform arm) (quiet h nx) = Done w (quiet h nx) ->
  run t (jacobian arm) (quiet h nx) = Done (Mat 6 cols) (quiet h1 nx) ->
  (count (flags c) + length idx < c_dof arm)%nat -> nullspace_function sv = Some f ->
  let J := reduced (flags c) idx cols in
  pinv la J = Some P -> shaped P (length (m_cols J)) (m_rows J) ->
  (forall x, length x = length (m_cols J) -> act J (act P (act J x)) = act J x) ->
  (forall q, map Some q = map (position_at h) (c_movable arm) -> f q = Some sub) -> length sub = c_dof arm ->
  exists full, length full = c_dof arm /\
    moved_by t h nx arm target c (jacobian_multiplier sv) full
      (run t (solve_one_loop_with_constraints ovf la sv arm target (flags c) idx) (quiet h nx)) /\
    (forall j, j ∈ idx -> full !! j = Some 0) /\
    flagged (flags c) (act (Mat 6 cols) full) = act J (act P (flagged (flags c) (pose_error target w))).
Proof.
  intros Hc Hl Hnd Hs Hi Hw HJ Hreq Hns J HP HsP Hpen Hf Hsub.
  destruct (null_step_lemma t ovf la sv h nx arm target (flags c) idx cols h1 w f P sub Hc Hl Hnd eq_refl Hs Hi Hw HJ Hreq Hns HP HsP Hpen Hf Hsub)
    as (full & H1 & H2 & H3 & H4).
  exists full. auto using moved_by_intro.
Qed.
Print Assumptions C54_null_space.

(** C51, one iteration *)
Theorem C51_iteration (t : nat) ovf (h : gmap nat (node R)) nx arm e l target (c : constraints) la sv cols s w idx :
  path_up h e l -> chain_of h (rev l) arm ->
  (forall a n, a ∈ l -> h !! a = Some n -> straight (n_joint n) /\ j_limits (n_joint n) = None) ->
  run t (jacobian arm) (quiet h nx) = Done (Mat 6 cols) s ->
  run t (end_transform arm) (quiet h nx) = Done w (quiet h nx) ->
  let J := reduced (flags c) idx cols in
  solves_exactly la sv (c_dof arm) (count (flags c)) (length idx) J ->
  (exists x, solves J x (flagged (flags c) (pose_error target w))) ->
  StronglySorted lt idx -> Forall (fun j => (j < c_dof arm)%nat) idx ->
  exists d h' w',
    run t (solve_one_loop_with_constraints ovf la sv arm target (flags c) idx) (quiet h nx) = Done (Ok d) (quiet h' nx) /\
    run t (end_transform arm) (quiet h' nx) = Done w' (quiet h' nx) /\
    d = flagged (flags c) (pose_error target w') /\
    position_error c target w' = times (1 - jacobian_multiplier sv) (position_error c target w) /\
    rotation_error c target w = V3 0 0 0 /\ rotation_error c target w' = V3 0 0 0.
Proof.
  intros Hp Hc Hs HJ Hw J Hex Hsol Hso Hi.
  exact (lin_step_lemma t ovf h nx arm e l target c la sv cols s w idx (conj Hp (conj Hc Hs)) HJ Hw Hex Hsol Hso Hi).
Qed.
Print Assumptions C51_iteration.
(** C51, the whole call *)
Theorem C51_converges (t : nat) ovf (h : gmap nat (node R)) nx arm e l target (c : constraints) la sv cols s w idx k :
  path_up h e l -> chain_of h (rev l) arm ->
  (forall a n, a ∈ l -> h !! a = Some n -> straight (n_joint n) /\ j_limits (n_joint n) = None) ->
  run t (jacobian arm) (quiet h nx) = Done (Mat 6 cols) s ->
  run t (end_transform arm) (quiet h nx) = Done w (quiet h nx) ->
  NoDup (ignored_joint_names c) -> Forall2 (first_named h (c_movable arm)) (ignored_joint_names c) idx ->
  (count (flags c) + length idx <= c_dof arm)%nat ->
  let J := reduced (flags c) idx cols in
  solves_exactly la sv (c_dof arm) (count (flags c)) (length idx) J ->
  (exists x, solves J x (flagged (flags c) (pose_error target w))) ->
  0 < allowable_target_angle sv -> (1 <= k <= num_max_try sv)%nat ->
  Rabs (1 - jacobian_multiplier sv) ^ k * len (position_error c target w) < allowable_target_distance sv ->
  exists h', run t (solve_with_constraints ovf la sv arm target c) (quiet h nx) = Done (Ok tt) (quiet h' nx).
Proof.
  intros Hp Hc Hs HJ Hw Hndn Hidx Hcnt J Hex Hsol Hang Hk Hd.
  exact (lin_solve_lemma t ovf h nx arm e l target c la sv cols s w idx (conj Hp (conj Hc Hs)) HJ Hw Hex Hsol k Hndn Hidx Hcnt Hang Hk Hd).
Qed.
Print Assumptions C51_converges.

(** A gantry with slides along x, y and x again, to reach x = 3, y = 2 (z is free).
    The pseudo inverse shares the motion along x. *)
Definition track (nm : string) (a : vec3 R) : joint R := Joint nm (Linear a) 0 0 None iso1 None None.
Definition gantry : gmap nat (node R) :=
  <[0%nat := node_of (track "a" (V3 1 0 0)) None [1%nat]]> (<[1%nat := node_of (track "b" (V3 0 1 0)) (Some 0%nat) [2%nat]]>
    (<[2%nat := node_of (track "c" (V3 1 0 0)) (Some 1%nat) []]> ∅)).
Definition arm3 : chain := Chain [0%nat; 1%nat; 2%nat] [0%nat; 1%nat; 2%nat] 3.
Definition plane : constraints := Constraints true true false false false false [].
Definition goal : iso R := Iso (V3 3 2 0) q1.
Definition flat : mat R := Mat 2 [[1; 0]; [0; 1]; [1; 0]].
Definition flat_pinv : mat R := Mat 3 [[/ 2; 0; / 2]; [0; 1; 0]].
Definition exact : linalg R :=
  Linalg (fun _ b => Some b) (fun _ b => match b with [x; y] => Some [x; y; 0] | _ => None end) (fun _ => Some flat_pinv).
Definition half : solver R := Solver 1 1 (/ 2) 10 None.
Definition half_null : solver R := Solver 1 1 (/ 2) 10 (Some (fun _ => Some [5; 7; 9])).
Lemma gantry_arm : arm_ok arm3 2%nat [2; 1; 0]%nat gantry.
Proof.
  assert (H0 : gantry !! 0%nat = Some (node_of (track "a" (V3 1 0 0)) None [1%nat])) by reflexivity.
  assert (H1 : gantry !! 1%nat = Some (node_of (track "b" (V3 0 1 0)) (Some 0%nat) [2%nat])) by reflexivity.
  assert (H2 : gantry !! 2%nat = Some (node_of (track "c" (V3 1 0 0)) (Some 1%nat) [])) by reflexivity.
  split; [|split].
  - eapply path_step; [|eapply path_step; [|apply path_root]].
    + split; [eexists; split; [exact H2|reflexivity]|rewrite H1; eauto].
    + split; [eexists; split; [exact H1|reflexivity]|rewrite H0; eauto].
    + split; [rewrite H0; eauto|]. intros p [(n & Hn & E) _]. rewrite H0 in Hn. apply Some_inj in Hn as <-. discriminate.
  - split; [reflexivity|]. split; reflexivity.
  - intros a n Ha Hn. assert (a = 0 \/ a = 1 \/ a = 2)%nat as [-> | [-> | ->]] by set_solver; 
      rewrite ?H0, ?H1, ?H2 in Hn; apply Some_inj in Hn as <-; (split; [split; [|exact I]|reflexivity]);
      exact proper_1.
Qed.
Definition tracks : list (joint R) := [track "a" (V3 1 0 0); track "b" (V3 0 1 0); track "c" (V3 1 0 0)].
Lemma gantry_joints : joints_at gantry [0; 1; 2]%nat tracks.
Proof. repeat (constructor; [eexists; split; reflexivity|]). constructor. Qed.
Lemma gantry_end : product iso1 (map local_transform tracks) = iso1 (T := R).
Proof. unfold tracks, track, local_transform. cbn [map j_type j_origin j_position product foldl joint_transform]. apply Iso_eq; [gv; ring|gq; ring]. Qed.
Lemma gantry_dirs : dirs iso1 tracks = [V3 1 0 0; V3 0 1 0; V3 1 0 0].
Proof. unfold tracks, track. cbn [dirs j_type]. unfold local_transform. cbn [j_type j_origin j_position joint_transform]. repeat (apply (f_equal2 cons); [gv; ring|]). reflexivity. Qed.
Lemma gantry_run t nx : run t (end_transform arm3) (quiet gantry nx) = Done iso1 (quiet gantry nx) /\
  exists h1, run t (jacobian arm3) (quiet gantry nx) =
    Done (Mat 6 [[1; 0; 0; 0; 0; 0]; [0; 1; 0; 0; 0; 0]; [1; 0; 0; 0; 0; 0]]) (quiet h1 nx).
Proof. pose proof (arm_jacobian arm3 2%nat [2; 1; 0]%nat t gantry nx tracks gantry_arm gantry_joints) as H. rewrite gantry_end, gantry_dirs in H. exact H. Qed.
Lemma gantry_err : flagged (flags plane) (pose_error goal iso1) = [3; 2].
Proof. cbn. repeat (apply (f_equal2 (@cons R)); [ring|]). reflexivity. Qed.
Example C53_case (t nx : nat) ovf : exists full, length full = 3%nat /\ spread_to [] [3; 2; 0] full /\
  moved_by t gantry nx arm3 goal plane (/ 2) full
    (run t (solve_one_loop_with_constraints ovf exact half arm3 goal (flags plane) []) (quiet gantry nx)).
Proof.
  destruct (gantry_run t nx) as [Hw [h1 HJ]].
  destruct (C53_iteration t ovf exact half gantry nx arm3 goal plane [] _ h1 iso1 (arm_chain _ _ _ _ gantry_arm) (arm_live _ _ _ _ gantry_arm)
    (arm_nodup _ _ _ _ gantry_arm) (SSorted_nil _) (Forall_nil_2 _) Hw HJ) as [H _].
  destruct H as [H _]; [vm_compute; lia|reflexivity|].
  apply H; [|reflexivity]. change (calc_pose_diff goal iso1) with (pose_error goal iso1). rewrite gantry_err. reflexivity.
Qed.
Lemma flat_penrose : forall x : list R, length x = 3%nat -> act flat (act flat_pinv (act flat x)) = act flat x.
Proof.
  intros [|x1 [|x2 [|x3 [|x4 x]]]]; try discriminate. intros _. cbn. repeat (apply (f_equal2 (@cons R)); [field|]). reflexivity.
Qed.
Example C54_case (t nx : nat) ovf : exists full, length full = 3%nat /\
  moved_by t gantry nx arm3 goal plane (/ 2) full
    (run t (solve_one_loop_with_constraints ovf exact half_null arm3 goal (flags plane) []) (quiet gantry nx)) /\
  act flat full = [3; 2].
Proof.
  destruct (gantry_run t nx) as [Hw [h1 HJ]].
  destruct (C54_null_space t ovf exact half_null gantry nx arm3 goal plane [] _ h1 iso1 (fun _ => Some [5; 7; 9]) flat_pinv [5; 7; 9]
    (arm_chain _ _ _ _ gantry_arm) (arm_live _ _ _ _ gantry_arm)
    (arm_nodup _ _ _ _ gantry_arm) (SSorted_nil _) (Forall_nil_2 _) Hw HJ) as (full & H1 & H2 & _ & H4); try reflexivity.
  - vm_compute. lia.
  - split; [reflexivity|]. split; [reflexivity|]. repeat constructor.
  - exact flat_penrose.
  - exists full. split; [exact H1|]. split; [exact H2|]. rewrite gantry_err in H4.
    destruct full as [|x [|y [|z [|]]]]; try discriminate H1. cbn in *.
    injection H4 as E1 E2. repeat (apply (f_equal2 (@cons R)); [lra|]). reflexivity.
Qed.
Example C51_case_hypotheses : solves_exactly exact half 3 (count (flags plane)) 0 flat /\ solves_exactly exact half_null 3 (count (flags plane)) 0 flat /\
  exists x, solves flat x (flagged (flags plane) (pose_error goal iso1)).
Proof.
  split; [|split].
  - unfold solves_exactly. rewrite decide_True by (vm_compute; lia). cbn. intros b [x [Hx Hb]].
    destruct x as [|x1 [|x2 [|x3 [|x4 x]]]]; try discriminate Hx. cbn in Hb. subst b. eexists. split; [reflexivity|]. split; [reflexivity|].
    cbn. repeat (apply (f_equal2 (@cons R)); [ring|]). reflexivity.
  - unfold solves_exactly. rewrite decide_True by (vm_compute; lia). cbn. split; [eauto|]. exists flat_pinv. split; [reflexivity|].
    split; [repeat constructor|exact flat_penrose].
  - exists [3; 2; 0]. rewrite gantry_err. split; [reflexivity|]. cbn. repeat (apply (f_equal2 (@cons R)); [ring|]). reflexivity.
Qed.
(** two iterations bring the error from sqrt 13 to below 1 *)
Example C51_case (t nx : nat) ovf : exists h', run t (solve_with_constraints ovf exact half arm3 goal plane) (quiet gantry nx) = Done (Ok tt) (quiet h' nx).
Proof.
  destruct (gantry_run t nx) as [Hw [h1 HJ]]. destruct gantry_arm as (G1 & G2 & G3). destruct C51_case_hypotheses as (Hex & _ & Hsol).
  apply (C51_converges t ovf gantry nx arm3 2%nat [2; 1; 0]%nat goal plane exact half _ _ iso1 [] 2 G1 G2 G3 HJ Hw); try assumption.
  - constructor.
  - constructor.
  - vm_compute. lia.
  - cbn. lra.
  - vm_compute. lia.
  - cbn [jacobian_multiplier half allowable_target_distance]. replace (1 - / 2) with (/ 2) by field.
    rewrite Rabs_right by lra. unfold len.
    match goal with |- context [inner ?a ?b] => assert (E : inner a b = 13); [|rewrite E] end.
    { unfold position_error, inner. cbn. lra. }
    assert (R_sqrt.sqrt 13 < 4); [|lra]. replace 4 with (R_sqrt.sqrt (4 * 4)) by (apply sqrt_square; lra). apply sqrt_lt_1; lra.
Qed.
