(** * What the errors of the solver mean *)
From Coq Require Import String.
From stdpp Require Import gmap.
From Verif Require Import Scalar Geometry Joint Link Prog NodeM ChainM FuncsM IkM RunLemmas SpecJoint SpecNode SpecGraph SpecChain ChainProofs SpecFK FKProofs
  SpecIk IkLookup IkProofs.

Section ErrorIk.
  Context {T : Type} `{Sc : Scalar T}.
  Implicit Types (h : gmap nat (node T)).

  Lemma one_loop_err t ovf la sv h nx arm target ops idx e s :
    run t (solve_one_loop_with_constraints ovf la sv arm target ops idx) (quiet h nx) = Done (Err e) s -> e = InverseMatrixError.
  Proof.
    intros E. unfold solve_one_loop_with_constraints in E.
    do 6 (apply run_bind_inv in E as (? & ? & _ & E)). apply run_bind_inv in E as (r & s1 & Er & E). destruct r as [ps|e'].
    - do 2 (apply run_bind_inv in E as (? & ? & _ & E)). discriminate.
    - injection E as <- _. unfold new_positions in Er. destruct (decide _).
      + destruct (nullspace_function sv).
        * do 3 (apply run_bind_inv in Er as (? & ? & _ & Er)). destruct (decide _); [|discriminate]. apply run_bind_inv in Er as (? & ? & _ & Er). discriminate.
        * do 2 (apply run_bind_inv in Er as (? & ? & _ & Er)). discriminate.
      + destruct (lu_solve _ _ _); [discriminate|]. injection Er as <- _. reflexivity.
  Qed.
  Lemma ik_loop_err_kind t ovf la sv nx arm target ops idx orig n : forall h last e s,
    chain_of h (c_nodes arm) arm -> all_live h (c_nodes arm) -> plain h (c_movable arm) -> length orig = c_dof arm ->
    (forall i a p, c_movable arm !! i = Some a -> orig !! i = Some p -> admissible_at h a p) ->
    (forall lr, last = Some lr -> exists h' w, frozen h h' /\ offm (c_movable arm) h h' /\ run t (end_transform arm) (quiet h' nx) = Done w (quiet h' nx) /\
       lr = target_diff_to_len_rot_diff (calc_pose_diff_with_constraints target w ops) ops /\ reached sv lr = false) ->
    run t (ik_loop ovf la sv arm target ops idx orig n last) (quiet h nx) = Done (Err e) s ->
    e = InverseMatrixError \/
    exists h' w lr, e = NotConvergedError (num_max_try sv) (fst lr) (snd lr) /\ frozen h h' /\ offm (c_movable arm) h h' /\
      run t (end_transform arm) (quiet h' nx) = Done w (quiet h' nx) /\
      lr = target_diff_to_len_rot_diff (calc_pose_diff_with_constraints target w ops) ops /\ reached sv lr = false.
  Proof.
    induction n as [|n IH]; intros h last e s Hc Hl Hp Hlen Hadm Hlast E; cbn [ik_loop] in E.
    - destruct (restore t h nx arm orig Hc Hp Hlen Hadm) as (h' & Hr & Hf & Ho & _). rewrite run_bind, Hr in E. cbn [obind] in E.
      destruct last as [lr|]; [|discriminate]. cbn in E. injection E as <- _. right.
      destruct (Hlast lr eq_refl) as (h2 & w & H1 & H2 & H3 & H4 & H5). exists h2, w, lr. auto 10.
    - apply run_bind_inv in E as ([diff|e'] & s1 & E1 & E).
      + apply one_loop_ok in E1 as (h' & w & -> & Hf & Ho & Hw & ->); [|assumption|assumption].
        destruct (chain_mov_step h h' arm Hf Hc Hl) as [Hc' Hl'].
        destruct (reached _ _) eqn:Hre.
        * apply run_bind_inv in E as (ps & s1 & _ & E). apply run_bind_inv in E as (u & s2 & _ & E). discriminate.
        * apply IH in E as [->|(h2 & w2 & lr & -> & Hf2 & Ho2 & R2)]; [left; reflexivity| |assumption|assumption|eapply frozen_plain; eauto|assumption| |].
          -- right. exists h2, w2, lr. split; [reflexivity|]. split; [eapply frozen_trans; eauto|]. split; [eapply offm_trans; eauto|]. exact R2.
          -- intros i a p Hi Hpi. eapply frozen_adm; eauto.
          -- intros lr [= <-]. exists h', w. split; [apply frozen_refl|]. split; [apply offm_refl|]. auto.
      + injection E as <- _. left. eapply one_loop_err, E1.
  Qed.
  Lemma solve_err_kind t ovf la sv h nx arm target c e s :
    chain_of h (c_nodes arm) arm -> all_live h (c_nodes arm) -> plain h (c_movable arm) -> inside_limits h (c_movable arm) ->
    length (ignored_joint_names c) <= c_dof arm ->
    run t (solve_with_constraints ovf la sv arm target c) (quiet h nx) = Done (Err e) s ->
    match e with
    | PreconditionError d r => r = count_true (define_operational_space c) /\ d + length (ignored_joint_names c) = c_dof arm /\ d < r
    | InvalidJointNameError nm => nm ∈ ignored_joint_names c /\ nowhere_named h (c_movable arm) nm
    | InverseMatrixError => True
    | NotConvergedError k pd rd => k = num_max_try sv /\ exists h' w, only_moved (c_movable arm) h h' /\
        run t (end_transform arm) (quiet h' nx) = Done w (quiet h' nx) /\
        pd = position_error c target w /\ rd = rotation_error c target w /\ ~ on_target sv c target w
    | _ => False
    end.
  Proof.
    intros Hc Hl Hp Hin Hlen0 E. unfold solve_with_constraints in E.
    destruct (run_positions t h nx arm _ Hc) as (orig & Horig & Hlen & Hpos). rewrite run_bind, Horig in E. cbn [obind] in E.
    pose proof (start_admissible h arm orig Hc Hin Hpos) as Hadm.
    assert (Hadm' : forall i a p, c_movable arm !! i = Some a -> orig !! i = Some p -> admissible_at h a p)
      by (intros; eapply Hadm; eauto).
    apply run_bind_inv in E as (re & s1 & E1 & E). destruct re as [[]|e1]; cbn [is_err is_ok negb] in E; [discriminate|].
    unfold solve_with_constraints_internal in E1. rewrite run_bind, Horig in E1. cbn [obind] in E1.
    apply run_bind_inv in E1 as (av & s2 & Eav & E1). pose proof (inert_usize_sub _ _ _ _ _ _ _ Eav) as ->.
    assert (Hav : av = N.of_nat (c_dof arm - length (ignored_joint_names c))).
    { unfold usize_sub, dof in Eav. rewrite decide_True in Eav by lia. injection Eav as <-. lia. }
    assert (Hrest : forall h1 e1, s1 = quiet h1 nx -> frozen h h1 ->
      obind (run t (set_joint_positions arm orig) s1) (fun r s => run t (match r with Err e => Ret (Err e) | Ok _ => Ret (Err e1 : result T unit) end) s) = Done (Err e) s -> e = e1).
    { intros h1 e2 -> Hf E2. destruct (restore t h1 nx arm orig) as (h2 & Hr & _).
      { eapply frozen_chain; eauto. } { eapply frozen_plain; eauto. } { assumption. }
      { intros i a p Hi Hpi. eapply frozen_adm; eauto. }
      rewrite Hr in E2. cbn [obind run] in E2. congruence. }
    rewrite run_bind in E.
    destruct (decide _) as [Hd|Hd].
    { injection E1 as <- <-. apply (Hrest h) in E as ->; [|reflexivity|apply frozen_refl]. split; [reflexivity|]. subst av. lia. }
    destruct (run_ignored_indices t h nx arm (ignored_joint_names c)) as (ri & Hri & Hi); [eapply movable_live; eauto|].
    rewrite run_bind, Hri in E1. cbn [obind] in E1. destruct ri as [idx|e2].
    - pose proof E1 as E1'. eapply ik_loop_err in E1'; eauto. destruct E1' as (h1 & -> & Hf & _).
      apply (Hrest h1) in E as ->; [|reflexivity|exact Hf].
      apply ik_loop_err_kind in E1 as [->|(h2 & w & lr & -> & Hf2 & Ho2 & Hw & Elr & Hre)]; try assumption; [exact I| |intros lr [=]].
      split; [reflexivity|]. exists h2, w. split; [apply only_moved_intro; assumption|]. split; [exact Hw|].
      rewrite masked_norms in Elr. subst lr. split; [reflexivity|]. split; [reflexivity|].
      rewrite <- reached_on_target, masked_norms, Hre. discriminate.
    - injection E1 as <- <-. apply (Hrest h) in E as ->; [|reflexivity|apply frozen_refl].
      destruct Hi as (l1 & nm & l2 & El & -> & Hn & _). split; [rewrite El; set_solver|exact Hn].
  Qed.
End ErrorIk.
