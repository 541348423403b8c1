(** * The verdict of the solver comes from its iterations *)
From Coq Require Import String Sorting.Sorted.
From stdpp Require Import gmap sorting.
From Verif Require Import Scalar Geometry Joint Link Prog NodeM ChainM FuncsM IkM RunLemmas SpecJoint SpecNode SpecGraph SpecChain ChainProofs SpecFK FKProofs
  SpecIk IkLookup IkProofs IkProofs2 ErrorIk SpecStep StepProofs SpecVerdict.

Lemma insert_perm x l : insert_sorted x l ≡ₚ x :: l.
Proof. induction l as [|y l IH]; [reflexivity|]. cbn. case_decide; [reflexivity|]. rewrite IH. apply perm_swap. Qed.
Lemma sort_perm l : sort_unstable l ≡ₚ l.
Proof.
  induction l as [|x l IH]; [reflexivity|]. change (sort_unstable (x :: l)) with (insert_sorted x (sort_unstable l)).
  rewrite insert_perm, IH. reflexivity.
Qed.
Lemma insert_sorted_le x l : StronglySorted le l -> StronglySorted le (insert_sorted x l).
Proof.
  induction 1 as [|y l Hs IH Hf]; cbn; [repeat constructor|]. case_decide.
  - constructor; [constructor; assumption|]. constructor; [lia|]. eapply Forall_impl; [exact Hf|]. cbn. lia.
  - constructor; [exact IH|]. apply Forall_forall. intros z Hz. rewrite insert_perm in Hz.
    apply elem_of_cons in Hz as [->|Hz]; [lia|]. rewrite Forall_forall in Hf. auto.
Qed.
Lemma sort_le l : StronglySorted le (sort_unstable l).
Proof. induction l as [|x l IH]; [constructor|]. change (sort_unstable (x :: l)) with (insert_sorted x (sort_unstable l)). apply insert_sorted_le. exact IH. Qed.

Section VerdictProofs.
  Context {T : Type} `{Sc : Scalar T}.
  Implicit Types (h : gmap nat (node T)).

  Lemma ignored_sort h arm c l : Forall2 (first_named h (c_movable arm)) (ignored_joint_names c) l -> ignored_at h arm c (sort_unstable l).
  Proof. intros H. exists l. split; [exact H|]. split; [apply sort_perm|apply sort_le]. Qed.
  Lemma ignored_unique h arm c l idx : Forall2 (first_named h (c_movable arm)) (ignored_joint_names c) l -> ignored_at h arm c idx -> idx = sort_unstable l.
  Proof.
    intros H (l' & H' & Hp & Hs). assert (l' = l) as ->.
    { clear -H H'. revert l H. induction H' as [|nm i names l' H1 H' IH]; intros l H; inversion H; subst; [reflexivity|].
      f_equal; [eapply first_named_fun; eauto|apply IH; assumption]. }
    apply (StronglySorted_unique le); [exact Hs|apply sort_le|]. rewrite Hp. symmetry. apply sort_perm.
  Qed.

  Section Loop.
    Context (t nx : nat) (ovf : bool) (la : linalg T) (sv : solver T) (arm : chain) (target : iso T) (c : constraints) (idx : list nat).
    Notation it := (solve_one_loop_with_constraints ovf la sv arm target (flags c) idx).
    Notation tries := (tries t nx ovf la sv arm target c idx).
    Notation missed := (missed t nx ovf la sv arm target c idx).
    Lemma tries_diff h h' w d : chain_of h (c_nodes arm) arm -> all_live h (c_nodes arm) ->
      run t it (quiet h nx) = Done (Ok d) (quiet h' nx) -> run t (end_transform arm) (quiet h' nx) = Done w (quiet h' nx) ->
      frozen h h' /\ offm (c_movable arm) h h' /\ d = calc_pose_diff_with_constraints target w (flags c).
    Proof.
      intros Hc Hl E Hw. apply one_loop_ok in E as (h2 & w2 & Eq & Hf & Ho & Hw2 & ->); [|assumption|assumption].
      apply (f_equal heap) in Eq. cbn in Eq. subst h2. rewrite Hw in Hw2. assert (w2 = w) as -> by congruence. auto.
    Qed.
    Lemma missed_kept k h h' : missed k h h' -> chain_of h (c_nodes arm) arm -> all_live h (c_nodes arm) ->
      frozen h h' /\ offm (c_movable arm) h h' /\ chain_of h' (c_nodes arm) arm /\ all_live h' (c_nodes arm).
    Proof.
      induction 1 as [h|h h1 h2 w k (d & E & Hw) Hn H IH]; intros Hc Hl; [auto using frozen_refl, offm_refl|].
      destruct (tries_diff h h1 w d Hc Hl E Hw) as (Hf & Ho & _).
      destruct (chain_mov_step h h1 arm Hf Hc Hl) as [Hc1 Hl1]. destruct (IH Hc1 Hl1) as (Hf2 & Ho2 & R).
      split; [eapply frozen_trans; eauto|]. split; [eapply offm_trans; eauto|]. exact R.
    Qed.
    (** the loop after [k] misses *)
    Lemma loop_missed orig k : forall n h h' last, missed k h h' -> chain_of h (c_nodes arm) arm -> all_live h (c_nodes arm) ->
      exists last', run t (ik_loop ovf la sv arm target (flags c) idx orig (k + n) last) (quiet h nx) =
        run t (ik_loop ovf la sv arm target (flags c) idx orig n last') (quiet h' nx) /\
      (k = 0 -> last' = last) /\
      (0 < k -> exists w, run t (end_transform arm) (quiet h' nx) = Done w (quiet h' nx) /\ ~ on_target sv c target w /\
         last' = Some (position_error c target w, rotation_error c target w)).
    Proof.
      induction k as [|k IH]; intros n h h' last Hm Hc Hl; inversion Hm as [h0 E1 E2|h0 h1 h2 w k0 (d & E & Hw) Hn H E1 E2]; subst.
      - exists last. split; [reflexivity|]. split; [reflexivity|lia].
      - destruct (tries_diff h h1 w d Hc Hl E Hw) as (Hf & Ho & ->).
        destruct (chain_mov_step h h1 arm Hf Hc Hl) as [Hc1 Hl1].
        destruct (IH n h1 h' (Some (position_error c target w, rotation_error c target w)) H Hc1 Hl1) as (last' & E' & E0 & EL).
        exists last'. split; [|split; [lia|]].
        + cbn [Nat.add ik_loop]. rewrite run_bind, E. cbn [obind].
          change (flags c) with (define_operational_space c). rewrite masked_norms.
          destruct (reached _ _) eqn:Hre; [|exact E'].
          exfalso. apply Hn. apply reached_on_target. rewrite masked_norms. exact Hre.
        + intros _. destruct k as [|k]; [|apply EL; lia]. inversion H; subst. exists w. split; [exact Hw|]. split; [exact Hn|]. apply E0. reflexivity.
    Qed.
    Lemma loop_cases orig n : forall h last r s, chain_of h (c_nodes arm) arm -> all_live h (c_nodes arm) ->
      run t (ik_loop ovf la sv arm target (flags c) idx orig n last) (quiet h nx) = Done r s ->
      (exists k h1 h2 w, k < n /\ missed k h h1 /\ tries h1 h2 w /\ on_target sv c target w) \/
      (exists k h1 h2 e, k < n /\ missed k h h1 /\ run t it (quiet h1 nx) = Done (Err e) (quiet h2 nx)) \/
      (exists h1, missed n h h1).
    Proof.
      induction n as [|n IH]; intros h last r s Hc Hl E; cbn [ik_loop] in E.
      - right. right. exists h. constructor.
      - apply run_bind_inv in E as ([d|e] & s1 & E1 & E).
        + pose proof E1 as E1'. apply one_loop_ok in E1' as (h1 & w & -> & Hf & Ho & Hw & ->); [|assumption|assumption].
          assert (Ht : tries h h1 w) by (eexists; split; [exact E1|exact Hw]).
          destruct (chain_mov_step h h1 arm Hf Hc Hl) as [Hc1 Hl1].
          destruct (reached _ _) eqn:Hre.
          * left. exists 0, h, h1, w. split; [lia|]. split; [constructor|]. split; [exact Ht|].
            apply reached_on_target. exact Hre.
          * assert (Hn : ~ on_target sv c target w).
            { intros Hon. apply reached_on_target in Hon. change (define_operational_space c) with (flags c) in Hon. congruence. }
            destruct (IH h1 _ r s Hc1 Hl1 E) as [(k & a & b & v & Hk & Hm & R)|[(k & a & b & v & Hk & Hm & R)|(a & Hm)]].
            -- left. exists (S k), a, b, v. split; [lia|]. split; [econstructor; eauto|exact R].
            -- right. left. exists (S k), a, b, v. split; [lia|]. split; [econstructor; eauto|exact R].
            -- right. right. exists a. econstructor; eauto.
        + destruct (one_loop_done _ _ _ _ _ _ _ _ _ _ _ _ Hc Hl E1) as (h1 & -> & _).
          right. left. exists 0, h, h1, e. split; [lia|]. split; [constructor|exact E1].
    Qed.
    Lemma clamp_all h : chain_of h (c_nodes arm) arm -> all_live h (c_nodes arm) -> NoDup (c_movable arm) ->
      exists h', put_inside (c_movable arm) h h' /\
        run t (bind (joint_positions arm) (fun ps => bind (set_joint_positions_clamped arm ps) (fun _ => Ret (Ok tt : result T unit)))) (quiet h nx) =
        Done (Ok tt) (quiet h' nx).
    Proof.
      intros Hc Hl Hnd. destruct (run_positions t h nx arm _ Hc) as (ps & Hps & Hlen & Hpos).
      exists (upd_all clampF h (zip (c_movable arm) ps)). split.
      - split; [apply only_moved_intro; [apply upd_clamp_frozen|apply upd_clamp_offm]|].
        intros a n Ha Hn. pose proof Ha as Hin. apply elem_of_list_lookup in Ha as (j & Hj).
        destruct (positions_at h _ ps j a Hpos Hj) as (p & Hp & Hpa). unfold position_at in Hpa. rewrite Hn in Hpa. injection Hpa as <-.
        apply (position_upd_clamp h _ ps j a _ n Hnd Hj Hp Hn). eapply movable_type; eauto.
      - rewrite run_bind, Hps. cbn [obind]. rewrite run_bind, run_clamped by (eapply movable_live; exact Hc). reflexivity.
    Qed.
    Lemma loop_ok orig n h last k h1 h2 w : chain_of h (c_nodes arm) arm -> all_live h (c_nodes arm) -> NoDup (c_movable arm) ->
      k < n -> missed k h h1 -> tries h1 h2 w -> on_target sv c target w ->
      exists h3, put_inside (c_movable arm) h2 h3 /\
        run t (ik_loop ovf la sv arm target (flags c) idx orig n last) (quiet h nx) = Done (Ok tt) (quiet h3 nx).
    Proof.
      intros Hc Hl Hnd Hk Hm (d & E & Hw) Hon. destruct (missed_kept _ _ _ Hm Hc Hl) as (_ & _ & Hc1 & Hl1).
      destruct (tries_diff h1 h2 w d Hc1 Hl1 E Hw) as (Hf & Ho & ->). destruct (chain_mov_step h1 h2 arm Hf Hc1 Hl1) as [Hc2 Hl2].
      destruct (clamp_all h2 Hc2 Hl2 Hnd) as (h3 & H3 & E3). exists h3. split; [exact H3|].
      replace n with (k + S (n - k - 1)) by lia. destruct (loop_missed orig k (S (n - k - 1)) h h1 last Hm Hc Hl) as (last' & -> & _).
      cbn [ik_loop]. rewrite run_bind, E. cbn [obind]. change (flags c) with (define_operational_space c).
      rewrite (proj2 (reached_on_target sv c target w) Hon). exact E3.
    Qed.
    Lemma loop_inverse orig n h last k h1 h2 e : chain_of h (c_nodes arm) arm -> all_live h (c_nodes arm) ->
      k < n -> missed k h h1 -> run t it (quiet h1 nx) = Done (Err e) (quiet h2 nx) ->
      run t (ik_loop ovf la sv arm target (flags c) idx orig n last) (quiet h nx) = Done (Err e) (quiet h2 nx).
    Proof.
      intros Hc Hl Hk Hm E. replace n with (k + S (n - k - 1)) by lia.
      destruct (loop_missed orig k (S (n - k - 1)) h h1 last Hm Hc Hl) as (last' & -> & _).
      cbn [ik_loop]. rewrite run_bind, E. reflexivity.
    Qed.
    Lemma loop_not_converged orig h h1 : chain_of h (c_nodes arm) arm -> all_live h (c_nodes arm) -> plain h (c_movable arm) -> length orig = c_dof arm ->
      (forall i a p, c_movable arm !! i = Some a -> orig !! i = Some p -> admissible_at h a p) ->
      0 < num_max_try sv -> missed (num_max_try sv) h h1 ->
      exists w h2, run t (end_transform arm) (quiet h1 nx) = Done w (quiet h1 nx) /\ ~ on_target sv c target w /\ frozen h h2 /\
        run t (ik_loop ovf la sv arm target (flags c) idx orig (num_max_try sv) None) (quiet h nx) =
          Done (Err (NotConvergedError (num_max_try sv) (position_error c target w) (rotation_error c target w))) (quiet h2 nx).
    Proof.
      intros Hc Hl Hp Hlen Hadm H0 Hm. destruct (missed_kept _ _ _ Hm Hc Hl) as (Hf & _ & Hc1 & Hl1).
      destruct (loop_missed orig _ 0 h h1 None Hm Hc Hl) as (last' & E & _ & HL). rewrite Nat.add_0_r in E.
      destruct (HL H0) as (w & Hw & Hn & ->). 
      destruct (restore t h1 nx arm orig Hc1) as (h2 & Hr & Hf2 & _); [eapply frozen_plain; eauto|exact Hlen| |].
      { intros i a p Hi Hpi. eapply frozen_adm; eauto. }
      exists w, h2. split; [exact Hw|]. split; [exact Hn|]. split; [eapply frozen_trans; eauto|]. rewrite E. cbn [ik_loop]. rewrite run_bind, Hr. reflexivity.
    Qed.
  End Loop.

  Section Whole.
    Context (t nx : nat) (ovf : bool) (la : linalg T) (sv : solver T) (arm : chain) (target : iso T) (c : constraints) (h : gmap nat (node T)).
    Hypothesis Hc : chain_of h (c_nodes arm) arm.
    Hypothesis Hl : all_live h (c_nodes arm).
    Notation solved := (run t (solve_with_constraints ovf la sv arm target c) (quiet h nx)).
    (** before the loop *)
    Lemma reach_loop idx : ignored_at h arm c idx -> count (flags c) + length idx <= c_dof arm ->
      exists orig, length orig = c_dof arm /\ map Some orig = map (position_at h) (c_movable arm) /\
      solved = obind (run t (ik_loop ovf la sv arm target (flags c) idx orig (num_max_try sv) None) (quiet h nx))
        (fun re s => run t (if is_err re then bind (set_joint_positions arm orig) (fun r => match r with Err e => Ret (Err e) | Ok _ => Ret re end) else Ret re) s).
    Proof.
      intros Hi Hcnt. destruct (run_positions t h nx arm _ Hc) as (orig & Horig & Hlen & Hpos). exists orig. split; [exact Hlen|]. split; [exact Hpos|].
      destruct Hi as (l & Hl0 & Hp & Hs). pose proof (ignored_unique h arm c l idx Hl0 (ex_intro _ l (conj Hl0 (conj Hp Hs)))) as ->.
      pose proof (Forall2_length _ _ _ Hl0) as Hln. rewrite sort_length in Hcnt.
      unfold solve_with_constraints. rewrite run_bind, Horig. cbn [obind]. rewrite run_bind.
      unfold solve_with_constraints_internal. rewrite run_bind, Horig. cbn [obind].
      change (define_operational_space c) with (flags c). change (count_true (flags c)) with (count (flags c)).
      rewrite run_bind. unfold dof. rewrite run_usize_sub by lia. cbn [obind]. rewrite decide_False by lia.
      destruct (run_ignored_indices t h nx arm (ignored_joint_names c)) as (ri & Hri & Hidx'); [eapply movable_live; eauto|].
      rewrite run_bind, Hri. cbn [obind]. destruct ri as [idx'|err].
      - rewrite <- (ignored_unique h arm c idx' (sort_unstable l) Hidx' (ignored_sort _ _ _ _ Hl0)). reflexivity.
      - exfalso. destruct Hidx' as (l1 & nm & l2 & E & _ & Hno & _).
        assert (Hin : nm ∈ ignored_joint_names c) by (rewrite E; set_solver).
        apply elem_of_list_lookup in Hin as [i Hi]. destruct (Forall2_lookup_l _ _ _ _ _ Hl0 Hi) as (j & _ & Hfn).
        destruct Hfn as (a & Ha & Hna & _). apply (Hno a); [eapply elem_of_list_lookup_2; exact Ha|exact Hna].
    Qed.
    Lemma solve_hits idx k h1 h2 w : NoDup (c_movable arm) -> ignored_at h arm c idx -> count (flags c) + length idx <= c_dof arm ->
      k < num_max_try sv -> missed t nx ovf la sv arm target c idx k h h1 -> tries t nx ovf la sv arm target c idx h1 h2 w -> on_target sv c target w ->
      exists h3, put_inside (c_movable arm) h2 h3 /\ solved = Done (Ok tt) (quiet h3 nx).
    Proof.
      intros Hnd Hi Hcnt Hk Hm Ht Hon. destruct (reach_loop idx Hi Hcnt) as (orig & _ & _ & ->).
      destruct (loop_ok t nx ovf la sv arm target c idx orig (num_max_try sv) h None k h1 h2 w Hc Hl Hnd Hk Hm Ht Hon) as (h3 & H3 & ->).
      exists h3. split; [exact H3|reflexivity].
    Qed.
    Section Fails.
      Hypothesis Hpl : plain h (c_movable arm).
      Hypothesis Hin : inside_limits h (c_movable arm).
      Lemma put_back orig e h1 : length orig = c_dof arm -> map Some orig = map (position_at h) (c_movable arm) -> frozen h h1 ->
        exists s, run t (if is_err (Err e : result T unit) then bind (set_joint_positions arm orig) (fun r => match r with Err e => Ret (Err e) | Ok _ => Ret (Err e : result T unit) end)
          else Ret (Err e)) (quiet h1 nx) = Done (Err e) s.
      Proof.
        intros Hlen Hpos Hf. pose proof (start_admissible h arm orig Hc Hin Hpos) as Hadm.
        destruct (restore t h1 nx arm orig) as (h2 & Hr & _).
        { eapply frozen_chain; eauto. } { eapply frozen_plain; eauto. } { assumption. }
        { intros i a p Hi Hpi. eapply frozen_adm; [exact Hf|]. eapply Hadm; eauto. }
        cbn [is_err is_ok negb]. rewrite run_bind, Hr. cbn. eauto.
      Qed.
      Lemma solve_stops idx k h1 h2 e : ignored_at h arm c idx -> count (flags c) + length idx <= c_dof arm ->
        k < num_max_try sv -> missed t nx ovf la sv arm target c idx k h h1 ->
        run t (solve_one_loop_with_constraints ovf la sv arm target (flags c) idx) (quiet h1 nx) = Done (Err e) (quiet h2 nx) ->
        exists s, solved = Done (Err e) s.
      Proof.
        intros Hi Hcnt Hk Hm E. destruct (reach_loop idx Hi Hcnt) as (orig & Hlen & Hpos & ->).
        rewrite (loop_inverse t nx ovf la sv arm target c idx orig (num_max_try sv) h None k h1 h2 e Hc Hl Hk Hm E). cbn [obind].
        apply put_back; [exact Hlen|exact Hpos|]. destruct (missed_kept _ _ _ _ _ _ _ _ _ _ _ _ Hm Hc Hl) as (Hf & _ & Hc1 & Hl1).
        destruct (one_loop_done _ _ _ _ _ _ _ _ _ _ _ _ Hc1 Hl1 E) as (h3 & Eq & Hu).
        apply (f_equal heap) in Eq. cbn in Eq. subst h3. eapply frozen_trans; [exact Hf|apply unch_frozen; exact Hu].
      Qed.
      Lemma solve_misses idx h1 : ignored_at h arm c idx -> count (flags c) + length idx <= c_dof arm ->
        0 < num_max_try sv -> missed t nx ovf la sv arm target c idx (num_max_try sv) h h1 ->
        exists w s, run t (end_transform arm) (quiet h1 nx) = Done w (quiet h1 nx) /\ ~ on_target sv c target w /\
          solved = Done (Err (NotConvergedError (num_max_try sv) (position_error c target w) (rotation_error c target w))) s.
      Proof.
        intros Hi Hcnt H0 Hm. destruct (reach_loop idx Hi Hcnt) as (orig & Hlen & Hpos & ->).
        pose proof (start_admissible h arm orig Hc Hin Hpos) as Hadm.
        destruct (loop_not_converged t nx ovf la sv arm target c idx orig h h1 Hc Hl Hpl Hlen) as (w & h2 & Hw & Hn & Hf & E); [|exact H0|exact Hm|].
        { intros i a p Ha Hp. eapply Hadm; eauto. }
        rewrite E. cbn [obind]. destruct (put_back orig (NotConvergedError (num_max_try sv) (position_error c target w) (rotation_error c target w)) h2 Hlen Hpos Hf) as (s & ->). exists w, s. auto.
      Qed.
    End Fails.
    (** what led to a result *)
    Lemma solve_cases idx r s : ignored_at h arm c idx -> count (flags c) + length idx <= c_dof arm -> solved = Done r s ->
      (exists k h1 h2 w, k < num_max_try sv /\ missed t nx ovf la sv arm target c idx k h h1 /\ tries t nx ovf la sv arm target c idx h1 h2 w /\ on_target sv c target w) \/
      (exists k h1 h2 e, k < num_max_try sv /\ missed t nx ovf la sv arm target c idx k h h1 /\
         run t (solve_one_loop_with_constraints ovf la sv arm target (flags c) idx) (quiet h1 nx) = Done (Err e) (quiet h2 nx)) \/
      (exists h1, missed t nx ovf la sv arm target c idx (num_max_try sv) h h1).
    Proof.
      intros Hi Hcnt E. destruct (reach_loop idx Hi Hcnt) as (orig & _ & _ & Eq). rewrite Eq in E. clear Eq.
      destruct (run t (ik_loop _ _ _ _ _ _ _ _ _ _) _) as [r' s'| | | |] eqn:El; try discriminate E.
      eapply loop_cases; [exact Hc|exact Hl|exact El].
    Qed.
  End Whole.
End VerdictProofs.
