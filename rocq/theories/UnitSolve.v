(** * The solver in another unit *)
From Coq Require Import String Reals Lra Lia NArith.
From stdpp Require Import gmap.
From Verif Require Import Scalar ScalarR Geometry Joint Link Prog NodeM ChainM FuncsM IkM LuM RunLemmas
  SpecJoint SpecNode SpecGraph SpecChain ChainProofs SpecFK FKProofs SpecIk IkProofs IkProofs2 SpecCom ComProofs SpecGeom RGeom LinIk SpecStep
  BaseProofs SpecUnit UnitLin CacheProofs UnitProofs.
Local Open Scope R_scope.

Lemma pose_diff_rescaled k a b : exists p r, calc_pose_diff a b = six p r /\ calc_pose_diff (rescaled k a) (rescaled k b) = six (times k p) r.
Proof.
  exists (vsub (tr a) (tr b)), (qscaled_axis (qrotation_to (rt b) (rt a))). split; [reflexivity|]. unfold calc_pose_diff. cbn [rescaled tr rt].
  assert (E : vsub (times k (tr a)) (times k (tr b)) = times k (vsub (tr a) (tr b))) by (destruct (tr a), (tr b); gv; ring). rewrite E. reflexivity.
Qed.
Lemma six_rescaled k p r : six (times k p) r = zip_with Rmult (row_units k) (six p r).
Proof. unfold six, row_units. cbn. rewrite !Rmult_1_l. reflexivity. Qed.
Lemma len_rot_rescaled k a b c d e f p r : let ops := [a; b; c; d; e; f] in
  target_diff_to_len_rot_diff (select ops (six (times k p) r)) ops =
    (times k (fst (target_diff_to_len_rot_diff (select ops (six p r)) ops)), snd (target_diff_to_len_rot_diff (select ops (six p r)) ops)).
Proof.
  destruct a, b, c, d, e, f; cbv zeta; unfold target_diff_to_len_rot_diff, six; cbn; f_equal; unfold times; cbn; rewrite ?Rmult_0_r; reflexivity.
Qed.
Lemma reached_rescaled k sv sv' p r : 0 < k -> same_solver k sv sv' -> reached sv' (times k p, r) = reached sv (p, r).
Proof.
  intros Hk (E1 & E2 & _). unfold reached. cbn [fst snd]. rewrite E1, E2, vnorm_times, (Rabs_pos_eq k) by lra. rewrite <- vnorm_len. f_equal.
  cbn [slt RScalar]. apply eq_true_iff_eq. rewrite !Rltb_spec. split; intros H; [apply (Rmult_lt_reg_l k); lra|apply Rmult_lt_compat_l; lra].
Qed.
Lemma add_rescaled k sv sv' ks : same_solver k sv sv' -> forall orig x,
  add_positions_with_multiplier sv' (zip_with Rmult ks orig) (zip_with Rmult ks x) = zip_with Rmult ks (add_positions_with_multiplier sv orig x).
Proof.
  intros (_ & _ & E & _). unfold add_positions_with_multiplier. rewrite E. induction ks as [|u ks IH]; intros [|o orig] [|y x]; cbn; try reflexivity. f_equal; [ring|apply IH].
Qed.

Section Solve.
  Variables (k : R) (arm : chain) (ks : list R).
  Hypothesis k_pos : 0 < k.
  Hypothesis ks_len : length ks = c_dof arm.
  Hypothesis ks_pos : Forall (fun u => u <> 0) ks.
  Notation sim := (sim k arm ks).
  Variables (ovf : bool) (la la' : linalg R) (sv sv' : solver R) (target : iso R).
  Hypothesis la_lu : forall m b, lu_solve la m b = na_lu_solve m b.
  Hypothesis la_lu' : forall m b, lu_solve la' m b = na_lu_solve m b.
  Hypothesis same : same_solver k sv sv'.

  Definition drel ops (d d' : list R) : Prop := exists p r, d = select ops (six p r) /\ d' = select ops (six (times k p) r).

  Lemma sim_one_loop ops : length ops = 6%nat -> count_true ops = c_dof arm ->
    sim (same_result k (drel ops)) (solve_one_loop_with_constraints ovf la sv arm target ops [])
      (solve_one_loop_with_constraints ovf la' sv' arm (rescaled k target) ops []).
  Proof.
    intros Hops Hcnt. unfold solve_one_loop_with_constraints. eapply sim_bind; [apply sim_positions|]. intros orig orig' [Lo ->].
    eapply (sim_bind _ _ _ (fun av av' => av' = av /\ av = N.of_nat (c_dof arm))); [unfold usize_sub; rewrite decide_True by apply Nat.le_0_l; apply sim_ret; split; [reflexivity|cbn [length]; rewrite Nat.sub_0_r; reflexivity]|].
    intros av _ [-> Hav]. eapply sim_bind; [apply sim_end|]. intros w w' ->. eapply sim_bind; [apply sim_jacobian; exact k_pos|].
    intros [r6 cols] J' (E6 & Lc & Hc & ->). cbn [m_rows m_cols] in E6, Lc, Hc |- *. subst r6.
    assert (Er : forall t i (J : list (list R)) s, i = 0%nat -> Forall (fun c => length c = 6%nat) J ->
      run t (remove_rows (T := R) ovf i 0 ops (Mat 6 J)) s = Done (Mat (c_dof arm) (map (select ops) J)) s).
    { intros t i J s -> HJ. pose proof (run_remove_rows t ovf ops 0 0 0 J s eq_refl) as H. cbn [Nat.add] in H. rewrite Hops in H. rewrite Hcnt in H. rewrite (H HJ).
      do 2 f_equal. }
    assert (Hc' : Forall (fun c => length c = 6%nat) (zip_with (rescaled_column (row_units k)) ks cols)).
    { clear -Hc. revert ks. induction Hc as [|c cols Hc H IH]; intros [|u us]; cbn; constructor; [|apply IH]. destruct c as [|? [|? [|? [|? [|? [|? [|]]]]]]]; try discriminate Hc; reflexivity. }
    eapply (sim_bind _ _ _ (fun M M' => M = Mat (c_dof arm) (map (select ops) cols) /\ M' = Mat (c_dof arm) (map (select ops) (zip_with (rescaled_column (row_units k)) ks cols)))).
    { intros t t' h h' nx nx' Hok Hu. rewrite !Er by (try reflexivity; assumption). apply sim_done; auto. }
    intros _ _ [-> ->]. cbn [m_cols m_rows]. cbn [remove_columns bind].
    destruct (pose_diff_rescaled k target w) as (p & r & E1 & E2). unfold calc_pose_diff_with_constraints at 1 3. rewrite E1, E2.
    eapply (sim_bind _ _ _ (same_result k (fun ps ps' => ps' = zip_with Rmult ks ps))).
    - unfold new_positions. rewrite Hcnt. destruct (decide _) as [Hlt|_].
      + exfalso. rewrite Hav in Hlt. lia.
      + rewrite la_lu, la_lu'. rewrite select_columns by (eapply Forall_impl; [exact Hc|]; cbn; intros; congruence).
        rewrite six_rescaled, select_zip by reflexivity.
        pose proof (lu_rescaled (select ops (row_units k)) ks (Mat (c_dof arm) (map (select ops) cols)) (c_dof arm) (select ops (six p r))) as H. unfold rescaled_mat in H. cbn [m_rows m_cols] in H. rewrite H; clear H.
        * destruct (na_lu_solve _ _) as [x|]; cbn [fmap option_fmap option_map]; apply sim_ret; [|reflexivity]. cbn. apply (add_rescaled k); exact same.
        * split; [reflexivity|]. split; [cbn; rewrite map_length; exact Lc|]. cbn [m_cols]. apply Forall_map. eapply Forall_impl; [exact Hc|]. cbn. intros c E. rewrite <- Hcnt. apply select_len. congruence.
        * rewrite <- Hcnt. apply select_len. exact Hops.
        * rewrite <- Hcnt. apply select_len. exact Hops.
        * exact ks_len.
        * apply Forall_select. unfold row_units. repeat constructor; lra.
        * exact ks_pos.
    - intros [ps|e] [ps'|e'] Hq; try contradiction; [|apply sim_ret; exact Hq]. cbn in Hq. subst ps'.
      eapply sim_bind; [apply sim_clamped; exact k_pos|]. intros _ _ _. eapply sim_bind; [apply sim_end|]. intros v v' ->. apply sim_ret. cbn.
      destruct (pose_diff_rescaled k target v) as (p' & r' & E1' & E2'). exists p', r'. unfold calc_pose_diff_with_constraints. rewrite E1', E2'. split; reflexivity.
  Qed.
  Definition lrel (o o' : option (vec3 R * vec3 R)) : Prop :=
    match o, o' with Some (p, r), Some (p', r') => p' = times k p /\ r' = r | None, None => True | _, _ => False end.
  Lemma sim_loop c : let ops := define_operational_space c in count_true ops = c_dof arm -> forall orig, length orig = c_dof arm -> forall n last last', lrel last last' ->
    sim (same_result k eq) (ik_loop ovf la sv arm target ops [] orig n last) (ik_loop ovf la' sv' arm (rescaled k target) ops [] (zip_with Rmult ks orig) n last').
  Proof.
    intros ops Hcnt orig Lo. induction n as [|n IH]; intros last last' Hl; cbn [ik_loop].
    - eapply sim_bind; [apply sim_set; [exact k_pos|exact Lo|exact ks_len]|]. intros [x|e] [x'|e'] Hq; try contradiction; [|apply sim_ret; exact Hq].
      destruct last as [[p r]|], last' as [[p' r']|]; try contradiction; cbn [expect bind]; [|apply sim_panic]. destruct Hl as [-> ->].
      apply sim_ret. cbn. destruct same as (_ & _ & _ & ->). reflexivity.
    - eapply sim_bind; [apply sim_one_loop; [reflexivity|exact Hcnt]|]. intros [d|e] [d'|e'] Hq; try contradiction; [|apply sim_ret; exact Hq].
      destruct Hq as (p & r & -> & ->). unfold ops, define_operational_space. rewrite len_rot_rescaled. fold (define_operational_space c). fold ops.
      destruct (target_diff_to_len_rot_diff (select ops (six p r)) ops) as [p1 r1]. cbn [fst snd]. rewrite (reached_rescaled k sv sv' p1 r1 k_pos same).
      destruct (reached sv (p1, r1)); [|apply IH; split; reflexivity].
      eapply sim_bind; [apply sim_positions|]. intros ps ps' [_ ->]. eapply sim_bind; [apply sim_clamped; exact k_pos|]. intros _ _ _. apply sim_ret. reflexivity.
  Qed.
  Lemma sim_solve c : ignored_joint_names c = [] -> (c_dof arm <= count_true (define_operational_space c))%nat ->
    sim (same_result k eq) (solve_with_constraints ovf la sv arm target c) (solve_with_constraints ovf la' sv' arm (rescaled k target) c).
  Proof.
    intros Hno Hcnt. unfold solve_with_constraints. eapply sim_bind; [apply sim_positions|]. intros orig orig' [Lo ->]. eapply (sim_bind _ _ _ (same_result k eq)).
    - unfold solve_with_constraints_internal. rewrite Hno. cbn [length ignored_indices]. eapply sim_bind; [apply sim_positions|]. intros o o' [Lo2 ->].
      unfold usize_sub. rewrite decide_True by apply Nat.le_0_l. cbn [bind]. rewrite Nat.sub_0_r. unfold dof. destruct (decide _) as [|Hge]; [apply sim_ret; reflexivity|].
      destruct same as (_ & _ & _ & ->). apply sim_loop; [lia|exact Lo2|exact I].
    - intros [x|e] [x'|e'] Hq; try contradiction; cbn [is_err is_ok negb]; [apply sim_ret; exact Hq|].
      eapply sim_bind; [apply sim_set; [exact k_pos|exact Lo|exact ks_len]|]. intros [y|e2] [y'|e2'] Hq2; try contradiction; apply sim_ret; assumption.
  Qed.
End Solve.

(** ** the center of mass *)
Lemma centers_rescaled k h h' l cs : same_robot k h h' -> centers h l cs -> centers h' l (map (fun mc => (fst mc, times k (snd mc))) cs).
Proof.
  intros H. induction 1 as [|a l cs n Hn Hk Hc IH|a l cs n lk w Hn Hk Hw Hc IH]; [constructor| |];
    destruct (rel_at k _ _ _ _ H Hn) as (n' & Hn' & _ & _ & _ & _ & Hl); rewrite Hk in Hl; unfold same_link in Hl; destruct (n_link n') as [lk'|] eqn:Hk'; try contradiction.
  - apply centers_none with n'; assumption.
  - destruct Hl as [Em Eo]. pose proof (centers_link h' a l _ n' lk' (rescaled k w) Hn' Hk' (rel_world k _ _ _ _ H Hw) IH) as Hx. cbn [map fst snd].
    rewrite Em, Eo in Hx. cbn [rescaled tr rt] in Hx.
    assert (E : vadd (times k (tr w)) (qrot (rt w) (times k (tr (in_origin (l_inertial lk))))) = times k (vadd (tr w) (qrot (rt w) (tr (in_origin (l_inertial lk)))))).
    { rewrite !qrot_turn. destruct (rt w), (tr w), (tr (in_origin (l_inertial lk))). gv; ring. }
    rewrite E in Hx. exact Hx.
Qed.
Lemma weighted_rescaled k cs : weighted_sum (map (fun mc => (fst mc, times k (snd mc))) cs) = times k (weighted_sum cs) /\
  total_mass (map (fun mc => (fst mc, times k (snd mc))) cs) = total_mass cs.
Proof.
  split.
  - unfold weighted_sum. rewrite map_map. cbn [fst snd]. assert (E0 : v0 = times k v0) by (gv; ring). rewrite E0 at 1. generalize (v0 : vec3 R) as acc.
    induction cs as [|[m c] cs IH]; intros acc; [reflexivity|]. cbn [map foldl fst snd].
    assert (E : vadd (times k acc) (vscale (times k c) m) = times k (vadd acc (vscale c m))) by (destruct acc, c; gv; ring). rewrite E. apply IH.
  - unfold total_mass. rewrite map_map. reflexivity.
Qed.
