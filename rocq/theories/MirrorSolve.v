(** * The solver in the mirror *)
From Coq Require Import String Reals Lra Lia NArith Sorting.Sorted.
From stdpp Require Import gmap.
From Verif Require Import Scalar ScalarR Geometry Joint Link Prog NodeM ChainM FuncsM IkM LuM SvdM RunLemmas
  SpecJoint SpecNode SpecGraph SpecChain ChainProofs SpecFK FKProofs IkLookup SpecIk IkProofs IkProofs2 SpecCom ComProofs SpecGeom RGeom LinIk SpecStep StepProofs
  LinAlgR LinArm TrajStep SvdDet UnitLin BaseProofs CacheProofs SpecSense SenseLin SpecMirror MirrorLin MirrorProofs.
Local Open Scope R_scope.

Lemma image_axis_scale m v x : vscale (image_axis m v) x = image_axis m (vscale v x).
Proof. destruct v. flips m; gv; ring. Qed.
Lemma image_scale m v x : vscale (image m v) x = image m (vscale v x).
Proof. destruct v. flips m; gv; ring. Qed.
Lemma image_divs m v x : vdivs (image m v) x = image m (vdivs v x).
Proof. destruct v. flips m; gv; unfold Rdiv; ring. Qed.
Lemma image_axis_divs m v x : vdivs (image_axis m v) x = image_axis m (vdivs v x).
Proof. destruct v. flips m; gv; unfold Rdiv; ring. Qed.
Lemma image_axis_neg m v : vneg (image_axis m v) = image_axis m (vneg v).
Proof. destruct v. flips m; gv; ring. Qed.
Lemma image_0 m : image m v0 = v0.
Proof. flips m; gv; ring. Qed.
Lemma image_axis_0 m : image_axis m v0 = v0.
Proof. flips m; gv; ring. Qed.
Lemma image_scaled_axis m q : qscaled_axis (image_rot m q) = image_axis m (qscaled_axis q).
Proof.
  assert (Ev : qvec (image_rot m q) = image_axis m (qvec q)) by (destruct q; reflexivity). assert (Ew : qw (image_rot m q) = qw q) by reflexivity.
  unfold qscaled_axis, qaxis, qangle. rewrite Ev, Ew.
  destruct (sge (qw q) szero); cbn zeta; rewrite ?image_axis_neg, !image_axis_norm; (destruct (sgt _ szero); [rewrite image_axis_divs; apply image_axis_scale|symmetry; apply image_axis_0]).
Qed.
Lemma pose_diff_image m a b : exists p r, calc_pose_diff a b = six p r /\ calc_pose_diff (image_pose m a) (image_pose m b) = six (image m p) (image_axis m r).
Proof.
  exists (vsub (tr a) (tr b)), (qscaled_axis (qrotation_to (rt b) (rt a))). split; [reflexivity|]. unfold calc_pose_diff, qrotation_to. cbn [image_pose tr rt].
  rewrite image_sub, image_conj, image_qmul, image_scaled_axis. reflexivity.
Qed.
Lemma six_image m p r : six (image m p) (image_axis m r) = zip_with Rmult (image_rows m) (six p r).
Proof. reflexivity. Qed.
Lemma len_rot_image m a b c d e f p r : let ops := [a; b; c; d; e; f] in
  target_diff_to_len_rot_diff (select ops (six (image m p) (image_axis m r))) ops =
    (image m (fst (target_diff_to_len_rot_diff (select ops (six p r)) ops)), image_axis m (snd (target_diff_to_len_rot_diff (select ops (six p r)) ops))).
Proof.
  destruct a, b, c, d, e, f; cbv zeta; unfold target_diff_to_len_rot_diff, six; cbn; unfold image, image_axis; cbn; rewrite ?Rmult_0_r; reflexivity.
Qed.
Lemma reached_image m (sv : solver R) p r : reached sv (image m p, image_axis m r) = reached sv (p, r).
Proof. unfold reached. cbn [fst snd]. rewrite image_norm, image_axis_norm. reflexivity. Qed.

Section Solve.
  Variables (m : mirror) (arm : chain).
  Notation rs := (image_rows m).
  Notation msim := (msim m arm).
  Variables (ovf : bool) (la : linalg R) (sv : solver R) (target : iso R).
  Hypothesis free : row_free la.

  Lemma msim_expect {A} (Q : A -> A -> Prop) o o' e : match o, o' with Some x, Some x' => Q x x' | None, None => True | _, _ => False end -> msim Q (expect o e) (expect o' e).
  Proof. destruct o, o'; try contradiction; intros H; [apply msim_ret; exact H|apply msim_panic]. Qed.
  Lemma msim_usize a b : msim (fun x x' => x' = x /\ ((b <= a)%nat -> x = N.of_nat (a - b))) (usize_sub ovf a b) (usize_sub ovf a b).
  Proof. unfold usize_sub. repeat case_match; first [apply msim_panic|apply msim_ret; split; [reflexivity|]]; intros; try reflexivity; contradiction. Qed.
  Lemma msim_remove {A} (g : A -> A) idx : forall i l,
    msim (fun l1 l2 => l2 = map g l1 /\ (length l1 + length idx = length l)%nat /\ forall P, Forall P l -> Forall P l1) (remove_columns ovf i idx l) (remove_columns ovf i idx (map g l)).
  Proof.
    induction idx as [|j idx IH]; intros i l; cbn [remove_columns]; [apply msim_ret; split; [reflexivity|split; [cbn; lia|auto]]|].
    eapply msim_bind; [apply msim_usize|]. intros k _ [-> _]. unfold remove_nth. rewrite map_length. destruct (decide _) as [Hk|Hk]; [|apply msim_panic]. cbn [bind].
    set (l' := take (N.to_nat k) l ++ drop (S (N.to_nat k)) l).
    assert (E : take (N.to_nat k) (map g l) ++ drop (S (N.to_nat k)) (map g l) = map g l') by (unfold l'; rewrite map_app; f_equal; [apply firstn_map|apply skipn_map]).
    assert (L : S (length l') = length l) by (unfold l'; rewrite app_length, take_length, drop_length; lia).
    rewrite E. intros t t' h h' nx nx' Hok Hu. destruct (IH (S i) l' t t' h h' nx nx' Hok Hu) as [H1 H2]. split; [|exact H2].
    unfold image_outcome in *. repeat case_match; try contradiction; [|exact H1]. destruct H1 as ((E1 & E2 & E3) & H1). split; [|exact H1]. split; [exact E1|]. split; [cbn; lia|].
    intros P HP. apply E3. unfold l'. apply Forall_app. split; [apply Forall_take; exact HP|apply Forall_drop; exact HP].
  Qed.
  Lemma msim_remove_same {A} idx i (l : list A) : msim (fun l1 l2 => l2 = l1) (remove_columns ovf i idx l) (remove_columns ovf i idx l).
  Proof.
    intros t t' h h' nx nx' Hok Hu. destruct (msim_remove (fun x : A => x) idx i l t t' h h' nx nx' Hok Hu) as [H1 H2]. rewrite map_id in H1. split; [|exact H2].
    unfold image_outcome in *. repeat case_match; try contradiction; [|exact H1]. destruct H1 as ((E1 & _) & H1). split; [|exact H1]. rewrite map_id in E1. exact E1.
  Qed.
  Lemma msim_insert idx : forall l, msim eq (insert_rows idx l) (insert_rows idx l).
  Proof.
    induction idx as [|j idx IH]; intros l; cbn [insert_rows]; [apply msim_ret; reflexivity|]. unfold insert_nth. destruct (decide _); [cbn [bind]; apply IH|apply msim_panic].
  Qed.
  Lemma msim_new idx ws orig err J av req : length ws = m_rows J -> all_signs ws -> m_rows J = req ->
    tidy J -> length err = req -> ((av < N.of_nat req)%N -> False) -> av = N.of_nat (length (m_cols J)) ->
    msim (image_result m (fun ps ps' => ps' = ps)) (new_positions ovf la sv orig err J av req idx) (new_positions ovf la sv orig (zip_with Rmult ws err) (rowed ws J) av req idx).
  Proof.
    intros Lw Hws Hrow Ht He Hge Eav. destruct (free ws J err Lw Hws Ht) as (F1 & F2 & F3); [congruence|].
    unfold new_positions. destruct (decide _) as [Hd|Hd].
    - destruct (nullspace_function sv) as [g|].
      + eapply (msim_bind _ _ (fun P P' => shaped P (length (m_cols J)) (m_rows J) /\ shaped P' (length (m_cols J)) (m_rows J) /\
          forall b, length b = m_rows J -> act P' (zip_with Rmult ws b) = act P b)); [apply msim_expect; exact F3|].
        intros P P' (HP & HP' & HPP). eapply (msim_bind _ _ (fun v v' => v' = v)); [apply msim_expect; destruct (g orig); [reflexivity|exact I]|].
        intros v _ ->. eapply msim_bind; [apply msim_remove_same|]. intros d _ ->. rewrite rowed_cols.
        pose proof HP as (PR & _ & _). pose proof HP' as (PR' & _ & _). rewrite PR, PR'. destruct (decide _) as [(_ & _ & Ld)|_]; [|apply msim_panic]. cbn zeta.
        assert (HJ : shaped J (m_rows J) (length (m_cols J))) by (split; [reflexivity|split; [reflexivity|exact Ht]]).
        pose proof (null_rowed ws J P P' (m_rows J) (length (m_cols J)) err d Lw Hws HJ HP HP' ltac:(congruence) Ld HPP) as En. rewrite PR, PR' in En. rewrite En.
        eapply msim_bind; [apply msim_insert|]. intros full _ <-. apply msim_ret. reflexivity.
      + rewrite F2. eapply (msim_bind _ _ (fun x x' => x' = x)); [apply msim_expect; destruct (svd_solve la J err); [reflexivity|exact I]|].
        intros x _ ->. eapply msim_bind; [apply msim_insert|]. intros full _ <-. apply msim_ret. reflexivity.
    - assert (Esq : m_rows J = length (m_cols J)) by lia. rewrite (F1 Esq). destruct (lu_solve la J err) as [x|]; apply msim_ret; reflexivity.
  Qed.
  Definition mdrel ops (d d' : list R) : Prop := exists p r, d = select ops (six p r) /\ d' = select ops (six (image m p) (image_axis m r)).
  Lemma rowed_select ops cols : Forall (fun c => length c = 6%nat) cols ->
    map (select ops) (map (zip_with Rmult rs) cols) = map (zip_with Rmult (select ops rs)) (map (select ops) cols).
  Proof. induction 1 as [|c cols Hc H IH]; cbn [map]; [reflexivity|]. rewrite IH. f_equal. apply select_zip. rewrite Hc. reflexivity. Qed.
  Lemma msim_one_loop idx ops : length ops = 6%nat -> ((length idx <= c_dof arm)%nat -> (count_true ops + length idx <= c_dof arm)%nat) ->
    msim (image_result m (mdrel ops)) (solve_one_loop_with_constraints ovf la sv arm target ops idx) (solve_one_loop_with_constraints ovf la sv arm (image_pose m target) ops idx).
  Proof.
    intros Hops Hcnt. unfold solve_one_loop_with_constraints. eapply msim_bind; [apply msim_positions|]. intros orig _ [Lo ->].
    eapply msim_bind; [apply msim_usize|]. unfold dof. intros av _ [-> Hav]. eapply msim_bind; [apply msim_end|]. intros w _ ->. eapply msim_bind; [apply msim_jacobian|].
    intros [r6 cols] J' (E6 & Lc & Hc & ->). cbn [m_rows m_cols rowed] in E6, Lc, Hc |- *. subst r6.
    assert (Er : forall t (J : list (list R)) s, Forall (fun c => length c = 6%nat) J ->
      run t (remove_rows (T := R) ovf 0 0 ops (Mat 6 J)) s = Done (Mat (count_true ops) (map (select ops) J)) s).
    { intros t J s HJ. pose proof (run_remove_rows t ovf ops 0 0 0 J s eq_refl) as H. cbn [Nat.add] in H. rewrite Hops in H. rewrite (H HJ). do 2 f_equal. }
    assert (Hc' : Forall (fun c => length c = 6%nat) (map (zip_with Rmult rs) cols)) by (apply (rowed_tidy rs (Mat 6 cols)); [reflexivity|exact Hc]).
    eapply (msim_bind _ _ (fun M M' => M = Mat (count_true ops) (map (select ops) cols) /\ M' = Mat (count_true ops) (map (zip_with Rmult (select ops rs)) (map (select ops) cols)))).
    { intros t t' h h' nx nx' Hok Hu. unfold rowed. cbn [m_rows m_cols]. rewrite !Er by assumption. apply msim_done; [|exact Hok|exact Hu]. split; [reflexivity|]. rewrite rowed_select by exact Hc. reflexivity. }
    intros _ _ [-> ->]. cbn [m_cols m_rows]. eapply msim_bind; [apply msim_remove|]. intros cs _ (-> & Lcs & HF). rewrite map_length, Lc in Lcs.
    destruct (pose_diff_image m target w) as (p & r & E1 & E2). unfold calc_pose_diff_with_constraints at 1 3. rewrite E1, E2.
    eapply msim_bind.
    - rewrite six_image, select_zip by reflexivity.
      pose proof (msim_new idx (select ops rs) orig (select ops (six p r)) (Mat (count_true ops) cs) av (count_true ops)) as H. unfold rowed in H. cbn [m_rows m_cols] in H. apply H; clear H.
      + apply select_len. exact Hops.
      + apply Forall_select, image_rows_signs.
      + reflexivity.
      + unfold tidy. cbn [m_rows m_cols]. apply HF, Forall_map. eapply Forall_impl; [exact Hc|]. cbn. intros c E. apply select_len. congruence.
      + apply select_len. exact Hops.
      + rewrite Hav by lia. specialize (Hcnt ltac:(lia)). lia.
      + rewrite Hav by lia. f_equal. lia.
    - intros [ps|e] [ps'|e'] Hq; try contradiction; [|apply msim_ret; exact Hq]. cbn in Hq. subst ps'.
      eapply msim_bind; [apply msim_clamped|]. intros _ _ _. eapply msim_bind; [apply msim_end|]. intros v _ ->. apply msim_ret. cbn.
      destruct (pose_diff_image m target v) as (p' & r' & E1' & E2'). exists p', r'. unfold calc_pose_diff_with_constraints. rewrite E1', E2'. split; reflexivity.
  Qed.
  Definition mlrel (o o' : option (vec3 R * vec3 R)) : Prop :=
    match o, o' with Some (p, r), Some (p', r') => p' = image m p /\ r' = image_axis m r | None, None => True | _, _ => False end.
  Lemma msim_loop c idx : let ops := define_operational_space c in ((length idx <= c_dof arm)%nat -> (count_true ops + length idx <= c_dof arm)%nat) ->
    forall orig n last last', mlrel last last' ->
    msim (image_result m eq) (ik_loop ovf la sv arm target ops idx orig n last) (ik_loop ovf la sv arm (image_pose m target) ops idx orig n last').
  Proof.
    intros ops Hcnt orig. induction n as [|n IH]; intros last last' Hl; cbn [ik_loop].
    - eapply msim_bind; [apply msim_set|]. intros [x|e] [x'|e'] Hq; try contradiction; [|apply msim_ret; exact Hq].
      destruct last as [[p r]|], last' as [[p' r']|]; try contradiction; cbn [expect bind]; [|apply msim_panic]. destruct Hl as [-> ->]. apply msim_ret. reflexivity.
    - eapply msim_bind; [apply msim_one_loop; [reflexivity|exact Hcnt]|]. intros [d|e] [d'|e'] Hq; try contradiction; [|apply msim_ret; exact Hq].
      destruct Hq as (p & r & -> & ->). unfold ops, define_operational_space. rewrite len_rot_image. fold (define_operational_space c). fold ops.
      destruct (target_diff_to_len_rot_diff (select ops (six p r)) ops) as [p1 r1]. cbn [fst snd]. rewrite reached_image.
      destruct (reached sv (p1, r1)); [|apply IH; split; reflexivity].
      eapply msim_bind; [apply msim_positions|]. intros ps _ [_ ->]. eapply msim_bind; [apply msim_clamped|]. intros _ _ _. apply msim_ret. reflexivity.
  Qed.
  Lemma msim_read {A} (g : node R -> A) a : a ∈ c_movable arm -> (forall n n', image_node m n n' -> g n' = g n) -> msim eq (read a g) (read a g).
  Proof.
    intros Ha Hg t t' h h' nx nx' Hok Hu. destruct (proj2 (proj2 (proj2 (proj2 Hok))) a Ha) as (n & Hn & _). destruct (img_at m _ _ _ _ Hu Hn) as (n' & Hn' & Hnn).
    assert (E : run t (read a g) (quiet h nx) = Done (g n) (quiet h nx)) by exact (run_read t a g h nx ∅ n Hn (lookup_empty _)).
    assert (E' : run t' (read a g) (quiet h' nx') = Done (g n') (quiet h' nx')) by exact (run_read t' a g h' nx' ∅ n' Hn' (lookup_empty _)).
    rewrite E, E'. apply msim_done; [symmetry; apply Hg; exact Hnn|exact Hok|exact Hu].
  Qed.
  Lemma msim_position nm l : (forall a, a ∈ l -> a ∈ c_movable arm) ->
    msim eq (positionM (fun a => read a (fun n : node R => String.eqb (j_name (n_joint n)) nm)) l)
      (positionM (fun a => read a (fun n : node R => String.eqb (j_name (n_joint n)) nm)) l).
  Proof.
    induction l as [|a l IH]; intros Hin; cbn [positionM]; [apply msim_ret; reflexivity|].
    eapply msim_bind; [apply msim_read; [apply Hin, elem_of_list_here|]|].
    - intros n n' (_ & _ & _ & (Ej & _) & _). rewrite Ej. reflexivity.
    - intros b _ <-. destruct b; [apply msim_ret; reflexivity|].
      eapply msim_bind; [apply IH; intros; apply Hin, elem_of_list_further; assumption|]. intros o _ <-. apply msim_ret. reflexivity.
  Qed.
  Definition counted (names : list string) (r r' : result R (list nat)) : Prop :=
    r' = r /\ match r with Ok idx => length idx = length names | Err e => image_error m e = e end.
  Lemma msim_ignored names : msim (counted names) (ignored_indices arm names) (ignored_indices arm names).
  Proof.
    induction names as [|nm names IH]; cbn [ignored_indices]; [apply msim_ret; split; reflexivity|].
    eapply msim_bind; [apply msim_position; auto|]. intros o _ <-. destruct o as [i|]; [|apply msim_ret; split; reflexivity].
    eapply msim_bind; [exact IH|]. intros r _ [-> Hr]. apply msim_ret. split; [reflexivity|]. destruct r; [cbn; congruence|exact Hr].
  Qed.
  Lemma msim_solve c : msim (image_result m eq) (solve_with_constraints ovf la sv arm target c) (solve_with_constraints ovf la sv arm (image_pose m target) c).
  Proof.
    unfold solve_with_constraints. eapply msim_bind; [apply msim_positions|]. intros orig _ [Lo ->]. eapply (msim_bind _ _ (image_result m eq)).
    - unfold solve_with_constraints_internal. eapply msim_bind; [apply msim_positions|]. intros o _ [Lo2 ->].
      eapply msim_bind; [apply msim_usize|]. unfold dof. intros av _ [-> Hav]. destruct (decide _) as [|Hge]; [apply msim_ret; reflexivity|].
      eapply msim_bind; [apply msim_ignored|]. intros r _ [-> Hr]. destruct r as [idx|e]; [|apply msim_ret; cbn; symmetry; exact Hr].
      apply msim_loop; [|exact I]. rewrite sort_length, Hr. intros Hl. rewrite (Hav Hl) in Hge. lia.
    - intros [x|e] [x'|e'] Hq; try contradiction; cbn [is_err is_ok negb]; [apply msim_ret; exact Hq|].
      eapply msim_bind; [apply msim_set|]. intros [y|e2] [y'|e2'] Hq2; try contradiction; apply msim_ret; assumption.
  Qed.
End Solve.

(** ** the center of mass *)
Lemma centers_image m h h' l cs : image_robot m h h' -> centers h l cs -> centers h' l (map (fun mc => (fst mc, image m (snd mc))) cs).
Proof.
  intros H. induction 1 as [|a l cs n Hn Hk Hc IH|a l cs n lk w Hn Hk Hw Hc IH]; [constructor| |];
    destruct (img_at m _ _ _ _ H Hn) as (n' & Hn' & _ & _ & _ & _ & Hl); rewrite Hk in Hl; unfold image_link in Hl; destruct (n_link n') as [lk'|] eqn:Hk'; try contradiction.
  - apply centers_none with n'; assumption.
  - destruct Hl as [Em Eo]. pose proof (centers_link h' a l _ n' lk' (image_pose m w) Hn' Hk' (img_world m _ _ _ _ H Hw) IH) as Hx. cbn [map fst snd].
    rewrite Em, Eo in Hx. cbn [image_pose tr rt] in Hx. rewrite image_turn, image_add in Hx. exact Hx.
Qed.
Lemma weighted_image m cs : weighted_sum (map (fun mc => (fst mc, image m (snd mc))) cs) = image m (weighted_sum cs) /\
  total_mass (map (fun mc => (fst mc, image m (snd mc))) cs) = total_mass cs.
Proof.
  split.
  - unfold weighted_sum. rewrite map_map. cbn [fst snd]. rewrite <- (image_0 m) at 1. generalize (v0 : vec3 R) as acc.
    induction cs as [|[k c] cs IH]; intros acc; [reflexivity|]. cbn [map foldl fst snd]. rewrite image_scale, image_add. apply IH.
  - unfold total_mass. rewrite map_map. reflexivity.
Qed.
