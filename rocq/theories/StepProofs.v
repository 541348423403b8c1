(** * One iteration of the solver, exactly *)
From Coq Require Import String NArith Sorting.Sorted.
From stdpp Require Import gmap.
From Verif Require Import Scalar Geometry Joint Link Prog NodeM ChainM FuncsM IkM RunLemmas
  SpecJoint SpecNode RangeProofs JointProofs NodeProofs SpecGraph GraphProofs SpecChain ChainProofs
  SpecFK FKProofs VelocityProofs IkLookup SpecIk IkProofs IkProofs2 SpecStep.

Section Without.
  Context {A : Type}.
  Implicit Types (l : list A) (idx : list nat).
  Lemma without_from_app idx l1 : forall k l2,
    without_from k idx (l1 ++ l2) = without_from k idx l1 ++ without_from (k + length l1) idx l2.
  Proof.
    induction l1 as [|x l1 IH]; intros k l2; cbn; [rewrite Nat.add_0_r; reflexivity|].
    rewrite IH, Nat.add_succ_r. case_decide; reflexivity.
  Qed.
  Lemma without_from_none idx l : forall k, (forall j, j ∈ idx -> k + length l <= j \/ j < k) -> without_from k idx l = l.
  Proof.
    induction l as [|x l IH]; intros k H; cbn; [reflexivity|].
    rewrite decide_False by (intros Hin; apply H in Hin; cbn in Hin; lia).
    rewrite IH; [reflexivity|]. intros j Hj. apply H in Hj. cbn in Hj. lia.
  Qed.
  Lemma without_from_ext idx1 idx2 l : forall k, (forall j, k <= j < k + length l -> j ∈ idx1 <-> j ∈ idx2) ->
    without_from k idx1 l = without_from k idx2 l.
  Proof.
    induction l as [|x l IH]; intros k H; cbn; [reflexivity|].
    rewrite (IH (S k)) by (intros j Hj; apply H; cbn; lia).
    assert (Hk : k ∈ idx1 <-> k ∈ idx2) by (apply H; cbn; lia).
    destruct (decide (k ∈ idx1)), (decide (k ∈ idx2)); tauto || reflexivity.
  Qed.
  Lemma without_from_skip idx x l k : k ∉ idx -> without_from k idx (x :: l) = x :: without_from (S k) idx l.
  Proof. intros H. cbn. rewrite decide_False by exact H. reflexivity. Qed.
  (** removing the first *)
  Lemma without_from_cons j idx l k : k <= j -> j < k + length l -> Forall (lt j) idx ->
    without_from k (j :: idx) l = take (j - k) l ++ without_from (S j) idx (drop (S (j - k)) l).
  Proof.
    intros Hk Hj Hs. rewrite Forall_forall in Hs.
    destruct (lookup_lt_is_Some_2 l (j - k)) as [x Hx]; [lia|].
    rewrite <- (take_drop_middle l (j - k) x Hx) at 1. rewrite without_from_app. f_equal.
    - apply without_from_none. intros i Hi. rewrite take_length. apply elem_of_cons in Hi as [->|Hi]; [lia|]. apply Hs in Hi. lia.
    - rewrite take_length. replace (k + (j - k) `min` length l) with j by lia.
      cbn. rewrite decide_True by set_solver. apply without_from_ext. intros i Hi. set_solver by lia.
  Qed.
End Without.

Lemma sorted_bound idx : forall j n, StronglySorted lt (j :: idx) ->
  Forall (fun i => i < n + length (j :: idx)) (j :: idx) -> j <= n.
Proof.
  induction idx as [|k idx IH]; intros j n Hs Hr.
  - apply Forall_cons in Hr as [Hr _]. cbn in Hr. lia.
  - apply StronglySorted_inv in Hs as [Hs Hj]. apply Forall_cons in Hr as [Hr1 Hr].
    apply Forall_cons in Hj as [Hjk _]. enough (k <= S n) by lia.
    apply IH; [exact Hs|]. eapply Forall_impl; [exact Hr|]. cbn. intros. lia.
Qed.
Section StepProofs.
  Context {T : Type} `{Sc : Scalar T}.
  Implicit Types (h : gmap nat (node T)).

  Lemma run_usize_sub t ovf a b (s : sh T) : b <= a -> run t (usize_sub ovf a b) s = Done (N.of_nat (a - b)) s.
  Proof. intros H. unfold usize_sub. rewrite decide_True by lia. reflexivity. Qed.
  Lemma run_remove_columns {A} t ovf idx : forall i (l : list A) (s : sh T),
    StronglySorted lt idx -> Forall (fun j => i <= j < i + length l) idx ->
    run t (remove_columns ovf i idx l) s = Done (without_from i idx l) s.
  Proof.
    induction idx as [|j idx IH]; intros i l s Hs Hr; cbn [remove_columns].
    - rewrite without_from_none by set_solver. reflexivity.
    - apply StronglySorted_inv in Hs as [Hs Hj]. apply Forall_cons in Hr as [Hij Hr].
      rewrite run_bind, run_usize_sub by lia. cbn [obind]. rewrite run_bind. unfold remove_nth.
      rewrite decide_True by lia. cbn [run obind]. rewrite Nat2N.id.
      set (l' := take (j - i) l ++ drop (S (j - i)) l).
      assert (Hl' : length l' = length l - 1) by (unfold l'; rewrite app_length, take_length, drop_length; lia).
      rewrite IH; [|exact Hs|].
      + f_equal. rewrite without_from_cons by (lia || assumption). unfold l'. rewrite without_from_app.
        rewrite take_length. replace (S i + (j - i) `min` length l) with (S j) by lia. f_equal.
        apply without_from_none. intros k Hk. rewrite take_length. rewrite Forall_forall in Hj. apply Hj in Hk. lia.
      + rewrite Hl'. rewrite Forall_forall in *. intros k Hk. specialize (Hr k Hk). specialize (Hj k Hk). lia.
  Qed.

  Lemma run_insert_rows t idx : forall (l : list T) s,
    StronglySorted lt idx -> Forall (fun j => j < length l + length idx) idx ->
    exists full, run t (insert_rows idx l) s = Done full s /\ length full = length l + length idx /\ spread_to idx l full.
  Proof.
    induction idx as [|j idx IH]; intros l s Hs Hr; cbn [insert_rows].
    - exists l. split; [reflexivity|]. split; [cbn; lia|]. split; [apply without_from_none; set_solver|set_solver].
    - pose proof Hs as Hs0. apply StronglySorted_inv in Hs as [Hs Hj].
      assert (Hjl : j <= length l).
      { eapply sorted_bound; eauto. }
      rewrite run_bind. unfold insert_nth. rewrite decide_True by exact Hjl. cbn [run obind].
      set (l1 := take j l ++ szero :: drop j l).
      assert (Hl1 : length l1 = S (length l)) by (unfold l1; rewrite app_length, take_length; cbn; rewrite drop_length; lia).
      destruct (IH l1 s Hs) as (full & Hrun & Hlen & Hw & Hz).
      { apply Forall_cons in Hr as [_ Hr]. eapply Forall_impl; [exact Hr|]. cbn. intros. lia. }
      exists full. split; [exact Hrun|]. split; [cbn in *; lia|].
      assert (Hbelow : forall k, k <= j -> full !! k = l1 !! k).
      { intros k Hk. destruct (lookup_lt_is_Some_2 l1 k) as [x Hx]; [lia|]. rewrite Hx.
        eapply insert_rows_below; [|exact Hx|exact Hrun]. eapply Forall_impl; [exact Hj|]. cbn. intros. lia. }
      assert (Hlj : l1 !! j = Some szero).
      { unfold l1. rewrite lookup_app_r by (rewrite take_length; lia). rewrite take_length. replace (j - j `min` length l) with 0 by lia. reflexivity. }
      assert (Htake : take j full = take j l).
      { apply list_eq. intros k. destruct (decide (k < j)) as [Hk|Hk].
        - rewrite !lookup_take by exact Hk. rewrite Hbelow by lia. unfold l1. rewrite lookup_app_l by (rewrite take_length; lia).
          apply lookup_take. exact Hk.
        - rewrite !lookup_take_ge by lia. reflexivity. }
      split.
      + unfold without. rewrite without_from_cons by (lia || assumption). rewrite Nat.sub_0_r, Htake.
        assert (Hfull : full = take j l ++ szero :: drop (S j) full).
        { rewrite <- Htake. symmetry. apply take_drop_middle. rewrite Hbelow by lia. exact Hlj. }
        unfold without in Hw. rewrite Hfull in Hw. rewrite without_from_app in Hw.
        rewrite without_from_none in Hw by (intros k Hk; rewrite take_length; rewrite Forall_forall in Hj; apply Hj in Hk; lia).
        rewrite take_length in Hw. replace (0 + j `min` length l) with j in Hw by lia.
        rewrite without_from_skip in Hw by (intros Hk; rewrite Forall_forall in Hj; apply Hj in Hk; lia).
        unfold l1 in Hw. apply app_inv_head in Hw. injection Hw as Hw. rewrite Hw. apply take_drop.
      + intros k Hk. apply elem_of_cons in Hk as [->|Hk]; [rewrite Hbelow by lia; exact Hlj|auto].
  Qed.

  Lemma select_flagged {A} flags : forall (l : list A), select flags l = flagged flags l.
  Proof. induction flags as [|[] flags IH]; intros [|x l]; cbn; try reflexivity; rewrite IH; reflexivity. Qed.
  Lemma without_from_map {A B} (f : A -> B) idx l : forall k, without_from k idx (map f l) = map f (without_from k idx l).
  Proof. induction l as [|x l IH]; intros k; cbn; [reflexivity|]. rewrite IH. case_decide; reflexivity. Qed.

  (** what one iteration does up to the linear solve *)
  Lemma run_one_loop t ovf la sv h nx arm target ops idx cols h1 w :
    chain_of h (c_nodes arm) arm -> all_live h (c_nodes arm) ->
    length ops = 6 -> StronglySorted lt idx -> Forall (fun j => j < c_dof arm) idx ->
    run t (end_transform arm) (quiet h nx) = Done w (quiet h nx) ->
    run t (jacobian arm) (quiet h nx) = Done (Mat 6 cols) (quiet h1 nx) ->
    exists orig, map Some orig = map (position_at h) (c_movable arm) /\
      run t (solve_one_loop_with_constraints ovf la sv arm target ops idx) (quiet h nx) =
      run t (r <- new_positions ovf la sv orig (flagged ops (calc_pose_diff target w)) (reduced ops idx cols)
                    (N.of_nat (c_dof arm - length idx)) (count_true ops) idx ;;
             match r with
             | Err e => Ret (Err e)
             | Ok ps =>
                 set_joint_positions_clamped arm ps ;;;
                 t <- end_transform arm ;;
                 Ret (Ok (calc_pose_diff_with_constraints target t ops))
             end) (quiet h1 nx).
  Proof.
    intros Hc Hl Hops Hs Hr Hw HJ. unfold solve_one_loop_with_constraints.
    destruct (run_positions t h nx arm _ Hc) as (orig & Horig & Hlo & Hpos). exists orig. split; [exact Hpos|].
    rewrite run_bind, Horig. cbn [obind].
    assert (Hni : length idx <= c_dof arm).
    { clear -Hs Hr. assert (Hnd : NoDup idx).
      { clear -Hs. induction Hs as [|j idx Hs IH Hj]; constructor; [|exact IH]. intros Hin. rewrite Forall_forall in Hj. apply Hj in Hin. lia. }
      rewrite <- (seq_length (c_dof arm) 0). apply submseteq_length, NoDup_submseteq; [exact Hnd|].
      intros j Hj. rewrite Forall_forall in Hr. apply elem_of_seq. specialize (Hr j Hj). lia. }
    rewrite run_bind. unfold dof. rewrite run_usize_sub by exact Hni. cbn [obind].
    rewrite run_bind, Hw. cbn [obind].
    destruct (jacobian_done _ _ _ _ _ _ Hl HJ) as (h1' & Eq & H1 & _ & Hlen & Hcols). cbn [m_cols] in *.
    rewrite run_bind, HJ. cbn [obind].
    rewrite run_bind. change 6 with (0 + 6) at 1. rewrite <- Hops.
    rewrite (run_remove_rows t ovf ops 0 0 0 cols (quiet h1 nx)); [|reflexivity|rewrite Hops; exact Hcols].
    cbn [obind]. rewrite run_bind. cbn [m_cols m_rows].
    rewrite (run_remove_columns t ovf idx 0); [|exact Hs|].
    2:{ rewrite map_length, Hlen. eapply Forall_impl; [exact Hr|]. cbn. intros. lia. }
    cbn [obind]. unfold calc_pose_diff_with_constraints at 1. rewrite select_flagged.
    unfold reduced, without, count_true. rewrite without_from_map.
    rewrite (map_ext (fun c : list T => take 0 c ++ select ops (drop 0 c)) (flagged ops)); [reflexivity|].
    intros c. cbn. apply select_flagged.
  Qed.

  (** the step when the linear solve proposes [full] *)
  Definition step_to t h nx arm target ops (m : T) (full : list T) (r : outcome T (result T (list T))) : Prop :=
    exists h' w, r = Done (Ok (flagged ops (calc_pose_diff target w))) (quiet h' nx) /\
      run t (end_transform arm) (quiet h' nx) = Done w (quiet h' nx) /\
      frozen h h' /\ offm (c_movable arm) h h' /\
      forall j a n, c_movable arm !! j = Some a -> h !! a = Some n ->
        position_at h' a = Some (match full !! j with
          | Some y => limited (j_limits (n_joint n)) (sadd (j_position (n_joint n)) (smul m y))
          | None => j_position (n_joint n) end).
  Lemma finish_step t la sv h nx arm target ops idx cols h1 err av req ovf orig full :
    chain_of h (c_nodes arm) arm -> all_live h (c_nodes arm) -> NoDup (c_movable arm) ->
    unch h h1 -> map Some orig = map (position_at h) (c_movable arm) ->
    run t (new_positions ovf la sv orig err cols av req idx) (quiet h1 nx) =
      Done (Ok (add_positions_with_multiplier sv orig full)) (quiet h1 nx) ->
    step_to t h nx arm target ops (jacobian_multiplier sv) full
      (run t (r <- new_positions ovf la sv orig err cols av req idx ;;
              match r with
              | Err e => Ret (Err e)
              | Ok ps =>
                  set_joint_positions_clamped arm ps ;;;
                  t <- end_transform arm ;;
                  Ret (Ok (calc_pose_diff_with_constraints target t ops))
              end) (quiet h1 nx)).
  Proof.
    intros Hc Hl Hnd H1 Hpos Hnew. rewrite run_bind, Hnew. cbn [obind].
    assert (Hl1 : all_live h1 (c_movable arm)).
    { eapply frozen_live; [apply unch_frozen; exact H1|]. eapply movable_live; eauto. }
    set (ps := add_positions_with_multiplier sv orig full).
    rewrite run_bind, (run_clamped t h1 nx arm ps Hl1). cbn [obind].
    assert (Hl2 : all_live (upd_all clampF h1 (zip (c_movable arm) ps)) (c_nodes arm)).
    { eapply frozen_live; [apply upd_clamp_frozen|]. eapply frozen_live; [apply unch_frozen; exact H1|assumption]. }
    destruct (run_end_transform t _ nx arm Hl2) as (w & ts2 & Hw & _). rewrite run_bind, Hw. cbn [obind run].
    exists (upd_all clampF h1 (zip (c_movable arm) ps)), w.
    split; [unfold calc_pose_diff_with_constraints; rewrite select_flagged; reflexivity|]. split; [exact Hw|].
    split; [eapply frozen_trans; [apply unch_frozen; exact H1|apply upd_clamp_frozen]|].
    split; [eapply offm_trans; [apply unch_offm; exact H1|apply upd_clamp_offm]|].
    intros j a n Ha Hn. destruct (positions_at h _ orig j a Hpos Ha) as (p & Hp & Hpa).
    unfold position_at in Hpa. rewrite Hn in Hpa. apply Some_inj in Hpa as <-.
    destruct (unch_at _ _ _ _ H1 Hn) as (n1 & Hn1 & En). pose proof En as En'. apply strip_eq in En as (_ & Ety & _ & _ & Elim & _). rewrite <- Elim.
    destruct (full !! j) as [y|] eqn:Hy.
    - apply (position_upd_clamp h1 (c_movable arm) ps j); [assumption|assumption| |assumption|].
      + unfold ps, add_positions_with_multiplier. apply lookup_zip_with_Some. eauto.
      + unfold movable. rewrite Ety. eapply movable_type; [exact Hc|eapply elem_of_list_lookup_2; exact Ha|exact Hn].
    - assert (Hna : a ∉ map fst (zip (c_movable arm) ps)).
      { rewrite zip_fst. intros Hin. apply elem_of_take in Hin as (i & Hi & Hlt).
        assert (i = j) as -> by (eapply NoDup_lookup; eauto).
        apply lookup_ge_None in Hy. unfold ps, add_positions_with_multiplier in Hlt. rewrite zip_with_length in Hlt. lia. }
      unfold position_at. rewrite upd_all_other by exact Hna. rewrite Hn1. cbn. f_equal.
      apply strip_eq in En' as (_ & _ & Ep & _). exact Ep.
  Qed.

  (** ** the three branches *)
  Section Branches.
    Variables (t : nat) (ovf : bool) (la : linalg T) (sv : solver T) (h : gmap nat (node T)) (nx : nat)
      (arm : chain) (target : iso T) (ops : list bool) (idx : list nat) (cols : list (list T)) (h1 : gmap nat (node T)) (w : iso T).
    Hypothesis Hc : chain_of h (c_nodes arm) arm.
    Hypothesis Hl : all_live h (c_nodes arm).
    Hypothesis Hnd : NoDup (c_movable arm).
    Hypothesis Hops : length ops = 6.
    Hypothesis Hs : StronglySorted lt idx.
    Hypothesis Hr : Forall (fun j => j < c_dof arm) idx.
    Hypothesis Hw : run t (end_transform arm) (quiet h nx) = Done w (quiet h nx).
    Hypothesis HJ : run t (jacobian arm) (quiet h nx) = Done (Mat 6 cols) (quiet h1 nx).
    Let err := flagged ops (calc_pose_diff target w).
    Let J := reduced ops idx cols.
    Lemma step_unch : unch h h1.
    Proof. destruct (jacobian_done _ _ _ _ _ _ Hl HJ) as (h1' & Eq & H1 & _). apply (f_equal heap) in Eq. cbn in Eq. subst. exact H1. Qed.
    Lemma step_svd x : count_true ops + length idx < c_dof arm -> nullspace_function sv = None ->
      svd_solve la J err = Some x -> length x + length idx = c_dof arm ->
      exists full, length full = c_dof arm /\ spread_to idx x full /\
        step_to t h nx arm target ops (jacobian_multiplier sv) full
          (run t (solve_one_loop_with_constraints ovf la sv arm target ops idx) (quiet h nx)).
    Proof.
      intros Hreq Hn Hx Hlx.
      destruct (run_one_loop t ovf la sv h nx arm target ops idx cols h1 w Hc Hl Hops Hs Hr Hw HJ) as (orig & Hpos & Hrun).
      destruct (run_insert_rows t idx x (quiet h1 nx) Hs) as (full & Hi & Hlf & Hsp); [rewrite Hlx; exact Hr|].
      exists full. split; [lia|]. split; [exact Hsp|]. rewrite Hrun.
      apply (finish_step t la sv h nx arm target ops idx _ h1 _ _ _ _ orig full Hc Hl Hnd step_unch Hpos).
      unfold new_positions. rewrite decide_True by lia. rewrite Hn. fold err J. rewrite Hx. cbn [expect bind].
      rewrite run_bind, Hi. reflexivity.
    Qed.
    Lemma step_svd_panic : count_true ops + length idx < c_dof arm -> nullspace_function sv = None ->
      svd_solve la J err = None ->
      exists m s, run t (solve_one_loop_with_constraints ovf la sv arm target ops idx) (quiet h nx) = Panicked m s.
    Proof.
      intros Hreq Hn Hx.
      destruct (run_one_loop t ovf la sv h nx arm target ops idx cols h1 w Hc Hl Hops Hs Hr Hw HJ) as (orig & Hpos & Hrun).
      rewrite Hrun, run_bind. unfold new_positions. rewrite decide_True by lia. rewrite Hn. fold err J. rewrite Hx. eexists _, _. reflexivity.
    Qed.
    Lemma step_lu x : c_dof arm <= count_true ops + length idx ->
      lu_solve la J err = Some x ->
      step_to t h nx arm target ops (jacobian_multiplier sv) x
        (run t (solve_one_loop_with_constraints ovf la sv arm target ops idx) (quiet h nx)).
    Proof.
      intros Hreq Hx.
      destruct (run_one_loop t ovf la sv h nx arm target ops idx cols h1 w Hc Hl Hops Hs Hr Hw HJ) as (orig & Hpos & Hrun).
      rewrite Hrun. apply (finish_step t la sv h nx arm target ops idx _ h1 _ _ _ _ orig x Hc Hl Hnd step_unch Hpos).
      unfold new_positions. rewrite decide_False by lia. fold err J. rewrite Hx. reflexivity.
    Qed.
    Lemma step_lu_singular : c_dof arm <= count_true ops + length idx -> lu_solve la J err = None ->
      run t (solve_one_loop_with_constraints ovf la sv arm target ops idx) (quiet h nx) = Done (Err InverseMatrixError) (quiet h1 nx).
    Proof.
      intros Hreq Hx.
      destruct (run_one_loop t ovf la sv h nx arm target ops idx cols h1 w Hc Hl Hops Hs Hr Hw HJ) as (orig & Hpos & Hrun).
      rewrite Hrun, run_bind. unfold new_positions. rewrite decide_False by lia. fold err J. rewrite Hx. reflexivity.
    Qed.
    Lemma step_null f P sub : count_true ops + length idx < c_dof arm -> nullspace_function sv = Some f ->
      pinv la J = Some P -> m_rows P + length idx = c_dof arm ->
      (forall q, map Some q = map (position_at h) (c_movable arm) -> f q = Some sub) -> length sub = c_dof arm ->
      exists full, length full = c_dof arm /\
        spread_to idx (vec_add (mat_vec P err) (mat_vec (mat_sub (ident (m_rows P)) (mat_mul P J)) (without idx sub))) full /\
        step_to t h nx arm target ops (jacobian_multiplier sv) full
          (run t (solve_one_loop_with_constraints ovf la sv arm target ops idx) (quiet h nx)).
    Proof.
      intros Hreq Hn HP Hrows Hf Hsub.
      destruct (run_one_loop t ovf la sv h nx arm target ops idx cols h1 w Hc Hl Hops Hs Hr Hw HJ) as (orig & Hpos & Hrun).
      set (d := vec_add _ _).
      assert (Hld : length d = m_rows P).
      { unfold d, vec_add, mat_vec. rewrite zip_with_length, !map_length, !seq_length. cbn. lia. }
      destruct (run_insert_rows t idx d (quiet h1 nx) Hs) as (full & Hi & Hlf & Hsp); [rewrite Hld, Hrows; exact Hr|].
      exists full. split; [lia|]. split; [exact Hsp|]. rewrite Hrun.
      apply (finish_step t la sv h nx arm target ops idx _ h1 _ _ _ _ orig full Hc Hl Hnd step_unch Hpos).
      unfold new_positions. rewrite decide_True by lia. rewrite Hn. fold err J. rewrite HP. cbn [expect bind].
      rewrite (Hf orig Hpos). cbn [expect bind].
      assert (Hrr : Forall (fun j => 0 <= j < 0 + length sub) idx).
      { rewrite Hsub. eapply Forall_impl; [exact Hr|]. cbn. intros. lia. }
      pose proof (run_remove_columns t ovf idx 0 sub (quiet h1 nx) Hs Hrr) as Hrc.
      pose proof (remove_columns_length _ _ _ _ _ _ _ _ Hrc) as Hls.
      destruct (jacobian_done _ _ _ _ _ _ Hl HJ) as (_ & _ & _ & _ & Hlen & _). cbn [m_cols] in Hlen.
      assert (Hlj : length (m_cols J) = length (without idx sub)).
      { unfold J, reduced. cbn [m_cols]. rewrite map_length. unfold without.
        assert (G : forall {A B} (l : list A) (k : list B) i, length l = length k -> length (without_from i idx l) = length (without_from i idx k)).
        { clear. intros A B l. induction l as [|x l IH]; intros [|y k] i E; try discriminate; [reflexivity|]. cbn. injection E as E.
          case_decide; cbn; rewrite (IH k _ E); reflexivity. }
        apply G. lia. }
      rewrite run_bind, Hrc. cbn [obind]. fold (without idx sub).
      change (without_from 0 idx sub) with (without idx sub) in Hls.
      rewrite decide_True by (split; [lia|split; lia]).
      rewrite run_bind. fold d. rewrite Hi. reflexivity.
    Qed.
  End Branches.
End StepProofs.
