(** * The list of ignored joints: order and repetitions *)
From Coq Require Import String NArith Sorting.Sorted.
From stdpp Require Import gmap.
From Verif Require Import Scalar Geometry Joint Link Prog NodeM ChainM FuncsM IkM RunLemmas
  SpecJoint SpecNode RangeProofs JointProofs NodeProofs SpecGraph GraphProofs SpecChain ChainProofs
  SpecFK FKProofs VelocityProofs IkLookup SpecIk IkProofs IkProofs2 JacProofs SpecStep StepProofs SpecVerdict VerdictProofs.

Section Names.
  Context {T : Type} `{Sc : Scalar T}.
  Implicit Types (h : gmap nat (node T)).

  (** ** order *)
  Lemma named_perm h m l l' : l ≡ₚ l' -> forall idx, Forall2 (first_named h m) l idx ->
    exists idx', Forall2 (first_named h m) l' idx' /\ idx ≡ₚ idx'.
  Proof.
    induction 1 as [|x l l' Hp IH|x y l|l1 l2 l3 H1 IH1 H2 IH2]; intros idx Hi.
    - exists []. inversion Hi; subst. split; constructor.
    - inversion Hi as [|? i ? is Hx Hr]; subst. destruct (IH _ Hr) as (k & Hk & Ek). exists (i :: k). split; [constructor; assumption|constructor; exact Ek].
    - inversion Hi as [|? i ? is Hx Hr]; subst. inversion Hr as [|? j ? js Hy Hs]; subst. exists (j :: i :: js). split; [repeat constructor; assumption|constructor].
    - destruct (IH1 _ Hi) as (k & Hk & Ek). destruct (IH2 _ Hk) as (k' & Hk' & Ek'). exists k'. split; [exact Hk'|etransitivity; eauto].
  Qed.
  Lemma known_indices h m names : (forall nm, nm ∈ names -> exists i, first_named h m nm i) -> exists idx, Forall2 (first_named h m) names idx.
  Proof.
    induction names as [|nm names IH]; intros H; [exists []; constructor|]. destruct (H nm) as [i Hi]; [set_solver|].
    destruct IH as [idx Hidx]; [intros; apply H; set_solver|]. exists (i :: idx). constructor; assumption.
  Qed.
  Lemma run_known t h nx arm names idx : all_live h (c_movable arm) -> Forall2 (first_named h (c_movable arm)) names idx ->
    run t (ignored_indices arm names) (quiet h nx) = Done (Ok idx) (quiet h nx).
  Proof.
    intros Hl Hi. destruct (run_ignored_indices t h nx arm names Hl) as (r & Hr & Hs). rewrite Hr. destruct r as [k|e].
    - do 2 f_equal. clear Hr Hl. revert k Hs. induction Hi as [|nm i names idx Hn Hi IH]; intros k Hk; inversion Hk as [|? k0 ? k1 Hk0 Hk1]; subst; [reflexivity|].
      f_equal; [eapply first_named_fun; eauto|apply IH; assumption].
    - exfalso. destruct Hs as (l1 & nm & l2 & E & _ & Hno & _). assert (Hin : nm ∈ names) by (rewrite E; set_solver).
      apply elem_of_list_lookup in Hin as [j Hj]. destruct (Forall2_lookup_l _ _ _ _ _ Hi Hj) as (i & _ & (a & Ha & Hna & _)).
      apply (Hno a); [eapply elem_of_list_lookup_2; eauto|exact Hna].
  Qed.
  Lemma order_lemma t ovf la (sv : solver T) h nx arm target c c' :
    chain_of h (c_nodes arm) arm -> flags c' = flags c -> ignored_joint_names c' ≡ₚ ignored_joint_names c ->
    (forall nm, nm ∈ ignored_joint_names c -> exists i, first_named h (c_movable arm) nm i) ->
    run t (solve_with_constraints ovf la sv arm target c') (quiet h nx) = run t (solve_with_constraints ovf la sv arm target c) (quiet h nx).
  Proof.
    intros Hc Hf Hp Hk. destruct (known_indices h _ _ Hk) as [idx Hidx]. destruct (named_perm h _ _ _ (symmetry Hp) _ Hidx) as (idx' & Hidx' & Ei).
    pose proof (movable_live _ _ _ Hc) as Hl. destruct (run_positions t h nx arm _ Hc) as (orig & Horig & _).
    assert (Es : sort_unstable idx' = sort_unstable idx).
    { symmetry. apply (ignored_unique h arm c' idx' (sort_unstable idx) Hidx').
      destruct (ignored_sort h arm c idx Hidx) as (l & Hl2 & Hp2 & Hs2). exists idx'. split; [exact Hidx'|]. split; [|exact Hs2].
      assert (l = idx) as -> by (clear -Hidx Hl2; revert l Hl2; induction Hidx as [|nm i names idx Hn Hi IH]; intros k Hk; inversion Hk; subst; [reflexivity|]; f_equal; [eapply first_named_fun; eauto|apply IH; assumption]).
      rewrite Hp2. exact Ei. }
    assert (Ef : define_operational_space c' = define_operational_space c) by exact Hf.
    unfold solve_with_constraints, solve_with_constraints_internal. rewrite Ef, (Permutation_length Hp).
    rewrite !run_bind, Horig. cbn [obind]. rewrite !run_bind, Horig. cbn [obind]. rewrite !run_bind.
    destruct (run t (usize_sub ovf (dof arm) (length (ignored_joint_names c))) (quiet h nx)) as [av s| | | |] eqn:Ea; cbn [obind]; try reflexivity.
    assert (s = quiet h nx) as -> by (eapply inert_usize_sub; exact Ea).
    case_decide; [reflexivity|]. rewrite !run_bind, (run_known t h nx arm _ _ Hl Hidx), (run_known t h nx arm _ _ Hl Hidx'). cbn [obind]. rewrite Es. reflexivity.
  Qed.

  (** ** the first joint twice *)
  Lemma first_twice_loop t ovf la (sv : solver T) h nx arm target ops idx orig n last :
    chain_of h (c_nodes arm) arm -> all_live h (c_nodes arm) -> parents_first h (c_nodes arm) -> length ops = 6 ->
    (N.of_nat (c_dof arm) < 2 ^ 64)%N -> n <> 0 ->
    exists m s, run t (ik_loop ovf la sv arm target ops (0 :: 0 :: idx) orig n last) (quiet h nx) = Panicked m s.
  Proof.
    intros Hc Hl Hp Ho Hd Hn. destruct n as [|n]; [contradiction|]. cbn [ik_loop]. rewrite run_bind. unfold solve_one_loop_with_constraints.
    destruct (run_positions t h nx arm _ Hc) as (q & Hq & _). rewrite run_bind, Hq. cbn [obind]. rewrite run_bind.
    destruct (run t (usize_sub ovf (dof arm) (length (0 :: 0 :: idx))) (quiet h nx)) as [av s|m s| | |] eqn:Ea; cbn [obind]; try (unfold usize_sub in Ea; repeat case_match; discriminate); [|eauto].
    assert (s = quiet h nx) as -> by (eapply inert_usize_sub; exact Ea).
    destruct (run_end_transform t h nx arm Hl) as (w & ts & Hw & Hts & _). rewrite run_bind, Hw. cbn [obind].
    destruct (run_jacobian t h nx arm ts (parents_first_order _ _ Hl Hp) Hc Hts) as (cols & h1 & HJ & _).
    destruct (jacobian_done _ _ _ _ _ _ Hl HJ) as (h1' & Eq & H1 & _ & Hlen & Hcols). cbn [m_cols] in *.
    rewrite run_bind, HJ. cbn [obind]. rewrite run_bind. change 6 with (0 + 6) at 1. rewrite <- Ho.
    rewrite (run_remove_rows t ovf ops 0 0 0 cols (quiet h1 nx)); [|reflexivity|rewrite Ho; exact Hcols]. cbn [obind]. rewrite run_bind. cbn [m_cols m_rows].
    set (k := map _ cols). assert (Hk : length k = c_dof arm) by (unfold k; rewrite map_length; exact Hlen). clearbody k.
    cbn [remove_columns]. unfold usize_sub at 1. rewrite decide_True by lia. cbn [bind run]. rewrite run_bind. unfold remove_nth at 1.
    change (N.of_nat (0 - 0)) with 0%N. case_decide as H0; [|cbn [run obind]; eauto]. cbn [run obind].
    unfold usize_sub at 1. rewrite decide_False by lia. destruct ovf; [cbn [bind run obind]; eauto|]. cbn [bind run]. rewrite run_bind. unfold remove_nth at 1.
    rewrite decide_False; [cbn [run obind]; eauto|]. intros Hlt.
    assert (Hle : length (take (N.to_nat 0) k ++ drop (S (N.to_nat 0)) k) <= c_dof arm) by (rewrite app_length, take_length, drop_length; lia).
    change (2 ^ 64 + N.of_nat 0 - N.of_nat 1)%N with 18446744073709551615%N in Hlt. change (2 ^ 64)%N with 18446744073709551616%N in Hd. lia.
  Qed.
  Lemma first_twice_lemma t ovf la (sv : solver T) h nx arm target c idx :
    chain_of h (c_nodes arm) arm -> all_live h (c_nodes arm) -> parents_first h (c_nodes arm) ->
    (N.of_nat (c_dof arm) < 2 ^ 64)%N -> num_max_try sv <> 0 ->
    ignored_at h arm c (0 :: 0 :: idx) -> count (flags c) + length (ignored_joint_names c) <= c_dof arm ->
    exists m s, run t (solve_with_constraints ovf la sv arm target c) (quiet h nx) = Panicked m s.
  Proof.
    intros Hc Hl Hp Hd Hn Hi Hle. destruct Hi as (l & Hl2 & Hp2 & Hs2).
    assert (Es : sort_unstable l = 0 :: 0 :: idx) by (symmetry; eapply ignored_unique; [exact Hl2|exists l; auto]).
    destruct (run_positions t h nx arm _ Hc) as (orig & Horig & _).
    unfold solve_with_constraints, solve_with_constraints_internal. rewrite run_bind, Horig. cbn [obind]. rewrite run_bind, run_bind, Horig. cbn [obind].
    rewrite run_bind. unfold dof. rewrite run_usize_sub by lia. cbn [obind].
    rewrite decide_False by (change (count_true (define_operational_space c)) with (count (flags c)); lia).
    rewrite run_bind, (run_known t h nx arm _ _ (movable_live _ _ _ Hc) Hl2). cbn [obind]. rewrite Es.
    destruct (first_twice_loop t ovf la sv h nx arm target (define_operational_space c) idx orig (num_max_try sv) None Hc Hl Hp eq_refl Hd Hn) as (m & s & E).
    rewrite E. cbn [obind]. eauto.
  Qed.

  (** ** another joint twice *)
  Lemma remove_pair {A} t ovf j (l : list A) (s : sh T) : S j < length l ->
    run t (remove_columns ovf 0 [S j; S j] l) s = Done (without [j; S j] l) s.
  Proof.
    intros Hj. unfold without. rewrite <- (run_remove_columns t ovf [j; S j] 0 l s); [|repeat constructor|repeat constructor; cbn; lia].
    cbn [remove_columns]. unfold usize_sub. rewrite !decide_True by lia. cbn [bind run]. rewrite !run_bind. unfold remove_nth at 1 3.
    rewrite !decide_True by lia. cbn [obind run]. rewrite !run_bind. unfold remove_nth. rewrite !Nat2N.id, !Nat.sub_0_r, Nat.sub_succ, Nat.sub_0_r.
    rewrite !decide_True by (rewrite app_length, take_length, drop_length; lia). cbn [obind run]. f_equal.
    destruct (lookup_lt_is_Some_2 l j) as [x Hx]; [lia|]. destruct (lookup_lt_is_Some_2 l (S j)) as [y Hy]; [lia|].
    assert (E : l = take j l ++ x :: y :: drop (S (S j)) l).
    { rewrite <- (take_drop_middle l j x Hx) at 1. do 2 f_equal. rewrite <- (drop_S l y (S j) Hy). reflexivity. }
    assert (Ht : length (take j l) = j) by (rewrite take_length; lia). revert E Ht. generalize (take j l) as p, (drop (S (S j)) l) as q. intros p q -> <-. clear.
    induction p as [|z p IH]; [reflexivity|]. cbn in *. f_equal. exact IH.
  Qed.
  Lemma insert_pair t j (l : list T) (s : sh T) : j <= length l ->
    exists full, run t (insert_rows [j; j] l) s = Done full s /\ length full = S (S (length l)) /\ spread_to [j; S j] l full.
  Proof.
    intros Hj. destruct (run_insert_rows t [j; S j] l s) as (full & Hr & Hlen & Hs); [repeat constructor|repeat constructor; cbn; lia|].
    exists full. split; [|split; [cbn in Hlen; lia|exact Hs]]. rewrite <- Hr. cbn [insert_rows]. rewrite !run_bind. unfold insert_nth at 1 3. rewrite !decide_True by lia.
    cbn [obind run]. rewrite !run_bind. unfold insert_nth. rewrite !decide_True by (rewrite app_length; cbn; rewrite take_length, drop_length; lia). cbn [obind run]. f_equal.
    assert (E : length (take j l) = j) by (rewrite take_length; lia). revert E. generalize (take j l) as p, (drop j l) as q. intros p q <-. clear.
    induction p as [|z p IH]; [reflexivity|]. cbn in *. f_equal. exact IH.
  Qed.
  Lemma step_twice t ovf la (sv : solver T) h nx arm target ops j cols h1 w x :
    chain_of h (c_nodes arm) arm -> all_live h (c_nodes arm) -> NoDup (c_movable arm) -> length ops = 6 ->
    run t (end_transform arm) (quiet h nx) = Done w (quiet h nx) ->
    run t (jacobian arm) (quiet h nx) = Done (Mat 6 cols) (quiet h1 nx) ->
    count_true ops + 2 < c_dof arm -> S (S j) < c_dof arm -> nullspace_function sv = None ->
    svd_solve la (reduced ops [j; S j] cols) (flagged ops (calc_pose_diff target w)) = Some x -> length x + 2 = c_dof arm ->
    exists full, length full = c_dof arm /\ spread_to [S j; S (S j)] x full /\
      step_to t h nx arm target ops (jacobian_multiplier sv) full
        (run t (solve_one_loop_with_constraints ovf la sv arm target ops [S j; S j]) (quiet h nx)).
  Proof.
    intros Hc Hl Hnd Ho Hw HJ Hreq Hj Hn Hx Hlx. unfold solve_one_loop_with_constraints.
    destruct (run_positions t h nx arm _ Hc) as (orig & Horig & _ & Hpos). rewrite run_bind, Horig. cbn [obind].
    rewrite run_bind. unfold dof. rewrite run_usize_sub by (cbn; lia). cbn [obind length]. rewrite run_bind, Hw. cbn [obind].
    destruct (jacobian_done _ _ _ _ _ _ Hl HJ) as (h1' & Eq & H1 & _ & Hlen & Hcols). apply (f_equal heap) in Eq. cbn in Eq. subst h1'. cbn [m_cols] in *.
    rewrite run_bind, HJ. cbn [obind]. rewrite run_bind. change 6 with (0 + 6) at 1. rewrite <- Ho.
    rewrite (run_remove_rows t ovf ops 0 0 0 cols (quiet h1 nx)); [|reflexivity|rewrite Ho; exact Hcols]. cbn [obind]. rewrite run_bind. cbn [m_cols m_rows].
    rewrite remove_pair by (rewrite map_length, Hlen; lia). cbn [obind]. unfold without. rewrite without_from_map.
    rewrite (map_ext (fun c : list T => take 0 c ++ select ops (drop 0 c)) (flagged ops)); [|intros c; cbn; apply select_flagged].
    unfold calc_pose_diff_with_constraints at 1. rewrite select_flagged.
    destruct (insert_pair t (S j) x (quiet h1 nx)) as (full & Hi & Hfl & Hfs); [lia|]. exists full. split; [lia|]. split; [exact Hfs|].
    apply (finish_step t la sv h nx arm target ops [S j; S j] _ h1 _ _ _ _ orig full Hc Hl Hnd H1 Hpos).
    unfold new_positions. rewrite decide_True by (cbn [length]; lia). rewrite Hn.
    change (Mat (0 + count_true ops) (map (flagged ops) (without_from 0 [j; S j] cols))) with (reduced ops [j; S j] cols).
    rewrite Hx. cbn [expect bind run]. rewrite run_bind, Hi. reflexivity.
  Qed.
  Lemma step_last_twice t ovf la (sv : solver T) h nx arm target ops j cols h1 w x :
    chain_of h (c_nodes arm) arm -> all_live h (c_nodes arm) -> length ops = 6 ->
    run t (end_transform arm) (quiet h nx) = Done w (quiet h nx) ->
    run t (jacobian arm) (quiet h nx) = Done (Mat 6 cols) (quiet h1 nx) ->
    count_true ops + 2 < c_dof arm -> S (S j) = c_dof arm -> nullspace_function sv = None ->
    svd_solve la (reduced ops [j; S j] cols) (flagged ops (calc_pose_diff target w)) = Some x -> length x + 2 = c_dof arm ->
    exists m s, run t (solve_one_loop_with_constraints ovf la sv arm target ops [S j; S j]) (quiet h nx) = Panicked m s.
  Proof.
    intros Hc Hl Ho Hw HJ Hreq Hj Hn Hx Hlx. unfold solve_one_loop_with_constraints.
    destruct (run_positions t h nx arm _ Hc) as (orig & Horig & _ & Hpos). rewrite run_bind, Horig. cbn [obind].
    rewrite run_bind. unfold dof. rewrite run_usize_sub by (cbn; lia). cbn [obind length]. rewrite run_bind, Hw. cbn [obind].
    destruct (jacobian_done _ _ _ _ _ _ Hl HJ) as (h1' & Eq & H1 & _ & Hlen & Hcols). cbn [m_cols] in *.
    rewrite run_bind, HJ. cbn [obind]. rewrite run_bind. change 6 with (0 + 6) at 1. rewrite <- Ho.
    rewrite (run_remove_rows t ovf ops 0 0 0 cols (quiet h1 nx)); [|reflexivity|rewrite Ho; exact Hcols]. cbn [obind]. rewrite run_bind. cbn [m_cols m_rows].
    rewrite remove_pair by (rewrite map_length, Hlen; lia). cbn [obind]. unfold without. rewrite without_from_map.
    rewrite (map_ext (fun c : list T => take 0 c ++ select ops (drop 0 c)) (flagged ops)); [|intros c; cbn; apply select_flagged].
    unfold calc_pose_diff_with_constraints at 1. rewrite select_flagged. rewrite run_bind.
    unfold new_positions. rewrite decide_True by (cbn [length]; lia). rewrite Hn.
    change (Mat (0 + count_true ops) (map (flagged ops) (without_from 0 [j; S j] cols))) with (reduced ops [j; S j] cols).
    rewrite Hx. cbn [expect bind run insert_rows]. rewrite run_bind, run_bind. unfold insert_nth at 1. rewrite decide_False by lia. cbn [run obind]. eauto.
  Qed.
End Names.
