(** * The solver and the sense of the joints *)
From Coq Require Import String Reals Lra Lia NArith Sorting.Sorted.
From stdpp Require Import gmap.
From Verif Require Import Scalar ScalarR Geometry Joint Link Prog NodeM ChainM FuncsM IkM LuM SvdM RunLemmas
  SpecJoint SpecNode SpecGraph SpecChain ChainProofs SpecFK FKProofs IkLookup SpecIk IkProofs IkProofs2 SpecCom ComProofs SpecGeom RGeom LinIk SpecStep StepProofs
  LinAlgR LinArm TrajStep SvdDet UnitLin CacheProofs SpecSense SenseLin SenseProofs.
Local Open Scope R_scope.

Lemma without_zip {A B C} (g : A -> B -> C) idx : forall a b k, length a = length b -> without_from k idx (zip_with g a b) = zip_with g (without_from k idx a) (without_from k idx b).
Proof.
  induction a as [|x a IH]; intros [|y b] k E; try discriminate; [reflexivity|]. cbn in E |- *. rewrite IH by lia. case_decide; reflexivity.
Qed.
Lemma without_len {A} idx : StronglySorted lt idx -> forall k (l : list A), Forall (fun j => (k <= j < k + length l)%nat) idx -> (length (without_from k idx l) + length idx = length l)%nat.
Proof.
  induction 1 as [|j idx Hs IH Hj]; intros k l Hr.
  - rewrite without_from_none by (intros j Hj; inversion Hj). cbn. lia.
  - apply Forall_cons in Hr as [Hr0 Hr]. rewrite without_from_cons by (try lia; exact Hj). rewrite app_length, take_length.
    assert (Hd : length (drop (S (j - k)) l) = (length l - S (j - k))%nat) by apply drop_length.
    specialize (IH (S j) (drop (S (j - k)) l)). rewrite Hd in IH. cbn [length].
    enough (length (without_from (S j) idx (drop (S (j - k)) l)) + length idx = length l - S (j - k))%nat by lia. apply IH.
    rewrite Forall_forall in Hr, Hj |- *. intros i Hi. specialize (Hr i Hi). specialize (Hj i Hi). lia.
Qed.
Lemma Forall_without {A} (P : A -> Prop) idx : forall l k, Forall P l -> Forall P (without_from k idx l).
Proof. induction l as [|x l IH]; intros k H; cbn; [constructor|]. apply Forall_cons in H as [Hx H]. case_decide; [apply IH, H|constructor; [exact Hx|apply IH, H]]. Qed.
Lemma spread_signed idx ss x full : length ss = length full -> spread_to idx x full -> spread_to idx (zip_with Rmult (without idx ss) x) (zip_with Rmult ss full).
Proof.
  intros L [Hw Hz]. split.
  - unfold without in *. rewrite without_zip by exact L. rewrite Hw. reflexivity.
  - intros j Hj. specialize (Hz j Hj). destruct (lookup_lt_is_Some_2 ss j) as [s Hs]; [rewrite L; eapply lookup_lt_Some; exact Hz|].
    rewrite lookup_zip_with, Hs, Hz. cbn. f_equal. ring.
Qed.
Lemma signed_select ops ss : forall cols, map (select ops) (zip_with turned_column ss cols) = zip_with turned_column ss (map (select ops) cols).
Proof. induction ss as [|s ss IH]; intros [|c cols]; cbn; try reflexivity. rewrite IH. f_equal. apply select_map. Qed.
Lemma zip_sub_signed ss : forall a b, zip_with Rminus (zip_with Rmult ss a) (zip_with Rmult ss b) = zip_with Rmult ss (zip_with Rminus a b).
Proof. induction ss as [|s ss IH]; intros [|x a] [|y b]; cbn; try reflexivity. rewrite IH. f_equal. ring. Qed.
Lemma zip_add_signed ss : forall a b, zip_with Rplus (zip_with Rmult ss a) (zip_with Rmult ss b) = zip_with Rmult ss (zip_with Rplus a b).
Proof. induction ss as [|s ss IH]; intros [|x a] [|y b]; cbn; try reflexivity. rewrite IH. f_equal. ring. Qed.
Lemma null_signed ss J P P' r n e s : length ss = n -> all_signs ss -> shaped J r n -> shaped P n r -> shaped P' n r -> length e = r -> length s = n ->
  (forall b, length b = r -> mat_vec P' b = zip_with Rmult ss (mat_vec P b)) ->
  vec_add (mat_vec P' e) (mat_vec (mat_sub (ident (m_rows P')) (mat_mul P' (signed ss J))) (zip_with Rmult ss s)) =
  zip_with Rmult ss (vec_add (mat_vec P e) (mat_vec (mat_sub (ident (m_rows P)) (mat_mul P J)) s)).
Proof.
  intros Ls Hs HJ HP HP' He Hls Hm. pose proof HJ as (J1 & J2 & J3). pose proof HP as (R1 & C1 & L1). pose proof HP' as (R2 & C2 & L2).
  assert (HJ' : shaped (signed ss J) r n).
  { split; [exact J1|]. split; [rewrite signed_cols by congruence; exact J2|]. rewrite <- J1. apply (signed_wf ss J). rewrite J1. exact J3. }
  assert (Ha : forall b, length b = r -> act P' b = zip_with Rmult ss (act P b)).
  { intros b Hb. specialize (Hm b Hb). rewrite !mat_vec_combine in Hm by (rewrite ?R1, ?R2; assumption). exact Hm. }
  rewrite (null_vec (signed ss J) P' r n e _ HJ' HP' He) by (rewrite zip_with_length; lia). rewrite (null_vec J P r n e s HJ HP He Hls).
  assert (Ea : act (signed ss J) (zip_with Rmult ss s) = act J s).
  { unfold act, signed. cbn [m_rows m_cols]. rewrite combine_signed by (rewrite ?zip_with_length; lia). rewrite zip_twice by (try assumption; lia). reflexivity. }
  rewrite Ea, !Ha; [|eapply act_length; eauto|exact He]. unfold ladd, lsub. rewrite zip_sub_signed, zip_add_signed. reflexivity.
Qed.

Section Solve.
  Variables (f : nat -> sense) (arm : chain).
  Notation fs := (senses f arm).
  Notation ss := (signs fs).
  Notation csim := (csim f arm).
  Variables (ovf : bool) (la : linalg R) (sv sv' : solver R) (target : iso R).
  Hypothesis free : sense_free la.
  Hypothesis same : same_task f arm sv sv'.
  Hypothesis fs_len : length fs = c_dof arm.

  Lemma ss_len : length ss = c_dof arm.
  Proof. unfold signs. rewrite map_length. exact fs_len. Qed.
  Lemma add_signed : forall orig x,
    add_positions_with_multiplier sv' (zip_with measured fs orig) (zip_with Rmult ss x) = zip_with measured fs (add_positions_with_multiplier sv orig x).
  Proof.
    destruct same as (_ & _ & E & _). unfold add_positions_with_multiplier. rewrite E. unfold signs. clear. induction fs as [|g l IH]; intros [|o orig] [|y x]; cbn; try reflexivity.
    f_equal; [unfold measured; ring|apply IH].
  Qed.
  Definition near_enough (idx : list nat) (req : nat) : Prop := idx = [] \/ (req + length idx < c_dof arm)%nat.
  Lemma csim_expect {A} (Q : A -> A -> Prop) o o' m : match o, o' with Some x, Some x' => Q x x' | None, None => True | _, _ => False end -> csim Q (expect o m) (expect o' m).
  Proof. destruct o, o'; try contradiction; intros H; [apply csim_ret; exact H|apply csim_panic]. Qed.
  Lemma csim_insert idx x : StronglySorted lt idx -> Forall (fun j => (j < c_dof arm)%nat) idx -> (length x + length idx = c_dof arm)%nat ->
    csim (fun d d' => d' = zip_with Rmult ss d) (insert_rows idx x) (insert_rows idx (zip_with Rmult (without idx ss) x)).
  Proof.
    intros Hs Hr Hx t t' h h' nx nx' Hok Hu.
    assert (Lw : length (without idx ss) = length x) by (pose proof (without_len idx Hs 0 ss) as H; rewrite ss_len in H; unfold without; specialize (H ltac:(eapply Forall_impl; [exact Hr|]; cbn; lia)); lia).
    destruct (run_insert_rows t idx x (quiet h nx) Hs) as (full & Hrun & Lf & Hsp); [rewrite Hx; exact Hr|].
    destruct (run_insert_rows t' idx (zip_with Rmult (without idx ss) x) (quiet h' nx') Hs) as (full' & Hrun' & Lf' & Hsp'); [rewrite zip_with_length, Lw, Nat.min_id, Hx; exact Hr|].
    rewrite Hrun, Hrun'. apply csim_done; [|exact Hok|exact Hu]. rewrite zip_with_length, Lw, Nat.min_id in Lf'.
    eapply spread_to_unique; [|exact Hsp'|apply spread_signed; [rewrite ss_len; lia|exact Hsp]]. rewrite zip_with_length, ss_len. lia.
  Qed.
  Lemma csim_new idx orig err J req : StronglySorted lt idx -> Forall (fun j => (j < c_dof arm)%nat) idx -> near_enough idx req ->
    m_rows J = req -> (length (m_cols J) + length idx = c_dof arm)%nat -> tidy J -> length err = req -> length orig = c_dof arm -> (req <= length (m_cols J))%nat ->
    csim (recalibrated_result (fun ps ps' => ps' = zip_with measured fs ps))
      (new_positions ovf la sv orig err J (N.of_nat (length (m_cols J))) req idx)
      (new_positions ovf la sv' (zip_with measured fs orig) err (signed (without idx ss) J) (N.of_nat (length (m_cols J))) req idx).
  Proof.
    intros Hs Hr Hn Hrow Hcol Ht He Ho Hle. pose proof (signs_ok fs) as Hsg.
    assert (Hr2 : Forall (fun j => (0 <= j < 0 + length ss)%nat) idx) by (rewrite ss_len; eapply Forall_impl; [exact Hr|]; cbn; lia).
    assert (Lw : length (without idx ss) = length (m_cols J)) by (pose proof (without_len idx Hs 0 ss Hr2) as H; rewrite ss_len in H; unfold without; lia).
    assert (Hws : all_signs (without idx ss)) by (apply Forall_without; exact Hsg).
    destruct (free (without idx ss) J err Lw Hws Ht) as (F1 & F2 & F3 & F4); [congruence|].
    unfold new_positions. destruct (decide _) as [Hd|Hd].
    - destruct same as (_ & _ & _ & _ & Hns). destruct (nullspace_function sv) as [g|], (nullspace_function sv') as [g'|]; try contradiction.
      + eapply (csim_bind _ _ (fun P P' => shaped P (length (m_cols J)) (m_rows J) /\ shaped P' (length (m_cols J)) (m_rows J) /\
          forall b, length b = m_rows J -> mat_vec P' b = zip_with Rmult (without idx ss) (mat_vec P b))); [apply csim_expect; exact F4|].
        intros P P' (HP & HP' & HPP). destruct (Hns orig Ho) as [Lg Eg].
        eapply (csim_bind _ _ (fun v v' => length v = c_dof arm /\ v' = zip_with Rmult ss v)).
        { apply csim_expect. rewrite Eg. destruct (g orig) as [v|]; cbn; [|exact I]. split; [apply Lg; reflexivity|reflexivity]. }
        intros v _ [Lv ->]. eapply (csim_bind _ _ (fun d d' => d = without idx v /\ d' = zip_with Rmult (without idx ss) (without idx v))).
        { intros t t' h h' nx nx' Hok Hu. rewrite !run_remove_columns; try exact Hs.
          - apply csim_done; [|exact Hok|exact Hu]. split; [reflexivity|]. unfold without. apply without_zip. rewrite ss_len. congruence.
          - rewrite zip_with_length, ss_len, Lv, Nat.min_id. eapply Forall_impl; [exact Hr|]; cbn; lia.
          - rewrite Lv. eapply Forall_impl; [exact Hr|]; cbn; lia. }
        intros _ _ [-> ->].
        assert (Lwv : length (without idx v) = length (m_cols J)).
        { pose proof (without_len idx Hs 0 v) as H. rewrite Lv in H. unfold without. specialize (H ltac:(eapply Forall_impl; [exact Hr|]; cbn; lia)). lia. }
        assert (HJ : shaped J (m_rows J) (length (m_cols J))) by (split; [reflexivity|split; [reflexivity|exact Ht]]).
        rewrite !decide_True.
        * cbn zeta. pose proof HP as (PR & _ & _). rewrite (null_signed (without idx ss) J P P' (m_rows J) (length (m_cols J)) err (without idx v)) by (try assumption; congruence).
          set (d := vec_add _ _). assert (Ld : length d = length (m_cols J)).
          { unfold d. rewrite (null_vec J P (m_rows J) (length (m_cols J)) err (without idx v) HJ HP) by congruence. unfold ladd, lsub. rewrite !zip_with_length, !(act_length P _ _ _ HP). lia. }
          eapply csim_bind; [apply csim_insert; [exact Hs|exact Hr|congruence]|]. intros full _ ->. apply csim_ret. cbn. apply add_signed.
        * destruct HP' as (PR & _ & _). rewrite PR, signed_cols by exact Lw. split; [reflexivity|]. split; [reflexivity|]. rewrite zip_with_length. lia.
        * destruct HP as (PR & _ & _). rewrite PR. split; [reflexivity|]. split; [reflexivity|]. exact Lwv.
      + rewrite F2. eapply (csim_bind _ _ (fun x x' => length x = length (m_cols J) /\ x' = zip_with Rmult (without idx ss) x)).
        { apply csim_expect. destruct (svd_solve la J err) as [x|]; cbn; [split; [apply F3; reflexivity|reflexivity]|exact I]. }
        intros x _ [Lx ->]. eapply csim_bind; [apply csim_insert; [exact Hs|exact Hr|congruence]|]. intros full _ ->. apply csim_ret. cbn. apply add_signed.
    - destruct Hn as [->|Hn]; [|exfalso; lia]. assert (Esq : m_rows J = length (m_cols J)) by lia. rewrite (F1 Esq).
      assert (Ew : without [] ss = ss) by (apply without_from_none; intros j Hj; inversion Hj). rewrite Ew.
      destruct (lu_solve la J err) as [x|]; cbn [fmap option_fmap option_map]; apply csim_ret; [|reflexivity]. cbn. apply add_signed.
  Qed.
  Lemma csim_one_loop idx ops : StronglySorted lt idx -> Forall (fun j => (j < c_dof arm)%nat) idx -> near_enough idx (count_true ops) -> length ops = 6%nat -> (count_true ops + length idx <= c_dof arm)%nat ->
    csim (recalibrated_result eq) (solve_one_loop_with_constraints ovf la sv arm target ops idx) (solve_one_loop_with_constraints ovf la sv' arm target ops idx).
  Proof.
    intros Hs Hr Hn Hops Hcnt. unfold solve_one_loop_with_constraints. eapply csim_bind; [apply csim_positions|]. intros orig orig' [Lo ->].
    eapply (csim_bind _ _ (fun av av' => av' = av /\ av = N.of_nat (c_dof arm - length idx))); [unfold usize_sub, dof; rewrite decide_True by lia; apply csim_ret; split; reflexivity|].
    intros av _ [-> ->]. eapply csim_bind; [apply csim_end|]. intros w _ <-. eapply csim_bind; [apply csim_jacobian|].
    intros [r6 cols] J' (E6 & Lc & Hc & ->). cbn [m_rows m_cols signed] in E6, Lc, Hc |- *. subst r6.
    assert (Er : forall t (J : list (list R)) s, Forall (fun c => length c = 6%nat) J ->
      run t (remove_rows (T := R) ovf 0 0 ops (Mat 6 J)) s = Done (Mat (count_true ops) (map (select ops) J)) s).
    { intros t J s HJ. pose proof (run_remove_rows t ovf ops 0 0 0 J s eq_refl) as H. cbn [Nat.add] in H. rewrite Hops in H. rewrite (H HJ). do 2 f_equal. }
    assert (Hc' : Forall (fun c => length c = 6%nat) (m_cols (signed ss (Mat 6 cols)))) by (apply (signed_wf ss (Mat 6 cols)); exact Hc).
    eapply (csim_bind _ _ (fun M M' => M = Mat (count_true ops) (map (select ops) cols) /\ M' = Mat (count_true ops) (zip_with turned_column ss (map (select ops) cols)))).
    { intros t t' h h' nx nx' Hok Hu. unfold signed in Hc' |- *. cbn [m_rows m_cols] in Hc' |- *. rewrite !Er by assumption. apply csim_done; [|exact Hok|exact Hu]. split; [reflexivity|]. rewrite signed_select. reflexivity. }
    intros _ _ [-> ->]. cbn [m_cols m_rows].
    assert (Lm : length (map (select ops) cols) = c_dof arm) by (rewrite map_length; exact Lc).
    eapply (csim_bind _ _ (fun M M' => M = without idx (map (select ops) cols) /\ M' = zip_with turned_column (without idx ss) (without idx (map (select ops) cols)))).
    { intros t t' h h' nx nx' Hok Hu. rewrite !run_remove_columns; try exact Hs.
      - apply csim_done; [|exact Hok|exact Hu]. split; [reflexivity|]. unfold without. apply without_zip. rewrite ss_len. congruence.
      - rewrite zip_with_length, ss_len, Lm, Nat.min_id. eapply Forall_impl; [exact Hr|]; cbn; lia.
      - rewrite Lm. eapply Forall_impl; [exact Hr|]; cbn; lia. }
    intros _ _ [-> ->].
    assert (Lw : (length (without idx (map (select ops) cols)) + length idx = c_dof arm)%nat).
    { rewrite <- Lm. apply (without_len idx Hs 0). rewrite Lm. eapply Forall_impl; [exact Hr|]; cbn; lia. }
    eapply csim_bind.
    - pose proof (csim_new idx orig (calc_pose_diff_with_constraints target w ops) (Mat (count_true ops) (without idx (map (select ops) cols))) (count_true ops) Hs Hr Hn eq_refl Lw) as H.
      unfold signed in H. cbn [m_rows m_cols] in H. replace (c_dof arm - length idx)%nat with (length (without idx (map (select ops) cols))) by lia. apply H.
      + unfold tidy. cbn [m_rows m_cols]. apply Forall_without, Forall_map. eapply Forall_impl; [exact Hc|]. cbn. intros c E. apply select_len. congruence.
      + unfold calc_pose_diff_with_constraints. apply select_len. exact Hops.
      + exact Lo.
      + lia.
    - intros [ps|e] [ps'|e'] Hq; try contradiction; [|apply csim_ret; exact Hq]. cbn in Hq. subst ps'.
      eapply csim_bind; [apply csim_clamped|]. intros _ _ _. eapply csim_bind; [apply csim_end|]. intros v _ <-. apply csim_ret. reflexivity.
  Qed.
  Lemma csim_loop c idx : let ops := define_operational_space c in StronglySorted lt idx -> Forall (fun j => (j < c_dof arm)%nat) idx -> near_enough idx (count_true ops) -> (count_true ops + length idx <= c_dof arm)%nat ->
    forall orig, length orig = c_dof arm -> forall n last,
    csim (recalibrated_result eq) (ik_loop ovf la sv arm target ops idx orig n last) (ik_loop ovf la sv' arm target ops idx (zip_with measured fs orig) n last).
  Proof.
    intros ops Hs Hr Hn Hcnt orig Lo. destruct same as (S1 & S2 & _ & S4 & _). induction n as [|n IH]; intros last; cbn [ik_loop].
    - eapply csim_bind; [apply csim_set; exact Lo|]. intros [x|e] [x'|e'] Hq; try contradiction; [|apply csim_ret; exact Hq].
      destruct last as [[p r]|]; cbn [expect bind]; [|apply csim_panic]. apply csim_ret. cbn. rewrite S4. reflexivity.
    - eapply csim_bind; [apply csim_one_loop; [exact Hs|exact Hr|exact Hn|reflexivity|exact Hcnt]|]. intros [d|e] [d'|e'] Hq; try contradiction; [|apply csim_ret; exact Hq].
      cbn in Hq. subst d'. destruct (target_diff_to_len_rot_diff d ops) as [p1 r1].
      assert (Er : reached sv' (p1, r1) = reached sv (p1, r1)) by (unfold reached; rewrite S1, S2; reflexivity). rewrite Er.
      destruct (reached sv (p1, r1)); [|apply IH].
      eapply csim_bind; [apply csim_positions|]. intros ps ps' [_ ->]. eapply csim_bind; [apply csim_clamped|]. intros _ _ _. apply csim_ret. reflexivity.
  Qed.
  Lemma csim_read {A} (g : node R -> A) a : a ∈ c_movable arm -> (forall n n', recalibrated_node (f a) n n' -> g n' = g n) -> csim eq (read a g) (read a g).
  Proof.
    intros Ha Hg t t' h h' nx nx' Hok Hu. destruct (proj2 (proj2 (proj2 (proj2 Hok))) a Ha) as (n & Hn & _). destruct (cal_at f _ _ _ _ Hu Hn) as (n' & Hn' & Hnn).
    assert (E : run t (read a g) (quiet h nx) = Done (g n) (quiet h nx)) by exact (run_read t a g h nx ∅ n Hn (lookup_empty _)).
    assert (E' : run t' (read a g) (quiet h' nx') = Done (g n') (quiet h' nx')) by exact (run_read t' a g h' nx' ∅ n' Hn' (lookup_empty _)).
    rewrite E, E'. apply csim_done; [symmetry; apply Hg; exact Hnn|exact Hok|exact Hu].
  Qed.
  Lemma csim_position nm l : (forall a, a ∈ l -> a ∈ c_movable arm) ->
    csim (fun o o' => o' = o /\ forall i, o = Some i -> (i < length l)%nat) (positionM (fun a => read a (fun n : node R => String.eqb (j_name (n_joint n)) nm)) l)
      (positionM (fun a => read a (fun n : node R => String.eqb (j_name (n_joint n)) nm)) l).
  Proof.
    induction l as [|a l IH]; intros Hin; cbn [positionM]; [apply csim_ret; split; [reflexivity|discriminate]|].
    eapply csim_bind; [apply csim_read; [apply Hin, elem_of_list_here|]|].
    - intros n n' (_ & _ & _ & (_ & _ & Ej & _) & _). rewrite Ej. reflexivity.
    - intros b _ <-. destruct b; [apply csim_ret; split; [reflexivity|intros i E; injection E as <-; cbn; lia]|].
      eapply csim_bind; [apply IH; intros; apply Hin, elem_of_list_further; assumption|]. intros o _ [-> Ho]. apply csim_ret. split; [reflexivity|].
      destruct o as [i|]; [|discriminate]. intros j E. injection E as <-. specialize (Ho i eq_refl). cbn. lia.
  Qed.
  Lemma csim_ignored names : csim eq (ignored_indices arm names) (ignored_indices arm names).
  Proof.
    induction names as [|nm names IH]; cbn [ignored_indices]; [apply csim_ret; reflexivity|].
    eapply csim_bind; [apply csim_position; auto|]. intros o _ [-> _]. destruct o as [i|]; [|apply csim_ret; reflexivity].
    eapply csim_bind; [exact IH|]. intros r _ <-. apply csim_ret. reflexivity.
  Qed.
  Definition fine_indices (names : list string) (r : result R (list nat)) : Prop :=
    match r with Ok idx => NoDup idx /\ length idx = length names /\ Forall (fun j => (j < c_dof arm)%nat) idx | Err e => exists nm, e = InvalidJointNameError nm end.
  Lemma csim_fine names : NoDup names -> csim (fun r r' => r' = r /\ fine_indices names r) (ignored_indices arm names) (ignored_indices arm names).
  Proof.
    intros Hnd t t' h h' nx nx' Hok Hu. destruct (csim_ignored names t t' h h' nx nx' Hok Hu) as [H1 H2]. split; [|exact H2].
    destruct (run_ignored_indices t h nx arm names) as (r & Hr & Hs); [eapply movable_live; apply Hok|]. rewrite Hr in H1 |- *.
    destruct (run t' (ignored_indices arm names) (quiet h' nx')) as [r' s'|? ?|? ?|?|]; try contradiction. destruct H1 as [<- H1]. split; [|exact H1]. split; [reflexivity|].
    destruct r as [idx|e]; cbn; [|destruct Hs as (_ & nm & _ & _ & E & _); eauto].
    split; [eapply indices_nodup; eauto|]. split; [symmetry; eapply Forall2_length; exact Hs|].
    destruct Hok as ((_ & Hm & Hd) & _). apply Forall_forall. intros j Hj. apply elem_of_list_lookup in Hj as [i Hi]. destruct (Forall2_lookup_r _ _ _ _ _ Hs Hi) as (nm & _ & (a & Ha & _)).
    apply lookup_lt_Some in Ha. rewrite Hd, <- Hm. exact Ha.
  Qed.
  Lemma csim_solve c : NoDup (ignored_joint_names c) ->
    ignored_joint_names c = [] \/ (count_true (define_operational_space c) + length (ignored_joint_names c) < c_dof arm)%nat ->
    csim (recalibrated_result eq) (solve_with_constraints ovf la sv arm target c) (solve_with_constraints ovf la sv' arm target c).
  Proof.
    intros Hnd Hn. unfold solve_with_constraints. eapply csim_bind; [apply csim_positions|]. intros orig orig' [Lo ->]. eapply (csim_bind _ _ (recalibrated_result eq)).
    - unfold solve_with_constraints_internal. eapply csim_bind; [apply csim_positions|]. intros o o' [Lo2 ->].
      assert (Hlen : (length (ignored_joint_names c) <= c_dof arm)%nat) by (destruct Hn as [->|Hn]; cbn; lia).
      unfold usize_sub, dof. rewrite decide_True by exact Hlen. cbn [bind]. destruct (decide _) as [|Hge]; [apply csim_ret; reflexivity|].
      eapply csim_bind; [apply csim_fine; exact Hnd|]. intros r _ [-> Hr]. destruct r as [idx|e]; [|apply csim_ret; destruct Hr as [nm ->]; reflexivity].
      destruct Hr as (Hd & Hl & Hb). destruct same as (_ & _ & _ & -> & _). apply csim_loop.
      + apply (sort_strict). exact Hd.
      + apply Forall_forall. intros j Hj. rewrite Forall_forall in Hb. apply Hb. apply (proj1 (sort_elem _ _) Hj).
      + unfold near_enough. rewrite sort_length, Hl. destruct Hn as [En|Hn]; [left|right; exact Hn]. rewrite En in Hl. destruct idx; [reflexivity|discriminate].
      + rewrite sort_length, Hl. lia.
      + exact Lo2.
    - intros [x|e] [x'|e'] Hq; try contradiction; cbn [is_err is_ok negb]; [apply csim_ret; exact Hq|].
      eapply csim_bind; [apply csim_set; exact Lo|]. intros [y|e2] [y'|e2'] Hq2; try contradiction; apply csim_ret; assumption.
  Qed.
End Solve.

(** ** the center of mass *)
Lemma centers_cal f h h' l cs : recalibrated f h h' -> centers h l cs -> centers h' l cs.
Proof.
  intros H. induction 1 as [|a l cs n Hn Hk Hc IH|a l cs n lk w Hn Hk Hw Hc IH]; [constructor| |];
    destruct (cal_at f _ _ _ _ H Hn) as (n' & Hn' & _ & _ & _ & _ & Hl); rewrite Hk in Hl.
  - apply centers_none with n'; assumption.
  - eapply centers_link; [exact Hn'|exact Hl|eapply cal_world; eauto|exact IH].
Qed.
