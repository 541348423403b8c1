(** * Full rank at the start is full rank nearby *)
From Coq Require Import String NArith Reals Lra Psatz Sorting.Sorted.
From stdpp Require Import gmap.
From Verif Require ReachProofs.
From Verif Require Import Scalar ScalarR Geometry Joint Link Prog NodeM ChainM FuncsM IkM LuM SvdM RunLemmas
  SpecJoint SpecNode RangeProofs JointProofs NodeProofs SpecGraph GraphProofs SpecChain ChainProofs
  SpecFK FKProofs VelocityProofs IkLookup SpecIk IkProofs IkProofs2 JacProofs SpecGeom RGeom GeomProofs JacReal PoseDiff
  SpecStep StepProofs LinAlgR LinArm LinIk TrajProofs TrajStep SpecReach SpecLin LuProofs SvdProofs SpecConv ConvGeom ConvRot ConvList ConvStep ConvIk
  PropLu PropSvd.
Local Open Scope R_scope.

(** ** lists *)
Lemma diff_length a b : length a = length b -> length (diff a b) = length a.
Proof. intros E. unfold diff. rewrite zip_with_length. lia. Qed.
Lemma dot_diff_l a b x : length a = length b -> dot (diff a b) x = dot a x - dot b x.
Proof. revert b x. induction a as [|y a IH]; intros [|z b] [|w x] E; try discriminate; cbn; try ring. injection E as E. unfold diff in IH. rewrite IH by exact E. ring. Qed.
Lemma norm_flagged ops : forall (l : list R), norm (flagged ops l) <= norm l.
Proof.
  intros l. apply norm_le. revert l. induction ops as [|[] ops IH]; intros [|x l]; cbn; try lra; try (pose proof (dot_nonneg l); nra).
  - specialize (IH l). lra.
  - specialize (IH l). nra.
Qed.
Lemma flagged_diff ops a b : diff (flagged ops a) (flagged ops b) = flagged ops (diff a b).
Proof. unfold diff. symmetry. apply flagged_zip. Qed.
Lemma fill idx (cols : list (list R)) : forall k (x : list R), length (without_from k idx cols) = length x ->
  exists full, length full = length cols /\ without_from k idx full = x /\ forall j, (j < length cols)%nat -> (k + j)%nat ∈ idx -> full !! j = Some 0.
Proof.
  induction cols as [|c cols IH]; intros k x E; cbn in E.
  { destruct x; [|discriminate]. exists []. split; [reflexivity|]. split; [reflexivity|]. intros j Hj. cbn in Hj. lia. }
  destruct (decide (k ∈ idx)) as [Hk|Hk].
  - destruct (IH (S k) x E) as (full & H1 & H2 & H3). exists (0 :: full). cbn [length]. split; [congruence|]. split.
    + cbn. rewrite decide_True by exact Hk. exact H2.
    + intros [|j] Hj Hi; [reflexivity|]. apply H3; [lia|]. replace (S k + j)%nat with (k + S j)%nat by lia. exact Hi.
  - destruct x as [|y x]; [discriminate|]. injection E as E. destruct (IH (S k) x E) as (full & H1 & H2 & H3). exists (y :: full). cbn [length]. split; [congruence|]. split.
    + cbn. rewrite decide_False by exact Hk. rewrite H2. reflexivity.
    + intros [|j] Hj Hi; [rewrite Nat.add_0_r in Hi; contradiction|]. apply H3; [lia|]. replace (S k + j)%nat with (k + S j)%nat by lia. exact Hi.
Qed.
Lemma spread_exists idx (cols : list (list R)) (x : list R) : Forall (fun j => (j < length cols)%nat) idx -> length (without idx cols) = length x ->
  exists full, length full = length cols /\ spread_to idx x full.
Proof.
  intros Hi E. destruct (fill idx cols 0 x E) as (full & H1 & H2 & H3). exists full. split; [exact H1|]. split; [exact H2|].
  intros j Hj. rewrite Forall_forall in Hi. apply (H3 j); [apply Hi, Hj|exact Hj].
Qed.

(** ** the arm's velocities change slowly *)
Lemma colsof_length p W js : length (colsof p W js) = nmov js.
Proof. revert W. induction js as [|j js IH]; intros W; [reflexivity|]. cbn [colsof nmov]. destruct (j_type j); cbn [jcol length]; rewrite ?IH; reflexivity. Qed.
Lemma colsof_six p W js : Forall (fun c => length c = 6%nat) (colsof p W js).
Proof. revert W. induction js as [|j js IH]; intros W; [constructor|]. cbn [colsof]. destruct (j_type j); cbn [jcol]; [apply IH|constructor; [reflexivity|apply IH]..]. Qed.
Section Reg.
  Variables (L : R) (js js' : list (joint R)).
  Hypothesis HL : 1 <= L.
  Hypothesis Hu : Forall unit_joint js.
  Hypothesis Ho : Forall2 at_other_position js js'.
  Hypothesis Hspan : total (map span js) <= L.
  Let cols := colsof (tr (end_at iso1 js)) iso1 js.
  Let cols' := colsof (tr (end_at iso1 js')) iso1 js'.
  Lemma velocity_lip ops ds : length ds = nmov js ->
    norm (diff (flagged ops (combine 6 cols' ds)) (flagged ops (combine 6 cols ds))) <= (L + 1) * asum ds * asum (gaps js js').
  Proof.
    intros Hl. rewrite flagged_diff. eapply Rle_trans; [apply norm_flagged|].
    unfold cols, cols'. rewrite !combine_twist by (rewrite ?(others_nmov _ _ Ho); exact Hl).
    rewrite !twist_1 by (try exact Hu; eapply unit_others; eauto).
    pose proof (dtip_lip L HL js js' Hu Ho Hspan ds) as H1. pose proof (drot_lip js js' Hu Ho ds) as H2.
    apply norm_le_of_sqr. { pose proof (asum_nonneg ds). pose proof (asum_nonneg (gaps js js')). repeat apply Rmult_le_pos; lra. }
    set (A := minus (dtip js' ds) (dtip js ds)) in *. set (B := minus (drot js' ds) (drot js ds)) in *.
    assert (E : dot (diff [vx (dtip js' ds); vy (dtip js' ds); vz (dtip js' ds); vx (drot js' ds); vy (drot js' ds); vz (drot js' ds)]
                 [vx (dtip js ds); vy (dtip js ds); vz (dtip js ds); vx (drot js ds); vy (drot js ds); vz (drot js ds)])
               (diff [vx (dtip js' ds); vy (dtip js' ds); vz (dtip js' ds); vx (drot js' ds); vy (drot js' ds); vz (drot js' ds)]
                 [vx (dtip js ds); vy (dtip js ds); vz (dtip js ds); vx (drot js ds); vy (drot js ds); vz (drot js ds)]) = len A * len A + len B * len B).
    { rewrite !len_sqr. unfold A, B, minus, inner. cbn. ring. }
    rewrite E. pose proof (len_nonneg A). pose proof (len_nonneg B).
    replace ((L + 1) * asum ds * asum (gaps js js')) with (L * asum ds * asum (gaps js js') + asum ds * asum (gaps js js')) by ring. nra.
  Qed.

  Variables (ops : list bool) (idx : list nat) (r s : R).
  Hypothesis Hops : length ops = 6%nat.
  Hypothesis Hi : Forall (fun j => (j < nmov js)%nat) idx.
  Hypothesis Hr : norm (diff (posns js') (posns js)) <= r.
  Let N := INR (nmov js).
  Let J := reduced ops idx cols.
  Let J' := reduced ops idx cols'.
  Lemma same_size {A B} (l : list A) (l' : list B) k : length l = length l' -> length (without_from k idx l) = length (without_from k idx l').
  Proof. revert l' k. induction l as [|x l IH]; intros [|y l'] k E; try discriminate; [reflexivity|]. injection E as E. cbn. case_decide; cbn; rewrite (IH l' (S k) E); reflexivity. Qed.
  Lemma cols_size : length (m_cols J') = length (m_cols J).
  Proof. unfold J, J', reduced. cbn [m_cols]. rewrite !map_length. apply same_size. unfold cols, cols'. rewrite !colsof_length. apply others_nmov, Ho. Qed.
  Lemma cols_rows W p (ks : list (joint R)) : Forall (fun c => length c = m_rows J) (m_cols (reduced ops idx (colsof p W ks))).
  Proof.
    unfold J, reduced. cbn [m_rows m_cols]. apply Forall_map. apply Forall_without. eapply Forall_impl; [apply colsof_six|]. cbn. intros c Hc. apply flagged_length. congruence.
  Qed.
  Lemma coords_change b : length b = m_rows J ->
    norm (diff (coords (m_cols J') b) (coords (m_cols J) b)) <= (L + 1) * (N * N) * r * norm b.
  Proof.
    intros Hb. set (d := diff (coords (m_cols J') b) (coords (m_cols J) b)).
    assert (Hld : length d = length (m_cols J)) by (unfold d; rewrite diff_length; rewrite !coords_length; auto using cols_size).
    assert (HcJ : Forall (fun c => length c = m_rows J) (m_cols J)) by apply cols_rows.
    assert (HcJ' : Forall (fun c => length c = m_rows J') (m_cols J')) by apply cols_rows.
    assert (Hlc : length cols = nmov js) by apply colsof_length.
    assert (Hlc' : length cols' = nmov js) by (unfold cols'; rewrite colsof_length; apply others_nmov, Ho).
    destruct (spread_exists idx cols d) as (full & Hlf & Hsp).
    { rewrite Hlc. exact Hi. }
    { rewrite Hld. unfold J, reduced. cbn [m_cols]. rewrite map_length. reflexivity. }
    assert (E : dot d d = dot (diff (act J' d) (act J d)) b).
    { rewrite dot_diff_l.
      - unfold act. rewrite (coords_dot (m_rows J') (m_cols J') d b HcJ' Hb), (coords_dot (m_rows J) (m_cols J) d b HcJ Hb). unfold d at 1. rewrite dot_diff_l by (rewrite !coords_length; apply cols_size).
        rewrite !(dot_comm d). ring.
      - unfold act. rewrite !combine_length by assumption. reflexivity. }
    pose proof (act_full_gen ops idx cols full d Hops (colsof_six _ _ _) Hlf Hsp) as Ea. fold J in Ea. rewrite <- Ea in E.
    pose proof (act_full_gen ops idx cols' full d Hops (colsof_six _ _ _) ltac:(congruence) Hsp) as Ea'. fold J' in Ea'. rewrite <- Ea' in E.
    pose proof (velocity_lip ops full ltac:(congruence)) as Hlip.
    set (z := diff (flagged ops (combine 6 cols' full)) (flagged ops (combine 6 cols full))) in *.
    assert (Hz : length z = length b).
    { rewrite Hb. unfold z. rewrite flagged_diff. unfold J, reduced. cbn [m_rows]. apply flagged_length. rewrite Hops. unfold diff.
      rewrite zip_with_length, !combine_length by apply colsof_six. reflexivity. }
    pose proof (dot_norm z b Hz) as Hzb.
    assert (Hfd : norm full = norm d) by (unfold norm; rewrite (spread_dot idx d full Hsp); reflexivity).
    assert (Hfs : asum full <= N * norm d).
    { pose proof (asum_norm full (norm d) ltac:(lra)) as H. rewrite Hlf, Hlc in H. exact H. }
    assert (Hgs : asum (gaps js js') <= N * r).
    { rewrite (gaps_posns js js' Ho). pose proof (asum_norm _ r Hr) as H. rewrite diff_length, nmov_posns, (others_nmov _ _ Ho) in H; [exact H|].
      rewrite !nmov_posns. apply others_nmov, Ho. }
    pose proof (norm_nonneg d) as Hd0. pose proof (norm_nonneg b) as Hb0. pose proof (asum_nonneg full) as Hf0. pose proof (asum_nonneg (gaps js js')) as Hg0.
    assert (HN0 : 0 <= N) by apply pos_INR.
    assert (Hzn : norm z <= (L + 1) * (N * N) * r * norm d).
    { eapply Rle_trans; [exact Hlip|]. replace ((L + 1) * (N * N) * r * norm d) with ((L + 1) * ((N * norm d) * (N * r))) by ring.
      rewrite Rmult_assoc. apply Rmult_le_compat_l; [lra|]. apply Rmult_le_compat; assumption. }
    assert (Hdd : norm d * norm d <= ((L + 1) * (N * N) * r * norm b) * norm d).
    { rewrite norm_sqr, E. eapply Rle_trans; [exact Hzb|]. replace ((L + 1) * (N * N) * r * norm b * norm d) with ((L + 1) * (N * N) * r * norm d * norm b) by ring.
      apply Rmult_le_compat_r; assumption. }
    destruct (Rle_lt_dec (norm d) 0) as [H0|H0]; [|apply Rmult_le_reg_r with (norm d); assumption].
    assert (0 <= r) by (pose proof (norm_nonneg (diff (posns js') (posns js))); lra).
    eapply Rle_trans; [exact H0|]. repeat apply Rmult_le_pos; lra.
  Qed.
  Lemma full_rank_near : (forall b, length b = m_rows J -> s * norm b <= norm (coords (m_cols J) b)) -> 2 * ((L + 1) * (N * N) * r) <= s ->
    forall b, length b = m_rows J' -> s / 2 * norm b <= norm (coords (m_cols J') b).
  Proof.
    intros H Hs b Hb. specialize (H b Hb). pose proof (coords_change b Hb) as Hc. pose proof (norm_nonneg b).
    assert (Ht : norm (coords (m_cols J) b) <= norm (coords (m_cols J') b) + norm (diff (coords (m_cols J') b) (coords (m_cols J) b))).
    { assert (El : length (coords (m_cols J') b) = length (coords (m_cols J) b)) by (rewrite !coords_length; apply cols_size).
      revert El. generalize (coords (m_cols J') b), (coords (m_cols J) b). intros u v El.
      assert (E : v = ladd u (lscale (-1) (diff u v))).
      { revert v El. induction u as [|x u IH]; intros [|y v] El; try discriminate; [reflexivity|]. injection El as El. cbn. f_equal; [ring|]. apply IH, El. }
      rewrite E at 1. eapply Rle_trans; [apply norm_ladd; rewrite lscale_length, diff_length; auto|].
      apply Rplus_le_compat_l. right. unfold norm. f_equal. generalize (diff u v). clear. induction l as [|x l IH]; [reflexivity|]. cbn. unfold lscale in IH. rewrite IH. ring. }
    assert ((L + 1) * (N * N) * r * norm b <= s / 2 * norm b) by (apply Rmult_le_compat_r; lra). lra.
  Qed.
End Reg.

(** ** full rank solves well *)
Lemma act_dot J x b : Forall (fun c => length c = m_rows J) (m_cols J) -> length b = m_rows J -> dot (act J x) b = dot x (coords (m_cols J) b).
Proof. intros Hc Hb. unfold act. apply coords_dot; assumption. Qed.
Lemma svd_well (J : mat R) lu dec s b : Forall (fun c => length c = m_rows J) (m_cols J) ->
  svd_of J (dec J) -> length (sing (dec J)) = m_rows J -> (forall b, length b = m_rows J -> s * norm b <= norm (coords (m_cols J) b)) ->
  1 / 10000 < s -> length b = m_rows J ->
  exists x, svd_solve (svd_linalg lu dec) J b = Some x /\ solves J x b /\ norm x <= / s * norm b.
Proof.
  intros Hc Hdec Hk Hs Hs0 Hb. destruct eps_R as [Ee Hpos].
  assert (Hsing : Forall (fun x => s <= x) (sing (dec J))).
  { apply Forall_lookup_2. intros i x Hx. pose proof Hdec as (Hl & Hr & Hlu & Hrv & Hol & Hor & Hnn & Hact).
    assert (Hil : (i < length (left (dec J)))%nat) by (rewrite Hl; eapply lookup_lt_Some; exact Hx).
    assert (Hir : (i < length (right (dec J)))%nat) by (rewrite Hr; eapply lookup_lt_Some; exact Hx).
    destruct (lookup_lt_is_Some_2 _ _ Hil) as [u Hu]. destruct (lookup_lt_is_Some_2 _ _ Hir) as [v Hv].
    assert (Hlu1 : length u = m_rows J) by (rewrite Forall_forall in Hlu; apply Hlu; eapply elem_of_list_lookup_2; exact Hu).
    assert (Hlv1 : length v = length (m_cols J)) by (rewrite Forall_forall in Hrv; apply Hrv; eapply elem_of_list_lookup_2; exact Hv).
    assert (Hu1 : dot u u = 1) by (rewrite (Hol i i u u Hu Hu), decide_True by reflexivity; reflexivity).
    assert (Hv1 : dot v v = 1) by (rewrite (Hor i i v v Hv Hv), decide_True by reflexivity; reflexivity).
    assert (Hx0 : 0 <= x) by (rewrite Forall_forall in Hnn; apply Hnn; eapply elem_of_list_lookup_2; exact Hx).
    specialize (Hs u Hlu1). set (y := coords (m_cols J) u) in *.
    assert (Hly : length y = length (m_cols J)) by apply coords_length.
    assert (E : dot y y = x * dot v y).
    { unfold y at 1. rewrite dot_comm, <- act_dot by assumption. rewrite Hact by exact Hly.
      set (ws := zip_with Rmult (sing (dec J)) (map (fun v => dot v y) (right (dec J)))).
      assert (Hlw : length ws = length (left (dec J))) by (unfold ws; rewrite zip_with_length, map_length; lia).
      pose proof (coords_combine (m_rows J) (left (dec J)) Hlu Hol ws Hlw) as Hcc. apply (f_equal (fun l => l !! i)) in Hcc.
      unfold coords in Hcc. change (map ?f ?l) with (f <$> l) in Hcc. rewrite list_lookup_fmap, Hu in Hcc. cbn in Hcc.
      assert (Hwi : ws !! i = Some (x * dot v y)).
      { unfold ws. apply lookup_zip_with_Some. exists x, (dot v y). split; [reflexivity|]. split; [exact Hx|].
        change (map ?f ?l) with (f <$> l). rewrite list_lookup_fmap, Hv. reflexivity. }
      rewrite Hwi in Hcc. apply Some_inj in Hcc. rewrite dot_comm. exact Hcc. }
    assert (Hnu : norm u = 1) by (unfold norm; rewrite Hu1; apply sqrt_1). assert (Hnv : norm v = 1) by (unfold norm; rewrite Hv1; apply sqrt_1).
    pose proof (dot_norm v y ltac:(congruence)) as Hvy. rewrite Hnv in Hvy. rewrite Hnu in Hs. rewrite <- norm_sqr in E.
    assert (0 < norm y) by lra. assert (norm y * norm y <= x * norm y) by (rewrite E; apply Rmult_le_compat_l; lra). nra. }
  assert (Hans : forall e, 0 < e -> e < s -> answer J (dec J) e b = answer J (dec J) ik_eps b).
  { intros e He Hes. unfold answer. f_equal. unfold weights. revert Hsing. generalize (sing (dec J)), (coords (left (dec J)) b). rewrite Ee.
    clear -Hes Hs0. intros l. induction l as [|x l IH]; intros [|y k] H; cbn; try reflexivity. apply Forall_cons in H as [Hx H].
    rewrite IH by exact H. destruct (Rlt_dec e x), (Rlt_dec (1 / 10000) x); try lra; reflexivity. }
  exists (answer J (dec J) ik_eps b). split; [exact (solve_answer J (dec J) ik_eps Hdec Hpos b)|]. split.
  - split; [apply answer_length; assumption|]. apply full_rank; try assumption. eapply Forall_impl; [exact Hsing|]. intros x Hx. cbv beta in *. rewrite Ee. lra.
  - set (x := answer J (dec J) ik_eps b) in *. assert (Hb2 : forall e, 0 < e -> e < s -> norm x * e <= norm b).
    { intros e He Hes. pose proof (norm_bound x b e He) as H. rewrite <- (Hans e He Hes) in H. specialize (H (answer_bound J (dec J) e Hdec He b Hb)).
      rewrite (Hans e He Hes) in H. fold x in H. apply Rmult_le_compat_r with (r := e) in H; [|lra]. unfold Rdiv in H. rewrite Rmult_assoc, Rinv_l, Rmult_1_r in H by lra. exact H. }
    pose proof (norm_nonneg x) as Hx0. pose proof (norm_nonneg b) as Hb0. apply Rmult_le_reg_l with s; [lra|]. rewrite <- Rmult_assoc, Rinv_r, Rmult_1_l by lra.
    destruct (Rle_lt_dec (s * norm x) (norm b)) as [Hle|Hgt]; [exact Hle|]. exfalso.
    assert (Hxp : 0 < norm x) by nra. set (e := (s + norm b / norm x) / 2).
    assert (Hq : norm b / norm x < s) by (apply Rmult_lt_reg_r with (norm x); [exact Hxp|]; unfold Rdiv; rewrite Rmult_assoc, Rinv_l, Rmult_1_r by lra; exact Hgt).
    assert (Hq0 : 0 <= norm b / norm x) by (apply Rmult_le_pos; [exact Hb0|left; apply Rinv_0_lt_compat; exact Hxp]).
    specialize (Hb2 e ltac:(unfold e; lra) ltac:(unfold e; lra)).
    assert (E : norm x * e = (norm x * s + norm b) / 2) by (unfold e; field; lra). lra.
Qed.
Lemma lu_well (J : mat R) n s b : shaped J n n -> (forall b, length b = n -> s * norm b <= norm (coords (m_cols J) b)) -> 0 < s -> length b = n ->
  exists x, na_lu_solve J b = Some x /\ solves J x b /\ norm x <= / s * norm b.
Proof.
  intros HJ Hs Hs0 Hb. pose proof HJ as (Hr & Hl & Hc).
  set (Jt := Mat n (map (row (Mat n (m_cols J))) (seq 0 n))).
  assert (Ht : forall v, length v = n -> act Jt v = coords (m_cols J) v).
  { intros v Hv. unfold act, Jt. cbn [m_rows m_cols]. rewrite <- Hl at 1. apply transpose; assumption. }
  assert (HJt : shaped Jt n n).
  { split; [reflexivity|]. split; [unfold Jt; cbn; rewrite map_length, seq_length; reflexivity|].
    unfold Jt. cbn [m_cols]. apply Forall_map, Forall_true. intros i. unfold row. cbn. rewrite map_length. exact Hl. }
  assert (Hreg : regular Jt).
  { intros z [Hz Hz0]. destruct HJt as (Hrt & Hlt & _). rewrite Hlt in Hz. change (act Jt z = zeros (m_rows Jt)) in Hz0. rewrite Ht in Hz0 by exact Hz.
    specialize (Hs z Hz). rewrite Hz0 in Hs. rewrite Hlt, <- Hz. apply dot_pos_zero.
    assert (norm (zeros (m_rows Jt)) = 0) as E by (unfold norm; rewrite dot_zeros; apply sqrt_0). rewrite E in Hs.
    pose proof (norm_nonneg z). rewrite <- norm_sqr. assert (norm z = 0) as -> by nra. ring. }
  assert (Hsur : forall y, length y = n -> exists v, length v = n /\ coords (m_cols J) v = y).
  { intros y Hy. destruct (na_lu_solve Jt y) as [v|] eqn:E.
    - destruct (C66_lu_exact Jt n y v HJt Hy E) as ([H1 H2] & _). destruct HJt as (_ & Hlt & _). exists v. split; [congruence|]. rewrite <- Ht by congruence. exact H2.
    - apply (C66_lu_singular Jt n y HJt Hy) in E. contradiction. }
  assert (HrJ : regular J).
  { intros z [Hz Hz0]. rewrite Hl in *. destruct (Hsur z Hz) as (v & Hv & E). rewrite <- Hz. apply dot_pos_zero. rewrite <- E at 2.
    rewrite <- act_dot by (rewrite Hr; assumption). unfold act. rewrite Hz0, dot_comm. apply dot_zeros. }
  destruct (na_lu_solve J b) as [x|] eqn:E; [|apply (C66_lu_singular J n b HJ Hb) in E; contradiction].
  destruct (C66_lu_exact J n b x HJ Hb E) as ([H1 H2] & _). exists x. split; [reflexivity|]. split; [split; assumption|].
  assert (Hx : length x = n) by congruence. destruct (Hsur x Hx) as (v & Hv & Ev). specialize (Hs v Hv). rewrite Ev in Hs.
  assert (Hd : dot x x = dot b v) by (rewrite <- Ev at 2; rewrite <- act_dot by (rewrite Hr; assumption); unfold act; rewrite H2; reflexivity).
  pose proof (dot_norm b v ltac:(congruence)) as Hbv. rewrite <- Hd, <- norm_sqr in Hbv.
  pose proof (norm_nonneg x). pose proof (norm_nonneg b). pose proof (norm_nonneg v).
  apply Rmult_le_reg_l with s; [exact Hs0|]. rewrite <- Rmult_assoc, Rinv_r, Rmult_1_l by lra.
  assert (s * (norm x * norm x) <= norm b * norm x) by nra.
  destruct (Rle_lt_dec (norm x) 0); nra.
Qed.
