(** * C71: the solver converges *)
From Coq Require Import String NArith Reals Lra Psatz Sorting.Sorted.
From stdpp Require Import gmap.
From Verif Require Import Scalar ScalarR Geometry Joint Link Prog NodeM ChainM FuncsM IkM LuM SvdM RunLemmas
  SpecJoint SpecNode SpecGraph GraphProofs SpecChain ChainProofs SpecFK FKProofs SpecIk JacProofs SpecGeom RGeom GeomProofs JacReal PoseDiff
  SpecStep SpecLin IkLookup IkProofs IkProofs2 StepProofs LinAlgR LinArm LinIk LuProofs SvdProofs SpecReach TrajProofs PropGeom PropJac PropIk PropStep PropTraj PropLu PropSvd
  SpecConv ConvGeom ConvRot ConvList ConvStep ConvIk ConvReg.
Local Open Scope R_scope.

Lemma unit_forall h l js : joints_at h (rev l) js -> (forall a n, a ∈ l -> h !! a = Some n -> unit_joint (n_joint n)) -> Forall unit_joint js.
Proof.
  intros H Hu. apply Forall_lookup_2. intros i j Hj. destruct (Forall2_lookup_r _ _ _ _ _ H Hj) as (a & Ha & n & Hn & ->).
  apply (Hu a n); [|exact Hn]. apply elem_of_list_lookup_2 in Ha. apply elem_of_list_In, in_rev, elem_of_list_In in Ha. exact Ha.
Qed.
Lemma start_positions t h nx arm l js q0 s : chain_of h (rev l) arm -> joints_at h (rev l) js ->
  run t (joint_positions arm) (quiet h nx) = Done q0 s -> q0 = posns js.
Proof.
  intros Hc Hj Hq. destruct (run_positions t h nx arm _ Hc) as (ps & Hps & _ & E). rewrite Hps in Hq. injection Hq as <- _.
  apply some_inj_list. destruct Hc as (_ & Hm & _). rewrite E, Hm. symmetry. apply posns_filter. exact Hj.
Qed.
Lemma start_end t h nx arm l js w : chain_of h (rev l) arm -> joints_at h (rev l) js ->
  run t (end_transform arm) (quiet h nx) = Done w (quiet h nx) -> w = end_at iso1 js.
Proof.
  intros (En & _) Hj Hw. assert (H : run t (end_transform arm) (quiet h nx) = Done (end_at iso1 js) (quiet h nx)).
  { unfold end_transform, end_at. apply run_end_fold. rewrite En. apply joints_locals. exact Hj. }
  rewrite Hw in H. injection H as ->. reflexivity.
Qed.
Lemma ball_well (P : mat R -> Prop) t h nx arm e l js (c : constraints) idx q0 r : path_up h e l -> chain_of h (rev l) arm -> joints_at h (rev l) js -> q0 = posns js ->
  (forall q cols, near q0 r q -> jacobian_at t h nx arm q cols -> P (reduced (flags c) idx cols)) ->
  forall js', Forall2 at_other_position js js' -> norm (diff (posns js') (posns js)) <= r -> P (reduced (flags c) idx (colsof (tr (end_at iso1 js')) iso1 js')).
Proof.
  intros Hp Hc Hj -> H js' Ho Hn. apply (H (posns js')).
  - split; [rewrite !nmov_posns; apply others_nmov, Ho|exact Hn].
  - destruct (jacobian_elsewhere t h nx arm e l js js' Hp Hc Hj Ho) as (h' & Hr). eexists. exact Hr.
Qed.

(** C71, one iteration.  [L] bounds the length of the arm, [K] the length of the answers of the
    linear algebra.  The remaining error is at most [(1 - m)] times the error before, plus a
    multiple of its square: with [m = 1] the method of Newton, of order two. *)
Theorem C71_newton_step (t : nat) ovf (h : gmap nat (node R)) nx arm e l target (c : constraints) la sv js cols s w idx K L r :
  path_up h e l -> chain_of h (rev l) arm -> joints_of h (rev l) js ->
  (forall a n, a ∈ l -> h !! a = Some n -> unit_joint (n_joint n)) -> proper target ->
  rotation_x c = rotation_y c -> rotation_y c = rotation_z c -> nullspace_function sv = None ->
  StronglySorted lt idx -> Forall (fun j => (j < c_dof arm)%nat) idx ->
  let m := jacobian_multiplier sv in let N := INR (c_dof arm) in
  0 < m <= 1 -> 0 <= K -> 1 <= L -> total (map span js) + N * r <= L -> Forall (roomy h r) (c_movable arm) ->
  run t (jacobian arm) (quiet h nx) = Done (Mat 6 cols) s ->
  run t (end_transform arm) (quiet h nx) = Done w (quiet h nx) ->
  solves_well la (c_dof arm) (count (flags c)) (length idx) (reduced (flags c) idx cols) K ->
  let err := norm (flagged (flags c) (pose_error target w)) in
  m * (K * err) <= r ->
  exists d h' w',
    run t (solve_one_loop_with_constraints ovf la sv arm target (flags c) idx) (quiet h nx) = Done (Ok d) (quiet h' nx) /\
    run t (end_transform arm) (quiet h' nx) = Done w' (quiet h' nx) /\
    d = flagged (flags c) (pose_error target w') /\
    norm d <= (1 - m) * err + 3 * L * N * ((m * (K * err)) * (m * (K * err))).
Proof.
  intros Hp Hc Hj Hu Ht Hrx Hry Hns Hs Hi m N Hm HK HL Hspan Hroom HJ Hw Hwell err Hr.
  assert (Hju : Forall unit_joint js) by (eapply unit_forall; eauto).
  pose proof (start_end _ _ _ _ _ _ _ Hc Hj Hw) as ->.
  destruct (serial_jacobian t h nx arm e l js Hp Hc Hj) as (h1 & HJ1). rewrite HJ in HJ1. injection HJ1 as -> _.
  (* an arm allowed to move exactly that far, and well conditioned at the start *)
  assert (E0 : norm (diff (posns js) (posns js)) = 0).
  { unfold norm. assert (dot (diff (posns js) (posns js)) (diff (posns js) (posns js)) = 0) as ->; [|apply sqrt_0]. generalize (posns js). clear.
    induction l as [|x a IH]; [reflexivity|]. change (diff (x :: a) (x :: a)) with ((x - x) :: diff a a). cbn [dot]. rewrite IH. ring. }
  destruct (heap_step_at t ovf h nx arm e l target c idx la sv js K L r Hp Hc Hj Hju Ht Hrx Hry Hns Hs Hi Hm HK HL Hspan Hroom h js) as (h' & js' & _ & H1 & H2 & _ & H3).
  - split; [apply frozen_refl|exact Hj].
  - exact Hwell.
  - rewrite E0. fold m. fold err. lra.
  - eexists _, h', _. split; [exact H1|]. split; [exact H2|]. split; [reflexivity|]. exact H3.
Qed.
Print Assumptions C71_newton_step.

(** C71, the whole call, if the linear algebra answers well near the start *)
Theorem C71_converges (t : nat) ovf (h : gmap nat (node R)) nx arm e l target (c : constraints) la sv js q0 w idx K L r k :
  path_up h e l -> chain_of h (rev l) arm -> joints_of h (rev l) js ->
  (forall a n, a ∈ l -> h !! a = Some n -> unit_joint (n_joint n)) -> proper target ->
  rotation_x c = rotation_y c -> rotation_y c = rotation_z c -> nullspace_function sv = None ->
  NoDup (ignored_joint_names c) -> Forall2 (first_named h (c_movable arm)) (ignored_joint_names c) idx ->
  (count (flags c) + length idx <= c_dof arm)%nat ->
  run t (joint_positions arm) (quiet h nx) = Done q0 (quiet h nx) ->
  run t (end_transform arm) (quiet h nx) = Done w (quiet h nx) ->
  let m := jacobian_multiplier sv in let N := INR (c_dof arm) in
  let err := norm (flagged (flags c) (pose_error target w)) in
  0 < m <= 1 -> 0 <= K -> 1 <= L -> total (map span js) + N * r <= L -> Forall (roomy h r) (c_movable arm) ->
  (forall q cols, near q0 r q -> jacobian_at t h nx arm q cols ->
     solves_well la (c_dof arm) (count (flags c)) (length idx) (reduced (flags c) idx cols) K) ->
  6 * L * N * m * (K * K) * err <= 1 -> 2 * (K * err) <= r ->
  (1 <= k <= num_max_try sv)%nat ->
  (1 - m / 2) ^ k * err < allowable_target_distance sv -> (1 - m / 2) ^ k * err < allowable_target_angle sv ->
  exists h' q', run t (solve_with_constraints ovf la sv arm target c) (quiet h nx) = Done (Ok tt) (quiet h' nx) /\
    run t (joint_positions arm) (quiet h' nx) = Done q' (quiet h' nx) /\ near q0 (2 * (K * err)) q'.
Proof.
  intros Hp Hc Hj Hu Ht Hrx Hry Hns Hnd Hidx Hcnt Hq Hw m N err Hm HK HL Hspan Hroom Hwell Hsmall Hball Hk Hd Ha.
  assert (Hju : Forall unit_joint js) by (eapply unit_forall; eauto).
  pose proof (start_positions _ _ _ _ _ _ _ _ Hc Hj Hq) as Eq. pose proof (start_end _ _ _ _ _ _ _ Hc Hj Hw) as Ew. unfold err in *. rewrite Ew in *.
  pose proof (ball_well (fun J => solves_well la (c_dof arm) (count (flags c)) (length idx) J K) t h nx arm e l js c idx q0 r Hp Hc Hj Eq Hwell) as Hw2.
  destruct (conv_solve t ovf h nx arm e l target c la sv js idx K L r k Hp Hc Hj Hju Ht Hrx Hry Hns Hnd Hidx Hcnt Hm HK HL Hspan Hroom Hw2 Hsmall Hball Hk Hd Ha)
    as (h' & js' & H1 & H2 & H3 & H4).
  assert (Hc' : chain_of h' (rev l) arm) by (eapply frozen_chain; eauto). destruct (run_positions t h' nx arm _ Hc') as (q' & Hq' & Hl' & _).
  exists h', q'. split; [exact H1|]. split; [exact Hq'|]. rewrite (start_positions _ _ _ _ _ _ _ _ Hc' H3 Hq'), Eq. split; [|exact H4].
  rewrite !nmov_posns. apply others_nmov. eapply frozen_others; eauto.
Qed.
Print Assumptions C71_converges.

(** C71, if only the Jacobian at the start is well conditioned *)
Theorem C71_from_start (t : nat) ovf (h : gmap nat (node R)) nx arm e l target (c : constraints) la sv js q0 w idx cols s' s L r k :
  path_up h e l -> chain_of h (rev l) arm -> joints_of h (rev l) js ->
  (forall a n, a ∈ l -> h !! a = Some n -> unit_joint (n_joint n)) -> proper target ->
  rotation_x c = rotation_y c -> rotation_y c = rotation_z c -> nullspace_function sv = None ->
  NoDup (ignored_joint_names c) -> Forall2 (first_named h (c_movable arm)) (ignored_joint_names c) idx ->
  (count (flags c) + length idx <= c_dof arm)%nat ->
  run t (joint_positions arm) (quiet h nx) = Done q0 (quiet h nx) ->
  run t (end_transform arm) (quiet h nx) = Done w (quiet h nx) ->
  run t (jacobian arm) (quiet h nx) = Done (Mat 6 cols) s' ->
  conditioned (reduced (flags c) idx cols) s -> 1 / 5000 < s ->
  (forall q cols, near q0 r q -> jacobian_at t h nx arm q cols ->
     nalgebra_at la (c_dof arm) (count (flags c)) (length idx) (reduced (flags c) idx cols)) ->
  let m := jacobian_multiplier sv in let N := INR (c_dof arm) in
  let err := norm (flagged (flags c) (pose_error target w)) in
  0 < m <= 1 -> 1 <= L -> total (map span js) + N * r <= L -> Forall (roomy h r) (c_movable arm) ->
  2 * ((L + 1) * (N * N) * r) <= s ->
  24 * L * N * m * err <= s * s -> 4 * err <= s * r ->
  (1 <= k <= num_max_try sv)%nat ->
  (1 - m / 2) ^ k * err < allowable_target_distance sv -> (1 - m / 2) ^ k * err < allowable_target_angle sv ->
  exists h' q', run t (solve_with_constraints ovf la sv arm target c) (quiet h nx) = Done (Ok tt) (quiet h' nx) /\
    run t (joint_positions arm) (quiet h' nx) = Done q' (quiet h' nx) /\ near q0 (4 * err / s) q'.
Proof.
  intros Hp Hc Hj Hu Ht Hrx Hry Hns Hnd Hidx Hcnt Hq Hw HJ Hcond Hs Hna m N err Hm HL Hspan Hroom Hsr Hsmall Hball Hk Hd Ha.
  assert (Hju : Forall unit_joint js) by (eapply unit_forall; eauto). assert (Hs0 : 0 < s) by lra.
  pose proof (start_positions _ _ _ _ _ _ _ _ Hc Hj Hq) as Eq.
  destruct (serial_jacobian t h nx arm e l js Hp Hc Hj) as (h1 & HJ1). rewrite HJ in HJ1. injection HJ1 as -> _.
  pose proof Hc as (_ & Hmv & Hdof). assert (Hn : nmov js = c_dof arm) by (rewrite (nmov_filter h (rev l) js Hj); symmetry; exact Hdof).
  pose proof (indices_nodup _ _ _ _ Hnd Hidx) as Hndi.
  assert (Hbound : Forall (fun j => (j < c_dof arm)%nat) idx).
  { apply Forall_forall. intros j Hji. rewrite Hdof, <- Hmv.
    apply elem_of_list_lookup in Hji as [i Hi]. destruct (Forall2_lookup_r _ _ _ _ _ Hidx Hi) as (nm & _ & Hfn).
    destruct Hfn as (a & Haa & _). eapply lookup_lt_Some; exact Haa. }
  pose proof (ball_well (fun J => nalgebra_at la (c_dof arm) (count (flags c)) (length idx) J) t h nx arm e l js c idx q0 r Hp Hc Hj Eq Hna) as Hna2.
  assert (Hwell : forall js', Forall2 at_other_position js js' -> norm (diff (posns js') (posns js)) <= r ->
    solves_well la (c_dof arm) (count (flags c)) (length idx) (reduced (flags c) idx (colsof (tr (end_at iso1 js')) iso1 js')) (/ (s / 2))).
  { intros js' Ho Hr. specialize (Hna2 js' Ho Hr). assert (Hr0 : 0 <= r) by (pose proof (norm_nonneg (diff (posns js') (posns js))); lra).
    assert (HN : 0 <= N) by apply pos_INR.
    assert (Hfr : forall b, length b = count (flags c) -> s / 2 * norm b <= norm (coords (m_cols (reduced (flags c) idx (colsof (tr (end_at iso1 js')) iso1 js'))) b)).
    { apply (full_rank_near L js js' HL Hju Ho) with (r := r); [nra|reflexivity|rewrite Hn; exact Hbound|exact Hr|exact Hcond|rewrite Hn; exact Hsr]. }
    set (J := reduced (flags c) idx (colsof (tr (end_at iso1 js')) iso1 js')) in *.
    assert (HcJ : Forall (fun k => length k = m_rows J) (m_cols J)) by (apply (cols_rows js (flags c) idx eq_refl)).
    unfold solves_well. unfold nalgebra_at in Hna2. destruct (decide (count (flags c) + length idx < c_dof arm)%nat) as [Hb|Hb].
    - split; [exact I|]. destruct Hna2 as (d & Hd1 & Hd2 & Hd3). intros b Hlb. rewrite Hd3.
      destruct (svd_well J (fun _ _ => None) (fun _ => d) (s / 2) b HcJ Hd1 Hd2 Hfr ltac:(lra) Hlb) as (x & Hx1 & Hx2 & Hx3). exists x. auto.
    - destruct Hna2 as [Hi0 Hlu]. split; [exact Hi0|]. intros b Hlb. rewrite Hlu.
      assert (HsJ : shaped J (count (flags c)) (count (flags c))).
      { split; [reflexivity|]. split; [|exact HcJ]. destruct idx; [|discriminate]. unfold J, reduced, without. cbn [m_cols]. rewrite map_length, without_from_none by set_solver.
        rewrite colsof_length, (others_nmov _ _ Ho), Hn. cbn in *. lia. }
      apply (lu_well J (count (flags c)) (s / 2) b HsJ Hfr ltac:(lra) Hlb). }
  assert (E1 : / (s / 2) = 2 / s) by (field; lra).
  pose proof (norm_nonneg (flagged (flags c) (pose_error target w))) as Herr. fold err in Herr.
  pose proof (start_end _ _ _ _ _ _ _ Hc Hj Hw) as Ew. subst w.
  destruct (conv_solve t ovf h nx arm e l target c la sv js idx (/ (s / 2)) L r k Hp Hc Hj Hju Ht Hrx Hry Hns Hnd Hidx Hcnt Hm) as (h' & js' & H1 & H2 & H3 & H4); try assumption.
  - rewrite E1. apply Rlt_le. apply Rdiv_lt_0_compat; lra.
  - rewrite E1. fold err. set (z := err) in *. fold m. fold N.
    replace (6 * L * N * m * (2 / s * (2 / s)) * z) with ((24 * L * N * m * z) / (s * s)) by (field; lra).
    apply Rmult_le_reg_r with (s * s); [nra|]. replace (24 * L * N * m * z / (s * s) * (s * s)) with (24 * L * N * m * z) by (field; apply Rgt_not_eq; exact Hs0). rewrite Rmult_1_l. exact Hsmall.
  - rewrite E1. fold err. set (z := err) in *. replace (2 * (2 / s * z)) with ((4 * z) / s) by (field; lra).
    apply Rmult_le_reg_r with s; [exact Hs0|]. replace (4 * z / s * s) with (4 * z) by (field; lra). lra.
  - assert (Hc' : chain_of h' (rev l) arm) by (eapply frozen_chain; eauto). destruct (run_positions t h' nx arm _ Hc') as (q' & Hq' & Hl' & _).
    exists h', q'. split; [exact H1|]. split; [exact Hq'|]. rewrite (start_positions _ _ _ _ _ _ _ _ Hc' H3 Hq'), Eq. split.
    + rewrite !nmov_posns. apply others_nmov. eapply frozen_others; eauto.
    + eapply Rle_trans; [exact H4|]. right. rewrite E1. unfold err. field. lra.
Qed.
Print Assumptions C71_from_start.

Lemma room_exists (h : gmap nat (node R)) l : (forall a n lim, a ∈ l -> h !! a = Some n -> j_limits (n_joint n) = Some lim -> rmin lim < j_position (n_joint n) < rmax lim) ->
  exists r, 0 < r /\ Forall (roomy h r) l.
Proof.
  induction l as [|a l IH]; intros H; [exists 1; split; [lra|constructor]|].
  destruct IH as (r & Hr & Hl); [intros b n lim Hb; apply H; set_solver|].
  assert (Hweak : forall r', r' <= r -> Forall (roomy h r') l).
  { intros r' Hr'. eapply Forall_impl; [exact Hl|]. intros b Hb n lim Hn Hlim. destruct (Hb n lim Hn Hlim). split; lra. }
  destruct (h !! a) as [n|] eqn:Hn; [|exists r; split; [exact Hr|constructor; [intros n lim Hn2; congruence|exact Hl]]].
  destruct (j_limits (n_joint n)) as [lim|] eqn:Hlim.
  2:{ exists r. split; [exact Hr|]. constructor; [|exact Hl]. intros n2 lim Hn2 Hl2. assert (n2 = n) as -> by congruence. congruence. }
  pose proof (H a n lim ltac:(set_solver) Hn Hlim) as [H1 H2].
  set (r' := Rmin r (Rmin (j_position (n_joint n) - rmin lim) (rmax lim - j_position (n_joint n)))).
  pose proof (Rmin_l r (Rmin (j_position (n_joint n) - rmin lim) (rmax lim - j_position (n_joint n)))) as B1.
  pose proof (Rmin_r r (Rmin (j_position (n_joint n) - rmin lim) (rmax lim - j_position (n_joint n)))) as B2.
  pose proof (Rmin_l (j_position (n_joint n) - rmin lim) (rmax lim - j_position (n_joint n))) as B3.
  pose proof (Rmin_r (j_position (n_joint n) - rmin lim) (rmax lim - j_position (n_joint n))) as B4.
  fold r' in B1, B2. exists r'. split; [repeat apply Rmin_pos; lra|]. constructor; [|apply Hweak, B1].
  intros n2 lim2 Hn2 Hl2. assert (n2 = n) as -> by congruence. assert (lim2 = lim) as -> by congruence. split; lra.
Qed.
(** C71: so around every position strictly inside the limits where the Jacobian has full rank,
    there is a distance such that every closer target is reached, and a number of iterations,
    the same for all of them *)
Theorem C71_local (t : nat) ovf (h : gmap nat (node R)) nx arm e l (c : constraints) la q0 w idx cols s' s :
  path_up h e l -> chain_of h (rev l) arm ->
  (forall a n, a ∈ l -> h !! a = Some n -> unit_joint (n_joint n)) ->
  (forall a n lim, a ∈ c_movable arm -> h !! a = Some n -> j_limits (n_joint n) = Some lim ->
     rmin lim < j_position (n_joint n) < rmax lim) ->
  rotation_x c = rotation_y c -> rotation_y c = rotation_z c ->
  NoDup (ignored_joint_names c) -> Forall2 (first_named h (c_movable arm)) (ignored_joint_names c) idx ->
  (count (flags c) + length idx <= c_dof arm)%nat ->
  run t (joint_positions arm) (quiet h nx) = Done q0 (quiet h nx) ->
  run t (end_transform arm) (quiet h nx) = Done w (quiet h nx) ->
  run t (jacobian arm) (quiet h nx) = Done (Mat 6 cols) s' ->
  conditioned (reduced (flags c) idx cols) s -> 1 / 5000 < s ->
  (forall q cols, length q = length q0 -> jacobian_at t h nx arm q cols ->
     nalgebra_at la (c_dof arm) (count (flags c)) (length idx) (reduced (flags c) idx cols)) ->
  exists del, 0 < del /\
  forall m d a, 0 < m <= 1 -> 0 < d -> 0 < a -> exists k,
  forall sv target, nullspace_function sv = None -> jacobian_multiplier sv = m ->
    allowable_target_distance sv = d -> allowable_target_angle sv = a -> (k <= num_max_try sv)%nat ->
    proper target ->
    let err := norm (flagged (flags c) (pose_error target w)) in err < del ->
  exists h' q', run t (solve_with_constraints ovf la sv arm target c) (quiet h nx) = Done (Ok tt) (quiet h' nx) /\
    run t (joint_positions arm) (quiet h' nx) = Done q' (quiet h' nx) /\ near q0 (4 * err / s) q'.
Proof.
  intros Hp Hc Hu Hin Hrx Hry Hnd Hidx Hcnt Hq Hw HJ Hcond Hs Hna.
  assert (Hlive : all_live h (rev l)) by (apply all_live_rev; eapply path_all_live; eauto).
  destruct (joints_exist h (rev l) Hlive) as [js Hj].
  destruct (room_exists h (c_movable arm) Hin) as (rho & Hrho & Hroom).
  set (T := Rabs (total (map span js))). set (N := INR (c_dof arm)). assert (HN : 0 <= N) by apply pos_INR. assert (HT : 0 <= T) by apply Rabs_pos.
  set (L := 1 + T + N). assert (HL : 1 <= L) by (unfold L; lra).
  set (den := 2 * ((L + 1) * (N * N + 1))). assert (Hden : 0 < den) by (unfold den; nra).
  set (r := Rmin 1 (Rmin rho (s / den))).
  assert (Hr1 : r <= 1) by apply Rmin_l. assert (Hr2 : r <= rho) by (eapply Rle_trans; [apply Rmin_r|apply Rmin_l]).
  assert (Hr3 : r <= s / den) by (eapply Rle_trans; [apply Rmin_r|apply Rmin_r]).
  assert (Hr0 : 0 < r) by (repeat apply Rmin_pos; try lra; apply Rdiv_lt_0_compat; lra).
  set (big := 24 * L * N + 1). assert (HLN : 0 <= L * N) by (apply Rmult_le_pos; lra). assert (Hbig : 0 < big) by (unfold big; lra).
  set (del := Rmin (s * s / big) (s * r / 4)).
  assert (Hd1 : del <= s * s / big) by apply Rmin_l. assert (Hd2 : del <= s * r / 4) by apply Rmin_r.
  assert (Hsr : 0 < s * r) by (apply Rmult_lt_0_compat; lra). assert (Hss : 0 < s * s) by (apply Rmult_lt_0_compat; lra).
  assert (Hdel : 0 < del) by (apply Rmin_pos; [apply Rdiv_lt_0_compat; assumption|lra]).
  exists del. split; [exact Hdel|]. intros m d a Hm Hd Ha.
  destruct (pow_lt_1_zero (1 - m / 2)) with (y := Rmin d a / del) as [k Hk].
  { rewrite Rabs_pos_eq by lra. lra. }
  { apply Rdiv_lt_0_compat; [apply Rmin_pos; assumption|exact Hdel]. }
  exists (S k). intros sv target Hns Em Ed Ea Hmax Htgt err Herr.
  assert (Herr0 : 0 <= err) by apply norm_nonneg.
  assert (Hpk : (1 - m / 2) ^ S k * err < Rmin d a).
  { specialize (Hk (S k) ltac:(lia)). rewrite Rabs_pos_eq in Hk by (apply pow_le; lra).
    assert (0 <= (1 - m / 2) ^ S k) by (apply pow_le; lra).
    apply Rle_lt_trans with ((1 - m / 2) ^ S k * del); [apply Rmult_le_compat_l; lra|].
    apply Rmult_lt_compat_r with (r := del) in Hk; [|exact Hdel]. replace (Rmin d a / del * del) with (Rmin d a) in Hk by (field; lra). exact Hk. }
  pose proof (Rmin_l d a). pose proof (Rmin_r d a).
  destruct (C71_from_start t ovf h nx arm e l target c la sv js q0 w idx cols s' s L r (S k)) as (h' & q' & G); try assumption.
  - intros q cols' [Hlq _]. apply Hna. exact Hlq.
  - rewrite Em. exact Hm.
  - fold N. pose proof (Rle_abs (total (map span js))) as HB. fold T in HB. unfold L. assert (N * r <= N * 1) by (apply Rmult_le_compat_l; lra). lra.
  - eapply Forall_impl; [exact Hroom|]. intros b Hb n lim Hn Hlim. destruct (Hb n lim Hn Hlim). split; lra.
  - fold N. apply Rmult_le_compat_r with (r := den) in Hr3; [|lra]. replace (s / den * den) with s in Hr3 by (field; lra).
    eapply Rle_trans; [|exact Hr3]. unfold den. assert (0 <= (L + 1) * r) by (apply Rmult_le_pos; lra).
    replace (r * (2 * ((L + 1) * (N * N + 1)))) with (2 * ((L + 1) * (N * N) * r) + 2 * ((L + 1) * r)) by ring. lra.
  - rewrite Em. fold N. fold err. apply Rle_trans with (big * del).
    + assert (L * N * m <= L * N) by nra. assert (0 <= L * N * m) by nra.
      apply Rle_trans with (24 * (L * N * m) * del).
      * replace (24 * L * N * m * err) with (24 * (L * N * m) * err) by ring. apply Rmult_le_compat_l; lra.
      * apply Rmult_le_compat_r; [lra|]. unfold big. lra.
    + apply Rmult_le_compat_r with (r := big) in Hd1; [|lra]. replace (s * s / big * big) with (s * s) in Hd1 by (field; lra). lra.
  - fold err. lra.
  - lia.
  - rewrite Em, Ed. fold err. lra.
  - rewrite Em, Ea. fold err. lra.
  - exists h', q'. exact G.
Qed.
Print Assumptions C71_local.

(** The arm of C65 at the rest position, constrained in all six coordinates, with the LU solve
    and the full step: a target less than a thousandth away is reached to within a tenth of that. *)
Definition close_by : iso R := Iso (V3 (1 / 2000) (1 / 2000) 0) q1.
Definition newton : solver R := Solver (1 / 10000) (1 / 10000) 1 10 None.
Lemma six_conditioned : conditioned (reduced (flags all_six) [] cols6) 1.
Proof.
  intros b Hb. change (length b = 6%nat) in Hb. do 7 (destruct b as [|? b]; try discriminate Hb). rewrite Rmult_1_l. apply norm_le. right.
  unfold transposed. change (m_cols _) with cols6. cbn. ring.
Qed.
Lemma close_err : norm (flagged (flags all_six) (pose_error close_by iso1)) <= 1 / 1000.
Proof.
  assert (E : qscaled_axis (qmul (rt close_by) (qconj (rt (iso1 (T := R))))) = V3 0 0 0).
  { apply scaled_axis_zero; [unfold unit_quat; cbn; ring|]. intros []. unfold close_by. cbn [rt iso1]. unfold turn. gv; ring. }
  apply norm_le_of_sqr; [lra|]. unfold pose_error. rewrite E. cbn. lra.
Qed.
Example C71_case (t nx : nat) ovf : exists h' q',
  run t (solve_with_constraints ovf na_la newton arm6 close_by all_six) (quiet robot6 nx) = Done (Ok tt) (quiet h' nx) /\
  run t (joint_positions arm6) (quiet h' nx) = Done q' (quiet h' nx) /\ near [0; 0; 0; 0; 0; 0] (1 / 250) q'.
Proof.
  destruct (serial_jacobian t robot6 nx arm6 5%nat [5; 4; 3; 2; 1; 0]%nat six robot6_path six_chain six_joints) as (h1 & HJ). rewrite six_cols in HJ.
  assert (Hw : run t (end_transform arm6) (quiet robot6 nx) = Done iso1 (quiet robot6 nx)).
  { rewrite <- six_end. unfold end_transform, end_at. apply run_end_fold, joints_locals, six_joints. }
  destruct (run_positions t robot6 nx arm6 _ six_chain) as (q0 & Hq & _).
  pose proof (start_positions t robot6 nx arm6 _ six q0 _ six_chain six_joints Hq) as E0. change (posns six) with [0; 0; 0; 0; 0; 0] in E0. subst q0.
  pose proof close_err as Herr. pose proof (norm_nonneg (flagged (flags all_six) (pose_error close_by iso1))) as Herr0.
  assert (EN : INR (c_dof arm6) = 6) by (cbn; ring).
  destruct (C71_from_start t ovf robot6 nx arm6 5%nat [5; 4; 3; 2; 1; 0]%nat close_by all_six na_la newton six [0; 0; 0; 0; 0; 0] iso1 [] cols6 (quiet h1 nx) 1 2 (1 / 216) 4%nat)
    as (h' & q' & G1 & G2 & G3); try rewrite EN; change (jacobian_multiplier newton) with 1; change (allowable_target_distance newton) with (1 / 10000); change (allowable_target_angle newton) with (1 / 10000); try assumption; try reflexivity; try lra.
  - exact robot6_path.
  - exact six_chain.
  - exact six_joints.
  - intros a n Ha Hn. destruct (robot6_in a Ha) as [j Hj]. rewrite (robot6_at a j Hj) in Hn. apply Some_inj in Hn as <-.
    change (n_joint (node_six a j)) with j. pose proof six_unit as Hu. rewrite Forall_forall in Hu. apply Hu. eapply elem_of_list_lookup_2, Hj.
  - unfold proper, unit_quat. cbn. ring.
  - constructor.
  - constructor.
  - exact six_conditioned.
  - intros q cols _ _. unfold nalgebra_at. rewrite decide_False by (vm_compute; lia). split; reflexivity.
  - assert (Hs : forall nm ty, span (axle nm ty) = 0).
    { intros nm ty. unfold span, extension, axle. cbn [j_origin j_type j_position tr iso1]. change v0 with (V3 0 0 0). rewrite len_v0. destruct ty; rewrite ?Rabs_R0; lra. }
    unfold six. cbn [map]. rewrite !Hs. unfold total. cbn [foldr]. lra.
  - apply Forall_forall. intros a Ha n lim Hn Hlim. destruct (robot6_mov a Ha) as [j Hj]. rewrite (robot6_at a j Hj) in Hn. apply Some_inj in Hn as <-.
    change (n_joint (node_six a j)) with j in *.
    assert (Hj' : j_limits j = Some (Range (-1) 1) /\ j_position j = 0) by (clear -Hj; do 6 (destruct a as [|a]; [injection Hj as <-; split; reflexivity|]); discriminate).
    destruct Hj' as [E1 ->]. rewrite E1 in Hlim. apply Some_inj in Hlim as <-. cbn. lra.
  - cbn. lia.
  - exists h', q'. split; [exact G1|]. split; [exact G2|]. destruct G3 as [G3 G4]. split; [exact G3|]. eapply Rle_trans; [exact G4|]. lra.
Qed.
(** and the redundant gantry with the singular value solve *)
Lemma gantry_cols t nx q cols : length q = 3%nat -> jacobian_at t gantry nx arm3 q cols ->
  cols = [[1; 0; 0; 0; 0; 0]; [0; 1; 0; 0; 0; 0]; [1; 0; 0; 0; 0; 0]].
Proof.
  intros Hq [s Hr]. do 4 (destruct q as [|? q]; try discriminate Hq). destruct gantry_arm as (G1 & G2 & G3).
  destruct (jacobian_elsewhere t gantry nx arm3 2%nat [2; 1; 0]%nat tracks (feed tracks [r; r0; r1]) G1 G2 gantry_joints) as (h' & Hr').
  { repeat constructor. }
  change (posns (feed tracks [r; r0; r1])) with [r; r0; r1] in Hr'. rewrite Hr in Hr'. injection Hr' as -> _.
  generalize (tr (end_at iso1 (feed tracks [r; r0; r1]))). intros p. unfold tracks, track. cbn [feed j_type colsof jcol].
  repeat (apply (f_equal2 (@cons (list R))); [repeat (apply (f_equal2 (@cons R)); [un; cbn; ring|]); reflexivity|]). reflexivity.
Qed.
Example C71_case_redundant (t nx : nat) ovf : exists del, 0 < del /\
  forall m d a, 0 < m <= 1 -> 0 < d -> 0 < a -> exists k,
  forall n x y, (k <= n)%nat -> norm [x; y] < del ->
  exists h' q', run t (solve_with_constraints ovf (svd_linalg (fun _ _ => None) flat_dec_of) (Solver d a m n None) arm3 (Iso (V3 x y 0) q1) plane) (quiet gantry nx) = Done (Ok tt) (quiet h' nx) /\
    run t (joint_positions arm3) (quiet h' nx) = Done q' (quiet h' nx) /\ near [0; 0; 0] (4 * norm [x; y]) q'.
Proof.
  destruct (gantry_run t nx) as [Hw [h1 HJ]]. destruct gantry_arm as (G1 & G2 & G3).
  destruct (run_positions t gantry nx arm3 _ G2) as (q0 & Hq & _).
  pose proof (start_positions t gantry nx arm3 _ tracks q0 _ G2 gantry_joints Hq) as E0. change (posns tracks) with [0; 0; 0] in E0. subst q0.
  destruct (C71_local t ovf gantry nx arm3 2%nat [2; 1; 0]%nat plane (svd_linalg (fun _ _ => None) flat_dec_of) [0; 0; 0] iso1 []
    [[1; 0; 0; 0; 0; 0]; [0; 1; 0; 0; 0; 0]; [1; 0; 0; 0; 0; 0]] (quiet h1 nx) 1 G1 G2) as (del & Hdel & H); try reflexivity; try assumption.
  - intros a n Ha Hn. assert (Ha' : a = 0%nat \/ a = 1%nat \/ a = 2%nat) by (clear -Ha; set_solver).
    destruct Ha' as [-> | [-> | ->]]; apply Some_inj in Hn as <-; (split; [unfold unit_type, unit_axis; cbn; ring|exact proper_1]).
  - intros a n r Ha Hn. assert (Ha' : a = 0%nat \/ a = 1%nat \/ a = 2%nat) by (clear -Ha; cbn in Ha; set_solver).
    destruct Ha' as [-> | [-> | ->]]; apply Some_inj in Hn as <-; discriminate.
  - constructor.
  - constructor.
  - vm_compute. lia.
  - intros b Hb. change (length b = 2%nat) in Hb. do 3 (destruct b as [|? b]; try discriminate Hb). rewrite Rmult_1_l. apply norm_le. unfold transposed. change (m_cols _) with [[1; 0]; [0; 1]; [1; 0]]. cbn. nra.
  - lra.
  - intros q cols Hl Hj. rewrite (gantry_cols t nx q cols Hl Hj). unfold nalgebra_at. rewrite decide_True by (vm_compute; lia).
    exists flat_svd. split; [exact flat_dec|]. split; reflexivity.
  - exists del. split; [exact Hdel|]. intros m d a Hm Hd Ha. destruct (H m d a Hm Hd Ha) as [k Hk]. exists k. intros n x y Hn Hxy.
    assert (E : flagged (flags plane) (pose_error (Iso (V3 x y 0) q1) iso1) = [x; y]).
    { cbn. repeat (apply (f_equal2 (@cons R)); [ring|]). reflexivity. }
    destruct (Hk (Solver d a m n None) (Iso (V3 x y 0) q1)) as (h' & q' & F1 & F2 & F3); try reflexivity; try assumption.
    + unfold proper, unit_quat. cbn. ring.
    + rewrite E. exact Hxy.
    + exists h', q'. split; [exact F1|]. split; [exact F2|]. rewrite E in F3. replace (4 * norm [x; y]) with (4 * norm [x; y] / 1) by field. exact F3.
Qed.
