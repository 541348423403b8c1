(** * A perturbed step of the solver on an ideal arm *)
From Coq Require Import String NArith Reals Lra Lia Psatz Sorting.Sorted.
From stdpp Require Import gmap.
From Verif Require ReachProofs.
From Verif Require Import Scalar ScalarR Geometry Joint Link Prog NodeM ChainM FuncsM IkM RunLemmas SpecNode SpecGraph SpecChain
  SpecGeom RGeom GeomProofs JacReal SpecReach SpecIk SpecSolved SpecConvAcc SpecStep StepProofs LinAlgR LinArm LinIk TrajProofs SpecLin SpecLuAcc LuAcc
  ConvGeom ConvList ConvStep ConvIk ConvReg AccProofs PropLu PropLuAcc.
Local Open Scope R_scope.

Lemma asum_norm1 x : asum x = norm1 x.
Proof. induction x as [|y x IH]; [reflexivity|]. rewrite asum_cons, IH. reflexivity. Qed.
Lemma dtip_ladd js : forall a b, length a = nmov js -> length b = nmov js -> dtip js (ladd a b) = plus (dtip js a) (dtip js b).
Proof.
  induction js as [|j js IH]; intros a b La Lb; cbn [dtip nmov] in *; [apply V3_eq; cbn; ring|].
  destruct (j_type j) as [|ax|ax].
  - rewrite IH by assumption. apply turn_plus.
  - destruct a as [|x a], b as [|y b]; try discriminate. injection La as La. injection Lb as Lb. cbn [ladd zip_with]. fold (ladd a b). rewrite IH by assumption.
    rewrite <- turn_plus. f_equal. apply V3_eq; cbn; ring.
  - destruct a as [|x a], b as [|y b]; try discriminate. injection La as La. injection Lb as Lb. cbn [ladd zip_with]. fold (ladd a b). rewrite IH by assumption.
    rewrite <- turn_plus. f_equal. apply V3_eq; cbn; ring.
Qed.
(** the constrained part of a vector *)
Definition masked (c : constraints) (v : vec3 R) : vec3 R := only_constrained c v (V3 0 0 0).
Lemma masked_len c v : len (masked c v) <= len v.
Proof.
  apply ReachProofs.len_le_of_sqr; [apply len_nonneg|]. rewrite len_sqr. unfold masked, only_constrained, inner. cbn [vx vy vz].
  pose proof (Rle_0_sqr (vx v)). pose proof (Rle_0_sqr (vy v)). pose proof (Rle_0_sqr (vz v)). unfold Rsqr in *.
  destruct (position_x c), (position_y c), (position_z c); lra.
Qed.
Lemma masked_only c a b : only_constrained c a b = masked c (minus a b).
Proof. unfold masked, only_constrained, minus. cbn. apply V3_eq; cbn; [destruct (position_x c)|destruct (position_y c)|destruct (position_z c)]; ring. Qed.
Lemma masked_plus c a b : masked c (plus a b) = plus (masked c a) (masked c b).
Proof. unfold masked, only_constrained, plus. apply V3_eq; cbn; [destruct (position_x c)|destruct (position_y c)|destruct (position_z c)]; ring. Qed.
Lemma masked_times c k a : masked c (times k a) = times k (masked c a).
Proof. unfold masked, only_constrained, times. apply V3_eq; cbn; [destruct (position_x c)|destruct (position_y c)|destruct (position_z c)]; ring. Qed.

Lemma flagged_position c (x y z a b d : R) e : position_only c -> 0 <= e ->
  all_le e (flagged (flags c) [x; y; z; a; b; d]) <-> let v := masked c (V3 x y z) in Rabs (vx v) <= e /\ Rabs (vy v) <= e /\ Rabs (vz v) <= e.
Proof.
  intros (Ra & Rb & Rc) He. unfold flags, masked, only_constrained. rewrite Ra, Rb, Rc. cbn [vx vy vz]. unfold all_le.
  destruct (position_x c), (position_y c), (position_z c); cbn [flagged]; rewrite ?Forall_cons, ?Forall_nil, ?Rminus_0_r, ?Rabs_R0; tauto || (cbn; tauto).
Qed.
Lemma count_position c : position_only c -> (count (flags c) <= 3)%nat.
Proof. intros (Ra & Rb & Rc). unfold flags, count. rewrite Ra, Rb, Rc. destruct (position_x c), (position_y c), (position_z c); vm_compute; repeat constructor. Qed.

(** ** what the reduced Jacobian does *)
Definition jac (c : constraints) (js : list (joint R)) : mat R := reduced (flags c) [] (colsof (tr (end_at iso1 js)) iso1 js).
Lemma jac_act c js x : Forall unit_joint js -> length x = nmov js ->
  act (jac c js) x = flagged (flags c) [vx (dtip js x); vy (dtip js x); vz (dtip js x); vx (drot js x); vy (drot js x); vz (drot js x)].
Proof.
  intros Hu Lx. unfold jac. rewrite <- (act_full_gen (flags c) [] (colsof (tr (end_at iso1 js)) iso1 js) x x eq_refl); [|apply colsof_six|rewrite colsof_length; exact Lx|].
  - rewrite combine_twist, twist_1 by assumption. reflexivity.
  - split; [apply without_from_none; set_solver|set_solver].
Qed.
Lemma jac_cols c js : length (m_cols (jac c js)) = nmov js.
Proof. unfold jac, reduced. cbn [m_cols]. rewrite map_length. unfold without. rewrite without_from_none by set_solver. apply colsof_length. Qed.
Lemma jac_shaped c js : count (flags c) = nmov js -> shaped (jac c js) (count (flags c)) (count (flags c)).
Proof.
  intros E. pose proof (reduced_shaped (flags c) [] (colsof (tr (end_at iso1 js)) iso1 js) (nmov js) eq_refl (SSorted_nil _) (proj2 (Forall_nil _) I) (colsof_length _ _ _) (colsof_six _ _ _)) as H.
  cbn [length] in H. rewrite Nat.sub_0_r in H. rewrite E at 2. exact H.
Qed.
Lemma unit_lists n : forall k, (k < n)%nat -> exists x, length x = n /\ norm1 x = 1 /\ forall cols m, length cols = n -> Forall (fun c => length c = m) cols ->
  combine m cols x = nth k cols [].
Proof.
  induction n as [|n IH]; intros k Hk; [lia|]. assert (Z : forall m, norm1 (repeat 0 m) = 0) by (induction m as [|m IHm]; cbn; rewrite ?IHm, ?Rabs_R0; ring).
  destruct k as [|k].
  - exists (1 :: repeat 0 n). split; [cbn; rewrite repeat_length; reflexivity|]. split; [cbn [norm1]; rewrite Z, Rabs_R1; ring|].
    intros [|c cols] m E H; try discriminate. apply Forall_cons in H as [Hc H]. cbn [combine nth]. rewrite combine_zero; [|exact H|].
    + rewrite <- Hc. clear. induction c as [|y c IHc]; [reflexivity|]. cbn. rewrite IHc. f_equal. ring.
    + intros i y Hi. apply elem_of_list_lookup_2, elem_of_list_In, repeat_spec in Hi. exact Hi.
  - destruct (IH k ltac:(lia)) as (x & Lx & Nx & Hx). exists (0 :: x). split; [cbn; congruence|]. split; [cbn [norm1]; rewrite Rabs_R0, Nx; ring|].
    intros [|c cols] m E H; try discriminate. injection E as E. apply Forall_cons in H as [Hc H]. cbn [combine nth]. rewrite (Hx cols m E H).
    assert (Ln : length (nth k cols []) = m) by (rewrite Forall_forall in H; apply H, elem_of_list_In, nth_In; lia).
    revert Ln. rewrite <- Hc. generalize (nth k cols []). clear. induction c as [|y c IHc]; intros [|z l] E; try discriminate; [reflexivity|]. cbn. injection E as E. f_equal; [ring|apply IHc, E].
Qed.
Lemma jac_entries c js Lr : position_only c -> 1 <= Lr -> Forall unit_joint js -> total (map span js) <= Lr -> entries_le Lr (jac c js).
Proof.
  intros Hc HL Hu Ht. unfold entries_le. apply Forall_lookup. intros k col Hk. pose proof (lookup_lt_Some _ _ _ Hk) as Lk. rewrite jac_cols in Lk.
  destruct (unit_lists (nmov js) k Lk) as (x & Lx & Nx & Hx).
  assert (E : act (jac c js) x = col).
  { unfold act. rewrite (Hx (m_cols (jac c js)) (m_rows (jac c js))); [|apply jac_cols|].
    - apply nth_lookup_Some with (d := []) in Hk. exact Hk.
    - unfold jac, reduced. cbn [m_cols m_rows]. unfold without. rewrite without_from_none by set_solver. apply Forall_map. eapply Forall_impl; [apply colsof_six|].
      cbv beta. intros y Hy. apply flagged_length. rewrite Hy. reflexivity. }
  rewrite <- E, jac_act by assumption. apply flagged_position; [exact Hc|lra|]. cbv zeta.
  pose proof (dtip_len Lr HL js Hu Ht x) as Hl. rewrite asum_norm1, Nx, Rmult_1_r in Hl. destruct (dtip js x) as [a b d] eqn:Ed. cbn [vx vy vz].
  pose proof (masked_len c (V3 a b d)) as Hm. pose proof (comp_len (masked c (V3 a b d))) as (C1 & C2 & C3). lra.
Qed.
(** a Jacobian stays regular nearby *)
Lemma jac_near c js js' Lr r lam : position_only c -> 1 <= Lr -> Forall unit_joint js -> Forall2 at_other_position js js' -> total (map span js) <= Lr ->
  norm1 (diff (posns js') (posns js)) <= r -> Lr * r <= lam -> expands (2 * lam) (jac c js) -> expands lam (jac c js').
Proof.
  intros Hc HL Hu Ho Ht Hr Hlr Hex x e Lx He Hx. pose proof (others_nmov _ _ Ho) as En. rewrite jac_cols, En in Lx. pose proof (norm1_pos x) as Nx.
  assert (Hu' : Forall unit_joint js') by (exact (unit_others _ _ Hu Ho)).
  rewrite jac_act in Hx by (try exact Hu'; congruence). apply flagged_position in Hx; [|exact Hc|exact He]. cbv zeta in Hx.
  pose proof (dtip_lip Lr HL js js' Hu Ho Ht x) as Hl. rewrite !asum_norm1, gaps_posns in Hl by exact Ho.
  set (g := norm1 (diff (posns js') (posns js))) in *.
  assert (G : Lr * norm1 x * g <= lam * norm1 x).
  { assert (0 <= Lr * norm1 x) by (apply Rmult_le_pos; lra). assert (Lr * norm1 x * g <= Lr * norm1 x * r) by (apply Rmult_le_compat_l; lra).
    replace (Lr * norm1 x * r) with (Lr * r * norm1 x) in * by ring. assert (Lr * r * norm1 x <= lam * norm1 x) by (apply Rmult_le_compat_r; lra). lra. }
  assert (G0 : 0 <= Lr * norm1 x * g) by (apply Rmult_le_pos; [apply Rmult_le_pos; lra|apply norm1_pos]).
  assert (H : 2 * lam * norm1 x <= e + lam * norm1 x); [|lra]. apply Hex; [rewrite jac_cols; exact Lx|lra|].
  rewrite jac_act by assumption. apply flagged_position; [exact Hc|lra|]. cbv zeta.
  destruct (dtip js x) as [a b d] eqn:E1, (dtip js' x) as [a' b' d'] eqn:E2. cbn [vx vy vz] in *.
  assert (E : masked c (V3 a b d) = plus (masked c (V3 a' b' d')) (times (-1) (masked c (minus (V3 a' b' d') (V3 a b d))))).
  { rewrite <- masked_times, <- masked_plus. f_equal. unfold plus, times, minus. apply V3_eq; cbn; ring. }
  rewrite E. pose proof (masked_len c (minus (V3 a' b' d') (V3 a b d))) as Hm. pose proof (comp_len (masked c (minus (V3 a' b' d') (V3 a b d)))) as (C1 & C2 & C3).
  destruct (masked c (minus _ _)) as [m1 m2 m3], (masked c (V3 a' b' d')) as [n1 n2 n3]. cbn [plus times vx vy vz] in *. destruct Hx as (X1 & X2 & X3).
  repeat split; (eapply Rle_trans; [apply Rabs_triang|]; rewrite Rabs_mult, (Rabs_left (-1)) by lra; lra).
Qed.
(** ** the step *)
Section Core.
  Variables (js js' : list (joint R)) (tg : vec3 R) (c : constraints) (m Lr dl : R) (x kap : list R).
  Hypothesis Hc : position_only c.
  Hypothesis Hu : Forall unit_joint js.
  Hypothesis Ho : Forall2 at_other_position js js'.
  Hypothesis Lx : length x = nmov js.
  Hypothesis Lk : length kap = nmov js.
  Hypothesis Hg : diff (posns js') (posns js) = ladd (lscale m x) kap.
  Hypothesis Hm : 0 <= m <= 1.
  Hypothesis HL : 1 <= Lr.
  Hypothesis Hspan : total (map span js) <= Lr.
  Hypothesis Hdl : 0 <= dl.
  Let e := only_constrained c tg (tip js).
  Let e' := only_constrained c tg (tip js').
  Hypothesis Hres : all_le dl (diff (act (jac c js) x) (flagged (flags c) [vx tg - vx (tip js); vy tg - vy (tip js); vz tg - vz (tip js); 0; 0; 0])).
  Let S := m * norm1 x + norm1 kap.
  Lemma fcore_moved : norm1 (diff (posns js') (posns js)) <= S.
  Proof.
    rewrite Hg. unfold S. clear -Lx Lk Hm. assert (E : length x = length kap) by congruence. clear Lx Lk. revert kap E.
    induction x as [|y l IH]; intros [|z k] E; try discriminate; cbn; [lra|]. injection E as E. specialize (IH k E). unfold ladd, lscale in IH.
    pose proof (Rabs_triang (m * y) z) as T. rewrite Rabs_mult, (Rabs_pos_eq m) in T by lra. lra.
  Qed.
  Lemma fcore_step : len e' <= (1 - m) * len e + 2 * m * dl + Lr * norm1 kap + Lr / 2 * (S * S).
  Proof.
    pose proof fcore_moved as Hmv. pose proof (tip_curve Lr HL js js' Hu Ho Hspan) as Hcv. rewrite gaps_posns in Hcv by exact Ho. rewrite asum_norm1 in Hcv.
    rewrite Hg in Hcv at 1. rewrite dtip_ladd, dtip_lscale in Hcv by (rewrite ?lscale_length; assumption).
    set (T := dtip js x) in *. set (Kp := dtip js kap) in *.
    set (rho := minus (minus (tip js') (tip js)) (plus (times m T) Kp)) in *.
    pose proof (dtip_len Lr HL js Hu Hspan kap) as HK. rewrite asum_norm1 in HK. fold Kp in HK.
    set (D := minus (minus tg (tip js)) T).
    assert (HD : len (masked c D) <= 2 * dl).
    { rewrite jac_act in Hres by assumption. rewrite flagged_diff in Hres. cbn [diff zip_with] in Hres. fold T in Hres.
      apply flagged_position in Hres; [|exact Hc|exact Hdl]. cbv zeta in Hres.
      assert (ED : masked c D = times (-1) (masked c (V3 (vx T - (vx tg - vx (tip js))) (vy T - (vy tg - vy (tip js))) (vz T - (vz tg - vz (tip js)))))).
      { rewrite <- masked_times. f_equal. unfold D, times, minus. apply V3_eq; cbn; ring. }
      rewrite ED, ReachProofs.len_times, (Rabs_left (-1)) by lra. destruct Hres as (R1 & R2 & R3). pose proof (len_comps _ _ R1 R2 R3). lra. }
    assert (E : e' = plus (times (1 - m) e) (plus (times m (masked c D)) (plus (times (-1) (masked c Kp)) (times (-1) (masked c rho))))).
    { unfold e', e. rewrite !masked_only. rewrite <- !masked_times, <- !masked_plus. f_equal. unfold D, rho, plus, times, minus. apply V3_eq; cbn; ring. }
    rewrite E. eapply Rle_trans; [apply ReachProofs.len_plus|]. rewrite ReachProofs.len_times, (Rabs_pos_eq (1 - m)) by lra.
    assert (len (plus (times m (masked c D)) (plus (times (-1) (masked c Kp)) (times (-1) (masked c rho)))) <= m * (2 * dl) + (Lr * norm1 kap + Lr / 2 * (S * S))); [|lra].
    eapply Rle_trans; [apply ReachProofs.len_plus|]. rewrite ReachProofs.len_times, (Rabs_pos_eq m) by lra. apply Rplus_le_compat; [apply Rmult_le_compat_l; lra|].
    eapply Rle_trans; [apply ReachProofs.len_plus|]. rewrite !ReachProofs.len_times, (Rabs_left (-1)) by lra.
    pose proof (masked_len c Kp). pose proof (masked_len c rho). pose proof (norm1_pos (diff (posns js') (posns js))).
    assert (Lr / 2 * (norm1 (diff (posns js') (posns js)) * norm1 (diff (posns js') (posns js))) <= Lr / 2 * (S * S)) by (apply Rmult_le_compat_l; [lra|apply Rmult_le_compat; lra]).
    lra.
  Qed.
End Core.
