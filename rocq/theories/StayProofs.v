(** * An iteration without an error *)
From Coq Require Import String NArith Reals Lra Lia Sorting.Sorted.
From stdpp Require Import gmap.
From Verif Require Import Scalar ScalarR Geometry Joint Link Prog NodeM ChainM FuncsM IkM LuM SvdM RunLemmas
  SpecJoint SpecNode SpecGraph GraphProofs SpecChain ChainProofs SpecFK FKProofs SpecIk JacProofs SpecGeom RGeom
  SpecStep SpecLin IkProofs IkProofs2 StepProofs LinAlgR LinArm LinIk LuProofs SvdProofs PropGeom PropStep PropLu PropSvd SpecVerdict VerdictProofs.
Local Open Scope R_scope.

Lemma zeros_norm n : norm (zeros n) = 0.
Proof. unfold norm. rewrite dot_zeros. apply sqrt_0. Qed.
Lemma norm_zero x : norm x * norm x <= 0 -> x = zeros (length x).
Proof. rewrite norm_sqr. intros H. apply dot_pos_zero. pose proof (dot_nonneg x). lra. Qed.
Lemma zeros_lookup n j x : zeros n !! j = Some x -> x = 0.
Proof. intros H. apply elem_of_list_lookup_2, elem_of_list_In, repeat_spec in H. exact H. Qed.
Lemma zeros_length n : length (zeros n) = n. Proof. apply repeat_length. Qed.
Lemma zeros_solve J m n : shaped J m n -> solves J (zeros n) (zeros m).
Proof.
  intros (Hr & Hn & Hc). split; [rewrite zeros_length; congruence|]. rewrite Hr. clear Hr. revert n Hn. induction (m_cols J) as [|k ks IH]; intros n Hn.
  - destruct n; reflexivity.
  - destruct n as [|n]; [discriminate|]. apply Forall_cons in Hc as [Hk Hks]. injection Hn as Hn.
    change (zeros (S n)) with (0 :: zeros n). cbn [combine]. rewrite (IH Hks n Hn). clear -Hk.
    revert m Hk. induction k as [|y k IH]; intros m <-; [reflexivity|]. cbn. f_equal; [ring|]. apply IH. reflexivity.
Qed.
Lemma sorted_strict (l : list nat) : StronglySorted le l -> NoDup l -> StronglySorted lt l.
Proof.
  induction 1 as [|x l Hs IH Hf]; intros Hnd; [constructor|]. apply NoDup_cons in Hnd as [Hx Hnd]. constructor; [apply IH; exact Hnd|].
  rewrite Forall_forall in *. intros y Hy. specialize (Hf y Hy). assert (x <> y) by (intros ->; contradiction). lia.
Qed.
Lemma ignored_strict {T} `{Scalar T} (h : gmap nat (node T)) arm c idx : c_dof arm = length (c_movable arm) ->
  NoDup (ignored_joint_names c) -> ignored_at h arm c idx -> StronglySorted lt idx /\ Forall (fun j => (j < c_dof arm)%nat) idx.
Proof.
  intros Hd Hnd (l & Hl & Hp & Hs). pose proof (indices_nodup _ _ _ _ Hnd Hl) as Hn. split.
  - apply sorted_strict; [exact Hs|]. rewrite Hp. exact Hn.
  - apply Forall_forall. intros j Hj. rewrite Hp in Hj. rewrite Hd. apply elem_of_list_lookup in Hj as [i Hi].
    destruct (Forall2_lookup_r _ _ _ _ _ Hl Hi) as (nm & _ & (a & Ha & _)). eapply lookup_lt_Some; exact Ha.
Qed.

Section Same.
  Implicit Types h : gmap nat (node R).
  Lemma same_positions h h' l : only_moved l h h' -> (forall a n, a ∈ l -> h !! a = Some n -> position_at h' a = Some (j_position (n_joint n))) ->
    heaps same_but_caches h h'.
  Proof.
    intros [H1 H2] Hp. apply unch_heaps. intros a. apply frozen_heaps in H1. pose proof (H1 a) as Ha. destruct (h !! a) as [n|] eqn:Hn, (h' !! a) as [n'|] eqn:Hn'; try discriminate Ha; [|reflexivity].
    cbn in *. f_equal. destruct (decide (a ∈ l)) as [Hin|Hin].
    - pose proof (Hp a n Hin Hn) as E. unfold position_at in E. rewrite Hn' in E. injection E as E. apply strip_bare_pos; congruence.
    - apply strip_eq. eapply H2; eauto.
  Qed.
  Lemma zero_motion t h nx arm target c m full r : SpecIk.rest h (c_movable arm) -> (forall j y, full !! j = Some y -> y = 0) ->
    moved_by t h nx arm target c m full r ->
    exists h' w d, r = Done (Ok d) (quiet h' nx) /\ run t (end_transform arm) (quiet h' nx) = Done w (quiet h' nx) /\ heaps same_but_caches h h'.
  Proof.
    intros Hr Hz (h' & w & -> & Hw & Ho & Hp). exists h', w, (flagged (flags c) (calc_pose_diff target w)). split; [reflexivity|]. split; [exact Hw|]. apply (same_positions h h' (c_movable arm) Ho).
    intros a n Ha Hn. apply elem_of_list_lookup in Ha as [j Hj]. rewrite (Hp j a n Hj Hn). f_equal.
    destruct (full !! j) as [y|] eqn:Hy; [|reflexivity]. rewrite (Hz j y Hy).
    replace (sadd (j_position (n_joint n)) (smul m 0)) with (j_position (n_joint n)) by (cbn; ring).
    unfold limited. destruct (j_limits (n_joint n)) as [lim|] eqn:El; [|reflexivity].
    eapply Hr; [eapply elem_of_list_lookup_2; exact Hj|exact Hn|exact El].
  Qed.
  Lemma inside_still h h' arm : SpecIk.rest h (c_movable arm) -> put_inside (c_movable arm) h h' -> heaps same_but_caches h h'.
  Proof.
    intros Hr [Ho Hp]. apply (same_positions h h' _ Ho). intros a n Ha Hn. rewrite (Hp a n Ha Hn). f_equal.
    unfold limited. destruct (j_limits (n_joint n)) as [lim|] eqn:El; [|reflexivity]. eapply Hr; eauto.
  Qed.
  Lemma rest_same h h' l : heaps same_but_caches h h' -> SpecIk.rest h l -> SpecIk.rest h' l.
  Proof. intros Hu%unch_heaps Hr. apply rest_settled. intros a Ha. eapply unch_settled; [exact Hu|]. apply (proj1 (rest_settled _ _) Hr). exact Ha. Qed.
End Same.

(** on the constrained coordinates [w] is what the target asks for *)
Definition agrees (c : constraints) (target w : iso R) : Prop := flagged (flags c) (pose_error target w) = zeros (count (flags c)).
Lemma agrees_errors c target w : agrees c target w -> position_error c target w = V3 0 0 0 /\ rotation_error c target w = V3 0 0 0.
Proof.
  unfold agrees, pose_error, position_error, rotation_error. set (d := qscaled_axis _).
  destruct c as [[] [] [] [] [] [] names]; cbn; intros H; try (injection H; clear H; intros); split; f_equal; assumption || reflexivity.
Qed.
Lemma agrees_on_target sv c target w : agrees c target w -> 0 < allowable_target_distance sv -> 0 < allowable_target_angle sv -> on_target sv c target w.
Proof.
  intros H Hd Ha. destruct (agrees_errors c target w H) as [E1 E2]. unfold on_target. rewrite E1, E2.
  assert (E : vnorm (V3 0 0 0) = 0) by (unfold vnorm; cbn; replace (0 * 0 + 0 * 0 + 0 * 0) with 0 by ring; apply sqrt_0). 
  rewrite E. cbn. unfold Rltb. split; destruct (Rlt_dec _ _); try reflexivity; contradiction.
Qed.
