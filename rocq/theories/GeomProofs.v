(** * Local and world transforms over the reals *)
From Coq Require Import Reals Lra String.
From stdpp Require Import gmap.
From Verif Require Import Scalar ScalarR Geometry Joint Link Prog NodeM ChainM RunLemmas SpecJoint SpecNode SpecGraph
  SpecChain SpecFK FKProofs SpecGeom RGeom.
Local Open Scope R_scope.

Lemma local_tr (j : joint R) : tr (local_transform j) =
  plus (tr (j_origin j)) (turn (rt (j_origin j)) (tr (joint_transform (j_type j) (j_position j)))).
Proof. apply iso_mul_tr_eq. Qed.
Lemma proper_joint_transform ty p : unit_type ty -> proper (joint_transform ty p).
Proof. destruct ty; cbn; intros H; [apply unit_q1|apply unit_axis_angle, H|apply unit_q1]. Qed.
Lemma proper_local j : unit_joint j -> proper (local_transform j).
Proof. intros [Ht Ho]. apply proper_mul; [exact Ho|apply proper_joint_transform, Ht]. Qed.
Lemma local_move j x : unit_joint j ->
  move (local_transform j) x = move (j_origin j) (move (joint_transform (j_type j) (j_position j)) x).
Proof. intros [Ht Ho]. apply iso_mul_move; [exact Ho|apply proper_joint_transform, Ht]. Qed.
Lemma local_fixed j : j_type j = Fixed -> local_transform j = j_origin j.
Proof. intros E. unfold local_transform. rewrite E. apply iso_mul_1_r. Qed.
Lemma local_linear j a : j_type j = Linear a ->
  rt (local_transform j) = rt (j_origin j) /\
  forall x, move (local_transform j) x = move (j_origin j) (plus x (times (j_position j) a)).
Proof.
  intros E. split.
  - unfold local_transform. rewrite E. apply qmul_1_r.
  - intros x. unfold move. rewrite local_tr, E. cbn [joint_transform tr].
    assert (rt (local_transform j) = rt (j_origin j)) as ->.
    { unfold local_transform. rewrite E. apply qmul_1_r. }
    rewrite turn_plus, vscale_times. gv; ring.
Qed.
Lemma local_rotational j a x : unit_joint j -> j_type j = Rotational a ->
  move (local_transform j) x = move (j_origin j) (rotate a (j_position j) x).
Proof.
  intros Hj E. rewrite local_move by exact Hj. f_equal. rewrite E. destruct Hj as [Ht _]. rewrite E in Ht. cbn in Ht.
  unfold move. cbn [joint_transform rt tr]. rewrite turn_axis_angle by exact Ht.
  set (y := rotate _ _ _). clearbody y. destruct y. gv; ring.
Qed.
Lemma local_dist j x y : unit_joint j -> dist (move (local_transform j) x) (move (local_transform j) y) = dist x y.
Proof. intros H. apply proper_rigid, proper_local, H. Qed.

(** ** world transforms *)
Lemma proper_product base ts : proper base -> Forall proper ts -> proper (product base ts).
Proof.
  intros Hb H. revert base Hb. induction H as [|t ts Ht H IH]; intros base Hb; [exact Hb|].
  cbn. apply IH, proper_mul; auto.
Qed.
Lemma proper_world h a w : world h a w ->
  (forall l b n, path_up h a l -> b ∈ l -> h !! b = Some n -> unit_joint (n_joint n)) -> proper w.
Proof.
  intros (l & ts & Hp & Hts & ->) Hu. apply proper_product; [apply proper_1|].
  apply Forall_lookup. intros i t Ht. apply Forall2_same_length_lookup in Hts as [Hlen Hts].
  destruct (lookup_lt_is_Some_2 (rev l) i) as [b Hb]; [rewrite Hlen; eapply lookup_lt_Some; eauto|].
  destruct (Hts _ _ _ Hb Ht) as (n & Hn & ->). apply proper_local. apply (Hu l b n Hp); [|exact Hn].
  apply elem_of_list_lookup_2, elem_of_list_In, in_rev in Hb. apply elem_of_list_In, Hb.
Qed.

Lemma update_transform_unit t h nx a w s' : all_unit h ->
  run t (update_transform a) (quiet h nx) = Done w s' ->
  proper w /\ exists h', s' = quiet h' nx /\ all_unit h'.
Proof.
  intros Hu Hr. destruct (h !! a) as [n|] eqn:Hn.
  2:{ exfalso. unfold update_transform in Hr. unfold parent_world_transform, node_parent, read in Hr. cbn in Hr. rewrite lookup_empty in Hr. cbn in Hr. rewrite Hn in Hr. discriminate. }
  assert (Hgo : forall w0, (no_parent h a /\ w0 = iso1) \/ (exists p, live_parent h a p /\ wt_of h p (Some w0)) -> proper w0 ->
    proper w /\ exists h', s' = quiet h' nx /\ all_unit h').
  { intros w0 Hw0 Hp. rewrite (run_update_transform t h nx a n w0 Hn Hw0) in Hr. injection Hr as <- <-.
    assert (Hpw : proper (iso_mul w0 (local_transform (n_joint n)))) by (apply proper_mul; [exact Hp|apply proper_local, (Hu _ _ Hn)]).
    split; [exact Hpw|]. eexists. split; [reflexivity|]. intros b m Hm. destruct (decide (b = a)) as [->|Hne].
    - rewrite lookup_insert in Hm. apply Some_inj in Hm as <-. destruct (Hu _ _ Hn) as [Hj _]. split; [exact Hj|].
      intros w' E. cbn in E. apply Some_inj in E as <-. exact Hpw.
    - rewrite lookup_insert_ne in Hm by auto. exact (Hu _ _ Hm). }
  destruct (n_parent n) as [p|] eqn:Ep.
  2:{ apply (Hgo iso1); [left; split; [|reflexivity]|apply proper_1]. split; [eauto|]. intros p [(m & Hm & E) _]. rewrite Hn in Hm. apply Some_inj in Hm as <-. congruence. }
  destruct (h !! p) as [np|] eqn:Hnp.
  2:{ apply (Hgo iso1); [left; split; [|reflexivity]|apply proper_1]. split; [eauto|]. intros p' [(m & Hm & E) [? ?]]. rewrite Hn in Hm. apply Some_inj in Hm as <-. congruence. }
  assert (Hlp : live_parent h a p) by (split; [exists n; auto|rewrite Hnp; eauto]).
  destruct (j_wt_cache (n_joint np)) as [w0|] eqn:Ew.
  - apply (Hgo w0).
    + right. exists p. split; [exact Hlp|]. exists np. auto.
    + apply (Hu _ _ Hnp). exact Ew.
  - exfalso. unfold update_transform in Hr. rewrite run_bind, (run_parent_wt _ _ _ _ None) in Hr; [discriminate|eauto|].
    right. exists p. split; [exact Hlp|]. exists np. auto.
Qed.
Lemma mapM_update_unit t nx l : forall h ws s', all_unit h ->
  run t (mapM update_transform l) (quiet h nx) = Done ws s' ->
  Forall proper ws /\ exists h', s' = quiet h' nx /\ all_unit h'.
Proof.
  induction l as [|a l IH]; intros h ws s' Hu Hr.
  - cbn in Hr. injection Hr as <- <-. eauto.
  - cbn [mapM] in Hr. rewrite run_bind in Hr.
    destruct (run t (update_transform a) (quiet h nx)) as [w s1| | | |] eqn:E1; try discriminate.
    destruct (update_transform_unit _ _ _ _ _ _ Hu E1) as [Hw (h1 & -> & Hu1)]. cbn [obind] in Hr.
    rewrite run_bind in Hr.
    destruct (run t (mapM update_transform l) (quiet h1 nx)) as [ws1 s2| | | |] eqn:E2; try discriminate.
    destruct (IH _ _ _ Hu1 E2) as [Hws (h2 & -> & Hu2)]. cbn in Hr. injection Hr as <- <-. eauto.
Qed.
Lemma update_transforms_unit_lemma t h nx c ws s' : all_unit h ->
  run t (update_transforms c) (quiet h nx) = Done ws s' ->
  Forall (fun w => proper w /\ rigid (move w)) ws /\ exists h', s' = quiet h' nx /\ all_unit h'.
Proof.
  intros Hu Hr. destruct (mapM_update_unit _ _ _ _ _ _ Hu Hr) as [H1 H2]. split; [|exact H2].
  eapply Forall_impl; [exact H1|]. intros w Hw. split; [exact Hw|apply proper_rigid, Hw].
Qed.
Lemma end_transform_unit_lemma t h nx c :
  all_live h (c_nodes c) -> (forall a n, a ∈ c_nodes c -> h !! a = Some n -> unit_joint (n_joint n)) ->
  exists w, run t (end_transform c) (quiet h nx) = Done w (quiet h nx) /\ proper w /\ rigid (move w).
Proof.
  intros Hl Hu. destruct (locals_exist _ _ Hl) as [ts Hts]. exists (product iso1 ts).
  assert (Hp : proper (product iso1 ts)).
  { apply proper_product; [apply proper_1|]. apply Forall_lookup. intros i w Hw.
    apply Forall2_same_length_lookup in Hts as [Hlen Hts].
    destruct (lookup_lt_is_Some_2 (c_nodes c) i) as [b Hb]; [rewrite Hlen; eapply lookup_lt_Some; eauto|].
    destruct (Hts _ _ _ Hb Hw) as (n & Hn & ->). apply proper_local. eapply Hu; [|exact Hn].
    eapply elem_of_list_lookup_2, Hb. }
  split; [|split; [exact Hp|apply proper_rigid, Hp]].
  unfold end_transform. exact (run_end_fold t h nx _ ts Hts iso1).
Qed.
Lemma closed_path (h : gmap nat (node R)) l : parents_first h l -> forall a p, path_up h a p -> a ∈ l -> forall b, b ∈ p -> b ∈ l.
Proof.
  intros Hpf a p Hp. induction Hp as [a Ha|a q l' Hlp Hp IH]; intros Hal b Hb.
  - set_solver.
  - apply elem_of_cons in Hb as [->|Hb]; [exact Hal|]. apply IH; [|exact Hb].
    apply elem_of_list_split in Hal as (l1 & l2 & ->).
    pose proof (Hpf l1 a l2 q eq_refl Hlp). set_solver.
Qed.
Lemma update_transforms_proper_lemma t (h : gmap nat (node R)) nx c :
  all_live h (c_nodes c) -> parents_first h (c_nodes c) ->
  (forall a n, a ∈ c_nodes c -> h !! a = Some n -> unit_joint (n_joint n)) ->
  exists ws h', run t (update_transforms c) (quiet h nx) = Done ws (quiet h' nx) /\
    Forall2 (world h) (c_nodes c) ws /\ Forall (fun w => proper w /\ rigid (move w)) ws.
Proof.
  intros Hl Hpf Hu. destruct (update_transforms_lemma t h nx c Hl Hpf) as (ws & h' & Hr & Hw & _).
  exists ws, h'. split; [exact Hr|]. split; [exact Hw|]. apply Forall_lookup. intros i w Hi.
  apply Forall2_same_length_lookup in Hw as [Hlen Hw].
  destruct (lookup_lt_is_Some_2 (c_nodes c) i) as [a Ha]; [rewrite Hlen; eapply lookup_lt_Some; eauto|].
  assert (Hp : proper w).
  { apply (proper_world h a); [exact (Hw _ _ _ Ha Hi)|]. intros l b n Hp Hb Hn. eapply Hu; [|exact Hn].
    eapply closed_path; eauto. eapply elem_of_list_lookup_2, Ha. }
  split; [exact Hp|apply proper_rigid, Hp].
Qed.
