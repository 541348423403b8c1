(** * Where a loaded robot puts its links *)
From Coq Require Import String Reals Lra.
From stdpp Require Import gmap strings.
From Verif Require Import Scalar ScalarR Geometry Joint Link Prog NodeM ChainM FuncsM IkM RunLemmas SpecJoint SpecNode SpecGraph SpecGeom RGeom GeomProofs
  SpecChain ChainProofs SpecFK FKProofs SpecIk Api UrdfM SpecUrdf UrdfProofs UrdfProofs2 UrdfProofs3 UrdfProofs4 UrdfProofs5 PropGeom PropUrdf SpecPlace.
Open Scope R_scope.

Notation cv := (fun x : R => x).

Lemma axis_direction (a : vec3 R) : a <> V3 0 0 0 -> axis_from cv a = direction a.
Proof.
  destruct a as [x y z]. intros _. unfold axis_from, conv_v3, vnormalize, vdivs, direction, times. cbn -[len vnorm].
  rewrite vnorm_len. f_equal; unfold Rdiv; ring.
Qed.
Lemma convert_unit j jt : sound_joint j -> joint_from cv j = Some jt -> unit_joint jt.
Proof.
  intros [_ Ha] E. pose proof (C45_conversion cv j jt E) as (_ & _ & _ & _ & Ht & _). split.
  - rewrite Ht. destruct (uj_type j); try exact I; cbn; apply C45_axis_real, Ha.
  - rewrite joint_from_cases in E. destruct (joint_limits_from _ j); [|discriminate]. injection E as <-. cbn.
    destruct (uj_origin j) as [xyz [ro pi ya]]. apply (C49_rpy ro pi ya (V3 0 0 0)).
Qed.
Lemma convert_step j jt jt' q x : sound_joint j -> joint_from cv j = Some jt ->
  j_type jt' = j_type jt -> j_origin jt' = j_origin jt -> j_position jt' = q ->
  proper (local_transform jt') /\ move (local_transform jt') x = joint_step j q x.
Proof.
  intros Hs E Ht Ho <-. pose proof (convert_unit j jt Hs E) as Hu.
  assert (Hu' : unit_joint jt') by (unfold unit_joint; rewrite Ht, Ho; exact Hu). split; [apply proper_local, Hu'|].
  destruct (C45_conversion cv j jt E) as (_ & _ & _ & _ & Et & _). rewrite <- Ht in Et.
  pose proof (fun x => C45_origin_real j jt x E) as Hm. rewrite <- Ho in Hm.
  unfold joint_step, joint_motion. destruct Hs as [_ Ha]. rewrite <- Hm. destruct (uj_type j) eqn:Ej.
  - rewrite (local_rotational jt' _ x Hu' Et), axis_direction by exact Ha. reflexivity.
  - rewrite (local_rotational jt' _ x Hu' Et), axis_direction by exact Ha. reflexivity.
  - destruct (local_linear jt' _ Et) as [_ ->]. rewrite axis_direction by exact Ha. reflexivity.
  - rewrite (local_fixed jt' Et). reflexivity.
  - rewrite (local_fixed jt' Et). reflexivity.
  - rewrite (local_fixed jt' Et). reflexivity.
  - rewrite (local_fixed jt' Et). reflexivity.
Qed.
Lemma sound_converts (r : robot R) : (forall j, j ∈ r_joints r -> sound_joint j) -> joints_convert cv (r_joints r).
Proof. intros H j Hj. destruct (H j Hj) as [Hle _]. destruct (C45_limits_real j) as [H1 _]. destruct (H1 Hle) as (jt & E & _). eauto. Qed.

Section Placed.
  Context (r : robot R) (nx : nat) (h0 h1 h2 : gmap nat (node R)) (q : nat -> R).
  Context (HL : loaded cv r nx h0 h1) (HB : heaps same_but_position h1 h2) (Hs : forall j, j ∈ r_joints r -> sound_joint j)
    (Hq : stands r nx h2 q).

  Lemma pl_node a n : h1 !! a = Some n -> exists n', h2 !! a = Some n' /\ same_but_position n n'.
  Proof. intros E. specialize (HB a). rewrite E in HB. destruct (h2 !! a) as [n'|]; [eauto|contradiction]. Qed.
  Lemma pl_root : exists n, h2 !! nx = Some n /\ n_parent n = None /\ local_transform (n_joint n) = iso1.
  Proof.
    destruct (ld_root _ _ _ _ _ HL) as (n & Hn & Hr). destruct (pl_node _ _ Hn) as (n' & Hn' & (_ & Ht & _ & _ & Ho & Hp & _)).
    exists n'. split; [exact Hn'|]. split; [rewrite Hp; apply (rn_parent _ _ _ _ Hr)|].
    rewrite (rn_joint _ _ _ _ Hr) in Ht, Ho. rewrite local_fixed by exact Ht. exact Ho.
  Qed.
  Lemma pl_joint i : is_Some (h2 !! (S nx + i)%nat) -> exists j n, r_joints r !! i = Some j /\ h2 !! (S nx + i)%nat = Some n /\
    ((exists k, parent_joint r i k /\ n_parent n = Some (S nx + k)%nat) \/ (forall k, ~ parent_joint r i k) /\ n_parent n = Some nx) /\
    proper (local_transform (n_joint n)) /\ forall x, move (local_transform (n_joint n)) x = joint_step j (q i) x.
  Proof.
    intros [n' Hn']. pose proof (HB (S nx + i)%nat) as HBi. rewrite Hn' in HBi. destruct (h1 !! (S nx + i)%nat) as [n1|] eqn:E1; [|contradiction].
    assert (Hi : (i < length (r_joints r))%nat).
    { destruct (decide (i < length (r_joints r))%nat) as [|Hge]; [assumption|]. rewrite (ld_new _ _ _ _ _ HL) in E1 by lia. discriminate. }
    destruct (lookup_lt_is_Some_2 _ _ Hi) as [j Hj]. destruct (ld_joint _ _ _ _ _ HL i j Hj) as (n & Hn & Hjn).
    assert (n1 = n) as -> by congruence. destruct HBi as (_ & Ht & _ & _ & Ho & Hp & _).
    exists j, n'. split; [exact Hj|]. split; [exact Hn'|]. split; [rewrite Hp; exact (jn_parent _ _ _ _ _ _ Hjn)|].
    destruct (Hq i Hi) as (n2 & Hn2 & Hp2). assert (n2 = n') as -> by congruence.
    assert (Hsj : sound_joint j) by (eapply Hs, elem_of_list_lookup_2; eauto).
    pose proof (fun x => convert_step j (n_joint n) (n_joint n') (q i) x Hsj (jn_joint _ _ _ _ _ _ Hjn) Ht Ho Hp2) as C.
    split; [exact (proj1 (C (V3 0 0 0)))|intros x; exact (proj2 (C x))].
  Qed.
  Lemma pl_path a l : path_up h2 a l -> forall ts, Forall2 (local_at h2) (rev l) ts ->
    (a = nx -> proper (product iso1 ts) /\ forall x, move (product iso1 ts) x = x) /\
    (forall i, a = (S nx + i)%nat -> proper (product iso1 ts) /\ forall x, placed r q i x (move (product iso1 ts) x)).
  Proof.
    assert (M1 : forall x, move iso1 x = x).
    { intros [x y z]. unfold move. rewrite turn_q1. cbn. unfold plus. cbn. f_equal; ring. }
    assert (P1 : proper iso1) by apply proper_1.
    destruct pl_root as (nr & Hnr & Hpr & Hlr).
    induction 1 as [a Hnp|a p l Hlp Hpath IH]; intros ts Hts.
    - cbn in Hts. inversion Hts as [|? w ? us (n & Hn & ->) Hus]; subst. inversion Hus; subst. cbn [product foldl].
      unfold product. cbn [foldl]. split.
      + intros ->. assert (n = nr) as -> by congruence. rewrite Hlr. split; [apply proper_mul; exact P1|].
        intros x. rewrite iso_mul_move by exact P1. rewrite !M1. reflexivity.
      + intros i ->. exfalso. destruct (pl_joint i) as (j & n' & _ & Hn' & Hcase & _); [eauto|]. destruct Hnp as [_ Hnp].
        destruct Hcase as [(k & (ji & jk & _ & Hk & _) & Hp)|[_ Hp]].
        * apply (Hnp (S nx + k)%nat). split; [exists n'; auto|]. destruct (ld_joint _ _ _ _ _ HL k jk Hk) as (m & Hm & _).
          destruct (pl_node _ _ Hm) as (m' & Hm' & _). eauto.
        * apply (Hnp nx). split; [exists n'; auto|eauto].
    - cbn [rev] in Hts. apply Forall2_app_inv_l in Hts as (us & vs & Hus & Hvs & ->).
      inversion Hvs as [|? w ? vs' (n & Hn & ->) Hvs']; subst. inversion Hvs'; subst.
      destruct (IH us Hus) as [IHr IHj]. rewrite product_app. set (W := product iso1 us) in *.
      change (product W [local_transform (n_joint n)]) with (iso_mul W (local_transform (n_joint n))).
      destruct Hlp as [(n2 & Hn2 & Hp) _]. assert (n2 = n) as -> by congruence. split.
      + intros ->. congruence.
      + intros i ->. destruct (pl_joint i) as (j & n' & Hj & Hn' & Hcase & HP & Hm); [eauto|]. assert (n' = n) as -> by congruence.
        destruct Hcase as [(k & Hk & Hpk)|[Hno Hpn]].
        * assert (p = (S nx + k)%nat) as -> by congruence. destruct (IHj k eq_refl) as [HW HWx]. split; [apply proper_mul; assumption|].
          intros x. rewrite iso_mul_move by assumption. eapply placed_step; eauto. rewrite Hm. apply HWx.
        * assert (p = nx) as -> by congruence. destruct (IHr eq_refl) as [HW HWx]. split; [apply proper_mul; assumption|].
          intros x. rewrite iso_mul_move by assumption. rewrite HWx, Hm. apply placed_base; assumption.
  Qed.
  Lemma pl_world i w : world h2 (S nx + i)%nat w -> proper w /\ forall x, placed r q i x (move w x).
  Proof. intros (l & ts & Hp & Hts & ->). exact (proj2 (pl_path _ _ Hp ts Hts) i eq_refl). Qed.
End Placed.

Lemma parent_joint_fun (r : robot R) i k k' : well_named r -> parent_joint r i k -> parent_joint r i k' -> k' = k.
Proof.
  intros Hwn (ji & jk & Hi & Hk & Hc & _) (ji' & jk' & Hi' & Hk' & Hc' & _).
  assert (ji' = ji) as -> by congruence. apply (NoDup_lookup _ k' k (uj_child jk) (wn_children _ Hwn)).
  - rewrite list_lookup_fmap, Hk'. cbn. congruence.
  - rewrite list_lookup_fmap, Hk. reflexivity.
Qed.
Lemma placed_fun (r : robot R) q i x y y' : well_named r -> placed r q i x y -> placed r q i x y' -> y' = y.
Proof.
  intros Hwn H. revert y'. induction H as [i j x Hj Hno|i j k x y Hj Hk _ IH]; intros y' H'; inversion H' as [? j' ? Hj' Hno'|? j' k' ? ? Hj' Hk' Hp']; subst.
  - congruence.
  - exfalso. eapply Hno; eauto.
  - exfalso. eapply Hno'; eauto.
  - assert (j' = j) as -> by congruence. assert (k' = k) as -> by (eapply parent_joint_fun; eauto). auto.
Qed.
(** only the joints above matter *)
Lemma placed_ext (r : robot R) q q' i x y : (forall k, rtc (parent_joint r) i k -> q' k = q k) -> placed r q i x y -> placed r q' i x y.
Proof.
  intros E H. induction H as [i j x Hj Hno|i j k x y Hj Hk _ IH].
  - rewrite <- (E i) by reflexivity. apply placed_base; assumption.
  - eapply placed_step; eauto. rewrite (E i) by reflexivity. apply IH. intros k' Hk'. apply E. eapply rtc_l; eauto.
Qed.
