(** * center_of_mass *)
From Coq Require Import String Reals Lra Psatz.
From stdpp Require Import gmap.
From Verif Require Import Scalar ScalarR Geometry Joint Link Prog NodeM ChainM FuncsM RunLemmas
  SpecJoint SpecNode SpecGraph GraphProofs SpecChain ChainProofs SpecFK FKProofs SpecGeom RGeom GeomProofs SpecCom.

Section ComProofs.
  Context {T : Type} `{Sc : Scalar T}.
  Implicit Types (h : gmap nat (node T)).

  Lemma centers_fun h l cs1 : centers h l cs1 -> forall cs2, centers h l cs2 -> cs1 = cs2.
  Proof.
    induction 1 as [|a l cs n Hn Hl H IH|a l cs n lk w Hn Hl Hw H IH]; intros cs2 H2.
    - inversion H2. reflexivity.
    - inversion H2 as [|? ? ? n' Hn' Hl' H'|? ? ? n' lk' w' Hn' Hl' Hw' H']; subst; [auto|].
      rewrite Hn in Hn'. apply Some_inj in Hn' as <-. congruence.
    - inversion H2 as [|? ? ? n' Hn' Hl' H'|? ? ? n' lk' w' Hn' Hl' Hw' H']; subst;
        rewrite Hn in Hn'; apply Some_inj in Hn' as <-; [congruence|].
      assert (lk' = lk) as -> by congruence.
      assert (w' = w) as -> by (eapply world_fun; eauto). f_equal. auto.
  Qed.
  Lemma run_com_loop t h h' nx l ws : Forall2 (world h) l ws -> Forall2 (cached h h') l ws -> forall acc,
    exists cs, centers h l cs /\
      run t (com_loop acc l) (quiet h' nx) =
        Done (foldl vadd (fst acc) (map (fun mc => vscale (snd mc) (fst mc)) cs), foldl sadd (snd acc) (map fst cs)) (quiet h' nx).
  Proof.
    intros Hw. induction Hw as [|a w l ws Ha Hw IH]; intros Hc acc.
    - exists []. split; [constructor|]. destruct acc. reflexivity.
    - inversion Hc as [|? ? ? ? Hca Hcl]; subst. destruct Hca as (n & n' & Hn & Hn' & Hwt).
      destruct Hwt as (Hwt & _ & _ & _ & _ & _ & _ & _ & _ & _ & _ & _ & _ & Hlk).
      cbn [com_loop]. unfold com_step, node_world_transform, quiet in *. rewrite !run_bind.
      erewrite run_read by (eauto using lookup_empty). cbn [obind]. rewrite Hwt.
      erewrite run_read by (eauto using lookup_empty). cbn [obind].
      destruct (n_link n) as [lk|] eqn:El; rewrite Hlk.
      + destruct (IH Hcl (vadd (fst acc) (vscale (tr (iso_mul_tr w (tr (in_origin (l_inertial lk))))) (in_mass (l_inertial lk))),
          sadd (snd acc) (in_mass (l_inertial lk)))) as (cs & Hcs & Hr).
        eexists. split; [eapply centers_link; eauto|]. exact Hr.
      + destruct (IH Hcl acc) as (cs & Hcs & Hr). exists cs. split; [eapply centers_none; eauto|]. exact Hr.
  Qed.
  Lemma center_of_mass_lemma t h nx c : all_live h (c_nodes c) -> parents_first h (c_nodes c) ->
    exists cs h', centers h (c_nodes c) cs /\
      run t (center_of_mass c) (quiet h nx) = Done (vdivs (weighted_sum cs) (total_mass cs)) (quiet h' nx).
  Proof.
    intros Hl Hp. destruct (update_transforms_lemma t h nx c Hl Hp) as (ws & h' & Hr & Hw & Hc & _).
    destruct (run_com_loop t h h' nx _ _ Hw Hc (v0, szero)) as (cs & Hcs & Hr2).
    exists cs, h'. split; [exact Hcs|]. unfold center_of_mass. rewrite run_bind, Hr. cbn [obind].
    rewrite run_bind, Hr2. reflexivity.
  Qed.
End ComProofs.

Local Open Scope R_scope.
Lemma rsum_cons f mc cs : rsum f (mc :: cs) = f mc + rsum f cs.
Proof. reflexivity. Qed.
Lemma rsum_nil f : rsum f [] = 0.
Proof. reflexivity. Qed.
Arguments rsum : simpl never.
Lemma total_rsum cs : total_mass cs = rsum fst cs.
Proof.
  unfold total_mass. assert (H : forall x, foldl sadd x (map fst cs) = x + rsum fst cs); [|rewrite H; cbn; ring].
  induction cs as [|mc cs IH]; intros x; cbn [map foldl]; [rewrite rsum_nil; ring|]. rewrite IH, rsum_cons. cbn. ring.
Qed.
Lemma weighted_rsum cs : weighted_sum cs = V3 (rsum (fun mc => fst mc * vx (snd mc)) cs)
  (rsum (fun mc => fst mc * vy (snd mc)) cs) (rsum (fun mc => fst mc * vz (snd mc)) cs).
Proof.
  unfold weighted_sum. assert (H : forall x, foldl vadd x (map (fun mc => vscale (snd mc) (fst mc)) cs) =
    plus x (V3 (rsum (fun mc => fst mc * vx (snd mc)) cs) (rsum (fun mc => fst mc * vy (snd mc)) cs) (rsum (fun mc => fst mc * vz (snd mc)) cs))).
  { induction cs as [|mc cs IH]; intros x; cbn [map foldl].
    - rewrite !rsum_nil. destruct x; gv; ring.
    - rewrite IH, !rsum_cons. destruct mc as [m c]. cbn [fst snd]. gv; ring. }
  rewrite H. gv; ring.
Qed.
Lemma com_mean cs : vdivs (weighted_sum cs) (total_mass cs) = mean cs.
Proof. rewrite weighted_rsum, total_rsum. unfold mean. gv; unfold Rdiv; ring. Qed.
Lemma rsum_inner cs n : inner n (V3 (rsum (fun mc => fst mc * vx (snd mc)) cs)
    (rsum (fun mc => fst mc * vy (snd mc)) cs) (rsum (fun mc => fst mc * vz (snd mc)) cs)) = rsum (fun mc => fst mc * inner n (snd mc)) cs.
Proof.
  induction cs as [|[m c] cs IH]; [rewrite !rsum_nil; destruct n; un; ring|]. rewrite !rsum_cons, <- IH. cbn [fst snd]. destruct n, c. un. ring.
Qed.
Lemma rsum_bound cs n k : Forall (fun mc => 0 <= fst mc) cs -> Forall (fun mc => inner n (snd mc) <= k) cs ->
  rsum (fun mc => fst mc * inner n (snd mc)) cs <= k * rsum fst cs.
Proof.
  induction cs as [|[m c] cs IH]; intros Hm Hk; [rewrite !rsum_nil; lra|]. apply Forall_cons in Hm as [Hm1 Hm2]. apply Forall_cons in Hk as [Hk1 Hk2].
  specialize (IH Hm2 Hk2). rewrite !rsum_cons. cbn [fst snd] in *. nra.
Qed.
Lemma half_space_lemma cs n k : Forall (fun mc => 0 <= fst mc) cs -> 0 < rsum fst cs ->
  Forall (fun mc => inner n (snd mc) <= k) cs -> inner n (mean cs) <= k.
Proof.
  intros Hm Ht Hk. pose proof (rsum_bound cs n k Hm Hk) as H. rewrite <- rsum_inner in H.
  unfold mean. set (v := V3 _ _ _) in *. clearbody v. set (M := rsum fst cs) in *. clearbody M.
  replace (inner n (times (/ M) v)) with (/ M * inner n v) by (destruct n, v; un; ring).
  apply Rmult_le_reg_l with M; [exact Ht|]. rewrite <- Rmult_assoc, Rinv_r by lra. lra.
Qed.
(** the mean of moved centers *)
Lemma mean_move m cs : rsum fst cs <> 0 -> mean (map (fun mc => (fst mc, move m (snd mc))) cs) = move m (mean cs).
Proof.
  intros Ht. unfold mean.
  assert (Hs : forall f g : R * vec3 R -> R, (forall mc, f (fst mc, move m (snd mc)) = g mc) ->
    rsum f (map (fun mc => (fst mc, move m (snd mc))) cs) = rsum g cs).
  { intros f g H. clear Ht. induction cs as [|mc cs IH]; [reflexivity|]. cbn [map]. rewrite !rsum_cons, IH, H. reflexivity. }
  assert (Hl : forall a b c d (f : R * vec3 R -> R), (forall mc, f mc = a * (fst mc * vx (snd mc)) + b * (fst mc * vy (snd mc)) + c * (fst mc * vz (snd mc)) + d * fst mc) ->
    rsum f cs = a * rsum (fun mc => fst mc * vx (snd mc)) cs + b * rsum (fun mc => fst mc * vy (snd mc)) cs
      + c * rsum (fun mc => fst mc * vz (snd mc)) cs + d * rsum fst cs).
  { intros a b c d f H. clear Ht Hs. induction cs as [|mc cs IH]; [rewrite !rsum_nil; ring|]. rewrite !rsum_cons, IH, H. ring. }
  rewrite (Hs fst fst) by reflexivity.
  rewrite (Hs (fun mc => fst mc * vx (snd mc)) (fun mc => fst mc * vx (move m (snd mc)))) by reflexivity.
  rewrite (Hs (fun mc => fst mc * vy (snd mc)) (fun mc => fst mc * vy (move m (snd mc)))) by reflexivity.
  rewrite (Hs (fun mc => fst mc * vz (snd mc)) (fun mc => fst mc * vz (move m (snd mc)))) by reflexivity.
  clear Hs. destruct m as [[tx ty tz] [i j k w]].
  rewrite (Hl (1 - 2 * (j * j + k * k)) (2 * (i * j - k * w)) (2 * (i * k + j * w)) tx
    (fun mc => fst mc * vx (move (Iso (V3 tx ty tz) (Qt i j k w)) (snd mc)))) by (intros mc; cbn; ring).
  rewrite (Hl (2 * (i * j + k * w)) (1 - 2 * (i * i + k * k)) (2 * (j * k - i * w)) ty
    (fun mc => fst mc * vy (move (Iso (V3 tx ty tz) (Qt i j k w)) (snd mc)))) by (intros mc; cbn; ring).
  rewrite (Hl (2 * (i * k - j * w)) (2 * (j * k + i * w)) (1 - 2 * (i * i + j * j)) tz
    (fun mc => fst mc * vz (move (Iso (V3 tx ty tz) (Qt i j k w)) (snd mc)))) by (intros mc; cbn; ring).
  apply V3_eq; cbn [times plus move turn vx vy vz tr rt qi qj qk qw]; field; exact Ht.
Qed.

(** ** moving the root *)
Lemma product_left M base ts : proper M -> proper base -> Forall proper ts ->
  product (iso_mul M base) ts = iso_mul M (product base ts).
Proof.
  intros HM Hb Hts. revert base Hb. induction Hts as [|t ts Ht Hts IH]; intros base Hb; [reflexivity|].
  change (product (iso_mul (iso_mul M base) t) ts = iso_mul M (product (iso_mul base t) ts)).
  rewrite <- iso_mul_assoc by assumption. apply IH, proper_mul; assumption.
Qed.
Section Shift.
  Variables (h : gmap nat (node R)) (r : nat) (n : node R) (M : iso R).
  Hypothesis Hr : h !! r = Some n.
  Hypothesis HM : proper M.
  Definition shifted : node R := set_n_joint n (joint_set_origin (n_joint n) (iso_mul M (j_origin (n_joint n)))).
  Let h2 := <[r := shifted]> h.
  Lemma shift_parents : same_parents h h2.
  Proof.
    intros a. unfold h2. destruct (decide (a = r)) as [->|Hne].
    - rewrite lookup_insert, Hr. reflexivity.
    - rewrite lookup_insert_ne by auto. reflexivity.
  Qed.
  Lemma path_last (a : nat) l : path_up h a l -> exists l' q, l = l' ++ [q] /\ no_parent h q.
  Proof.
    induction 1 as [b Hb|b p l Hp Hl (l' & q & -> & Hq)]; [exists [], b; auto|].
    exists (b :: l'), q. auto.
  Qed.
  Lemma shift_world a w : (forall b, no_parent h b -> (exists l, path_up h a l /\ b ∈ l) -> b = r) ->
    (forall l b m, path_up h a l -> b ∈ l -> h !! b = Some m -> unit_joint (n_joint m)) ->
    world h a w -> world h2 a (iso_mul M w).
  Proof.
    intros Hroot Hu (l & ts & Hp & Hts & ->).
    exists l. destruct (path_last a l Hp) as (l' & q & El & Hq).
    assert (q = r) as -> by (apply Hroot; [exact Hq|exists l; split; [exact Hp|rewrite El; set_solver]]).
    pose proof (path_up_nodup _ _ _ Hp) as Hnd.
    assert (Hrl : r ∉ l'). { rewrite El in Hnd. apply NoDup_app in Hnd as (_ & Hd & _). intros Hin. apply (Hd r Hin). set_solver. }
    rewrite El, rev_app_distr in Hts. cbn in Hts. inversion Hts as [|? t0 ? ts' (m & Hm & ->) Hts' E1 E2]; subst.
    assert (m = n) as -> by congruence.
    exists (local_transform (n_joint shifted) :: ts'). split; [|split].
    - eapply same_parents_path; [apply shift_parents|exact Hp].
    - rewrite rev_app_distr. cbn. constructor.
      + exists shifted. unfold h2. rewrite lookup_insert. auto.
      + assert (Hrl' : r ∉ rev l') by (rewrite elem_of_list_In, <- in_rev, <- elem_of_list_In; exact Hrl).
        clear -Hts' Hrl'. induction Hts' as [|b t l ts (m & Hm & ->) H IH]; [constructor|].
        constructor; [|apply IH; set_solver]. exists m. unfold h2. rewrite lookup_insert_ne by set_solver. auto.
    - assert (Hjn : unit_joint (n_joint n)) by (apply (Hu _ r n Hp); [set_solver|exact Hr]).
      assert (Hl : local_transform (n_joint shifted) = iso_mul M (local_transform (n_joint n))).
      { symmetry. apply (iso_mul_assoc M (j_origin (n_joint n))); [exact HM|apply Hjn]. }
      change (iso_mul M (product (iso_mul iso1 (local_transform (n_joint n))) ts') =
              product (iso_mul iso1 (local_transform (n_joint shifted))) ts').
      rewrite Hl, !iso_mul_1_l. symmetry. apply product_left; [exact HM|apply proper_local, Hjn|].
      assert (Hsub : forall b m, b ∈ rev l' -> h !! b = Some m -> unit_joint (n_joint m)).
      { intros b m Hb. apply (Hu _ b m Hp). apply elem_of_list_In, in_rev, elem_of_list_In in Hb. set_solver. }
      clear -Hts' Hsub. induction Hts' as [|b t l ts (m & Hm & ->) H IH]; [constructor|]. constructor.
      + apply proper_local. eapply Hsub; [|exact Hm]. set_solver.
      + apply IH. intros b' m' Hb'. apply Hsub. set_solver.
  Qed.
  Lemma shift_centers l cs :
    (forall a b, a ∈ l -> no_parent h b -> (exists p, path_up h a p /\ b ∈ p) -> b = r) ->
    (forall a p b m, a ∈ l -> path_up h a p -> b ∈ p -> h !! b = Some m -> unit_joint (n_joint m)) ->
    centers h l cs -> centers h2 l (map (fun mc => (fst mc, move M (snd mc))) cs).
  Proof.
    intros Hroot Hu Hc. induction Hc as [|a l cs m Hm Hl Hc IH|a l cs m lk w Hm Hl Hw Hc IH]; [constructor| |].
    - assert (exists m', h2 !! a = Some m' /\ n_link m' = n_link m) as (m' & Hm' & El).
      { unfold h2. destruct (decide (a = r)) as [->|Hne]; [rewrite lookup_insert; eexists; split; [reflexivity|]|rewrite lookup_insert_ne by auto; eauto].
        assert (m = n) as -> by congruence. reflexivity. }
      eapply centers_none; [exact Hm'|congruence|]. apply IH; [intros b c Hb; apply Hroot; set_solver|intros b p c m0 Hb; apply Hu; set_solver].
    - assert (exists m', h2 !! a = Some m' /\ n_link m' = n_link m) as (m' & Hm' & El).
      { unfold h2. destruct (decide (a = r)) as [->|Hne]; [rewrite lookup_insert; eexists; split; [reflexivity|]|rewrite lookup_insert_ne by auto; eauto].
        assert (m = n) as -> by congruence. reflexivity. }
      cbn [map fst snd].
      assert (Hpw : proper w).
      { apply (proper_world h a w Hw). intros p b m0 Hp Hb. apply (Hu a p b m0); [set_solver|exact Hp|exact Hb]. }
      assert (Hw2 : world h2 a (iso_mul M w)).
      { apply shift_world; [intros b Hb; apply (Hroot a); set_solver|intros p b m0 Hp; apply (Hu a p b m0); [set_solver|exact Hp]|exact Hw]. }
      assert (Hmv : forall (u : iso R) v, vadd (tr u) (qrot (rt u) v) = move u v).
      { intros u v. rewrite qrot_turn. unfold move. set (y := turn _ _). destruct y, (tr u). gv; ring. }
      rewrite Hmv, <- iso_mul_move by assumption. rewrite <- Hmv.
      eapply centers_link; [exact Hm'|congruence|exact Hw2|].
      apply IH; [intros b c Hb; apply Hroot; set_solver|intros b p c m0 Hb; apply Hu; set_solver].
  Qed.
  Lemma shift_com_lemma t nx c : all_live h (c_nodes c) -> parents_first h (c_nodes c) ->
    (forall a m, a ∈ c_nodes c -> h !! a = Some m -> unit_joint (n_joint m)) ->
    (forall a, a ∈ c_nodes c -> no_parent h a -> a = r) ->
    forall cs, centers h (c_nodes c) cs -> rsum fst cs <> 0 ->
    exists s s', run t (center_of_mass c) (quiet h nx) = Done (mean cs) s /\
      run t (node_set_origin r (iso_mul M (j_origin (n_joint n))) ;;; center_of_mass c) (quiet h nx) = Done (move M (mean cs)) s'.
  Proof.
    intros Hl Hp Hu Hroot cs Hcs Ht.
    destruct (center_of_mass_lemma t h nx c Hl Hp) as (cs1 & h1 & Hcs1 & Hr1).
    assert (cs1 = cs) as -> by (eapply centers_fun; eauto). rewrite com_mean in Hr1.
    exists (quiet h1 nx).
    assert (Hl2 : all_live h2 (c_nodes c)) by (intros a Ha; eapply same_parents_live; [apply shift_parents|auto]).
    assert (Hp2 : parents_first h2 (c_nodes c)) by (eapply same_parents_pf; [apply shift_parents|exact Hp]).
    destruct (center_of_mass_lemma t h2 nx c Hl2 Hp2) as (cs2 & h3 & Hcs2 & Hr2).
    assert (cs2 = map (fun mc => (fst mc, move M (snd mc))) cs) as ->.
    { eapply centers_fun; [exact Hcs2|]. apply shift_centers; [| |exact Hcs].
      - intros a b Ha Hb (p & Hpa & Hbp). apply Hroot; [|exact Hb]. exact (closed_path h _ Hp a p Hpa Ha b Hbp).
      - intros a p b m Ha Hpa Hb Hm. eapply Hu; [|exact Hm]. exact (closed_path h _ Hp a p Hpa Ha b Hb). }
    rewrite com_mean, mean_move in Hr2 by exact Ht.
    exists (quiet h3 nx). split; [exact Hr1|]. rewrite run_bind. unfold node_set_origin.
    unfold quiet at 1. rewrite (run_modify t r _ h nx ∅ n) by (auto using lookup_empty). cbn [obind]. exact Hr2.
  Qed.
End Shift.

Lemma vadd_qrot_move (u : iso R) v : vadd (tr u) (qrot (rt u) v) = move u v.
Proof. rewrite qrot_turn. unfold move. set (y := turn _ _). destruct y, (tr u). gv; ring. Qed.
Lemma centers_link_centers (h : gmap nat (node R)) l cs : centers h l cs <-> link_centers h l cs.
Proof.
  split; induction 1.
  - constructor.
  - eapply lc_none; eauto.
  - rewrite vadd_qrot_move. eapply lc_link; eauto.
  - constructor.
  - eapply centers_none; eauto.
  - rewrite <- vadd_qrot_move. eapply centers_link; eauto.
Qed.
