(** * The Jacobian *)
From Coq Require Import String.
From stdpp Require Import gmap.
From Verif Require Import Scalar Geometry Joint Link Prog NodeM ChainM FuncsM RunLemmas
  SpecJoint SpecNode JointProofs NodeProofs SpecGraph GraphProofs LinkProofs SpecChain ChainProofs SpecFK FKProofs IkProofs.

Section JacProofs.
  Context {T : Type} `{Sc : Scalar T}.
  Implicit Types (h : gmap nat (node T)).

  (** the column as a value *)
  Definition jcol (p_n : vec3 T) (w : iso T) (ty : joint_type T) : option (list T) :=
    match ty with
    | Linear axis => let d := qrot (rt w) axis in Some [vx d; vy d; vz d; szero; szero; szero]
    | Rotational axis =>
        let a := qrot (rt w) axis in
        let d := vcross a (vsub p_n (tr w)) in Some [vx d; vy d; vz d; vx a; vy a; vz a]
    | Fixed => None
    end.
  Definition col_at h (L : list nat) (p_n : vec3 T) (a : nat) (col : list T) : Prop :=
    exists n w, h !! a = Some n /\ based h L a w /\ jcol p_n w (j_type (n_joint n)) = Some col.

  Lemma run_jacobian t h nx arm ts :
    order_ok h (c_nodes arm) -> chain_of h (c_nodes arm) arm -> Forall2 (local_at h) (c_nodes arm) ts ->
    exists cols h', run t (jacobian arm) (quiet h nx) = Done (Mat 6 cols) (quiet h' nx) /\
      length cols = c_dof arm /\
      Forall2 (col_at h (c_nodes arm) (tr (product iso1 ts))) (c_movable arm) cols.
  Proof.
    intros Ho (_ & Hm & Hd) Hts. unfold jacobian, end_transform. rewrite run_bind, (run_end_fold t h nx _ ts Hts iso1).
    cbn [obind]. destruct (run_update_transforms t h nx arm Ho) as (ws & h' & Hu & _ & Hf).
    rewrite run_bind, Hu. cbn [obind]. set (p_n := tr (product iso1 ts)).
    set (g := fun j : joint T => default [] (w ← j_wt_cache j; jcol p_n w (j_type j))).
    assert (Hcol : forall a, a ∈ c_movable arm -> exists n w col, h !! a = Some n /\ based h (c_nodes arm) a w /\
      h' !! a = Some (put_wt n w) /\ jcol p_n w (j_type (n_joint n)) = Some col /\
      jacobian_column p_n w (j_type (n_joint n)) = Ret col).
    { intros a Ha. rewrite Hm in Ha. apply elem_of_list_In, filter_In in Ha as [Ha Hmv]. apply elem_of_list_In in Ha.
      destruct (proj1 Hf a Ha) as (n & w & Hn & Hb & Hn'). exists n, w. unfold node_movable in Hmv. rewrite Hn in Hmv.
      destruct (j_type (n_joint n)); [discriminate| |]; eexists; (split; [exact Hn|split; [exact Hb|split; [exact Hn'|split; reflexivity]]]). }
    destruct (run_iter_joints t h' nx arm (fun j =>
      t_i <- expect (j_wt_cache j) "called `Option::unwrap()` on a `None` value" ;; jacobian_column p_n t_i (j_type j)) g)
      as (cols & Hr & Hl).
    { intros a Ha. destruct (Hcol a Ha) as (n & w & col & Hn & Hb & Hn' & Hj & Hc). exists (put_wt n w). split; [exact Hn'|].
      intros s. unfold g. cbn. rewrite Hc, Hj. reflexivity. }
    rewrite run_bind, Hr. cbn [obind].
    assert (Hlen : length cols = length (c_movable arm)).
    { apply (f_equal length) in Hl. rewrite !map_length in Hl. exact Hl. }
    unfold dof. rewrite Hd, <- Hm, <- Hlen. rewrite decide_True by lia. rewrite take_ge by lia.
    exists cols, h'. split; [reflexivity|]. split; [reflexivity|].
    apply Forall2_same_length_lookup_2; [auto|]. intros i a col Ha Hi.
    destruct (Hcol a) as (n & w & col' & Hn & Hb & Hn' & Hj & Hc); [eapply elem_of_list_lookup_2; eauto|].
    exists n, w. split; [exact Hn|]. split; [exact Hb|]. rewrite Hj. f_equal.
    assert (E : map Some cols !! i = map (fun a => g <$> joint_at h' a) (c_movable arm) !! i) by (rewrite Hl; reflexivity).
    rewrite <- !list_fmap_map in E || idtac.
    change (map Some cols) with (Some <$> cols) in E.
    change (map (fun a => g <$> joint_at h' a) (c_movable arm)) with ((fun a => g <$> joint_at h' a) <$> c_movable arm) in E.
    rewrite !list_lookup_fmap, Ha, Hi in E. cbn in E. unfold joint_at in E. rewrite Hn' in E. cbn in E.
    unfold g in E. cbn in E. rewrite Hj in E. cbn in E. congruence.
  Qed.

  (** along a serial chain from a root the transforms are the partial products *)
  Lemma path_suffix h e l : path_up h e l -> forall l1 a l2, l = l1 ++ a :: l2 -> path_up h a (a :: l2).
  Proof.
    induction 1 as [a Ha|a p l Hp Hl IH]; intros l1 b l2 E.
    - destruct l1 as [|x l1]; [injection E as <- <-; constructor; assumption|destruct l1; discriminate].
    - destruct l1 as [|x l1]; [injection E as <- <-; econstructor; eauto|]. injection E as <- E. eapply IH; eauto.
  Qed.
  Lemma partial_product h e l ts1 t ts2 l1 a l2 w :
    path_up h e l -> rev l = l1 ++ a :: l2 -> Forall2 (local_at h) l1 ts1 -> local_at h a t -> Forall2 (local_at h) l2 ts2 ->
    world h a w -> w = iso_mul (product iso1 ts1) t.
  Proof.
    intros Hp E H1 Ha H2 Hw. eapply world_fun; [exact Hw|].
    assert (El : l = rev l2 ++ a :: rev l1).
    { rewrite <- (rev_involutive l), E, rev_app_distr. cbn. rewrite <- app_assoc. reflexivity. }
    exists (a :: rev l1), (ts1 ++ [t]). split; [eapply path_suffix; eauto|]. split.
    - cbn [rev]. rewrite rev_involutive. apply Forall2_app; [exact H1|repeat constructor; exact Ha].
    - rewrite product_app. reflexivity.
  Qed.
End JacProofs.
