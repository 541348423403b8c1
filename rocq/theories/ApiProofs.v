(** * Client programs in the logic of Safe.v *)
From Coq Require Import String.
From stdpp Require Import gmap.
From Verif Require Import Scalar Geometry Joint Link Prog NodeM ChainM FuncsM IkM Safe SafeSound SafeNode SafeChain Api.

Section ApiProofs.
  Context {T : Type} `{Sc : Scalar T}.

  Definition permitted (m : mode T) {R} (k : api T R) : Prop :=
    match k with
    | KNew j => (forall a, extra m a (fresh_node j)) /\ fresh_ok m (fresh_node j)
    | KSetParent a b => can_parent m a /\ can_add_child m b a
    | KRemoveParent a b => can_parent m a /\ can_drop_child m b a
    | KSetOrigin a _ => can_origin m a
    | KSetPosition a _ =>
        can_set m a /\ forall pub n d, node_ok m pub a n -> d ∈ n_mimic_children n -> can_set m d
    | KSetClamped a p => can_clamp m a p
    | KSetUnchecked a p => can_unchecked m a p
    | KSetMimicParent a b _ => strict m = false /\ can_mimic m a /\ can_mimic m b
    | KSetLink a _ => can_link m a
    | KChainSetOrigin c _ => forall a, head (c_nodes c) = Some a -> can_origin m a
    | KSetPositions c _ => can_set_all m c
    | KSetPositionsClamped c ps => forall a q, a ∈ c_movable c -> q ∈ ps -> can_clamp m a q
    | KSetPositionsUnchecked c ps => forall a q, a ∈ c_movable c -> q ∈ ps -> can_unchecked m a q
    | KUpdateTransforms c | KJacobian c | KCenterOfMass c => can_wt_all m c
    | KUpdateVelocities c => strict m = false /\ can_wt_all m c /\ forall a, a ∈ c_nodes c -> can_wv m a
    | KUpdateLinks c => can_wt_all m c /\ forall a, a ∈ c_nodes c -> can_link m a
    | KClone _ _ => can_clone m
    | KChainFmt _ _ => strict m = false
    | KSolve _ _ _ c _ | KSolveWith _ _ _ c _ _ => can_solve m c
    | _ => True
    end.

  Lemma handles_shared pub c : Forall (shared pub) (chain_handles c) <-> chain_shared pub c.
  Proof. unfold chain_handles, chain_shared. apply Forall_app. Qed.
  Lemma tri_handles m {A} pub (p : prog T A) (R : _ -> _ -> Prop) (hs : A -> list nat) :
    (forall pub' x, R pub' x -> Forall (shared pub') (hs x)) -> tri m pub p R ->
    tri m pub p (fun pub' x => Forall (shared pub') (hs x)).
  Proof. intros H. apply tri_mono. intros. apply H. assumption. Qed.
  Lemma tri_none m {A} pub (p : prog T A) (R : _ -> _ -> Prop) : tri m pub p R ->
    tri m pub p (fun pub' _ => Forall (shared pub') []).
  Proof. apply tri_mono. intros. constructor. Qed.
  Lemma opt_handles_shared pub o : opt_shared pub o -> Forall (shared pub) (opt_handles o).
  Proof. destruct o; cbn; [repeat constructor; assumption|constructor]. Qed.

  Lemma api_safe (m : mode T) {R} (k : api T R) pub :
    permitted m k -> Forall (shared pub) (args k) -> tri m pub (interp k) (fun pub' r => Forall (shared pub') (rets k r)).
  Proof.
    intros Hp Ha. destruct k; cbn [interp rets args permitted] in *;
      try (apply handles_shared in Ha);
      try match type of Ha with Forall (shared _) (?x :: _) =>
        let Hx := fresh "Hx" in assert (Hx : shared pub x) by (apply Forall_cons in Ha as [? _]; assumption) end;
      try match type of Ha with Forall (shared _) [_; ?y] =>
        let Hy := fresh "Hy" in assert (Hy : shared pub y)
          by (apply Forall_cons in Ha as [_ Ha]; apply Forall_cons in Ha as [? _]; assumption) end;
      try (apply (tri_handles m pub _ chain_shared chain_handles); [intros pub' x Hx'; apply handles_shared; exact Hx'|]);
      try (apply (tri_handles m pub _ opt_shared opt_handles); [intros pub' x Hx'; apply opt_handles_shared; exact Hx'|]);
      try (apply (tri_none m pub _ (fun _ _ => True)); first
        [ apply tri_any; assumption
        | apply tri_set_parent; tauto || apply tri_remove_parent; tauto ]).
    - destruct Hp as [He Hf]. eapply tri_mono; [|apply tri_new; [|exact Hf|reflexivity]].
      + cbn. intros. repeat constructor. assumption.
      + intros a pub' _ Hflag. split; cbn; try exact I.
        * intros c Hc. inversion Hc.
        * intros c Hc. inversion Hc.
        * intros _ E. congruence.
        * apply He.
    - apply tri_parent. assumption.
    - apply tri_children. assumption.
    - apply tri_ancestors. assumption.
    - apply tri_descendants. repeat constructor. assumption.
    - apply (tri_none m pub _ (fun _ _ => True)). apply tri_remove_parent; tauto.
    - apply (tri_none m pub _ (fun _ _ => True)). apply (tri_joint m pub a (fun n => joint_set_origin (n_joint n) o)); [assumption|]. apply Hp.
    - apply (tri_none m pub _ (fun _ _ => True)). destruct Hp as [Hp1 Hp2]. apply tri_set_joint_position; [assumption|exact Hp1|].
      intros. eapply Hp2; eassumption.
    - apply (tri_none m pub _ (fun _ _ => True)). apply (tri_joint m pub a (fun n => joint_set_clamped (n_joint n) p)); assumption.
    - apply (tri_none m pub _ (fun _ _ => True)). apply (tri_joint m pub a (fun n => joint_set_unchecked (n_joint n) p)); assumption.
    - apply tri_mimic_parent. assumption.
    - apply (tri_none m pub _ (fun _ _ => True)). apply tri_set_mimic_parent; tauto.
    - apply (tri_none m pub _ (fun _ _ => True)). apply (tri_link m pub a (fun _ => l)); assumption.
    - apply tri_from_nodes. assumption.
    - apply tri_from_root. assumption.
    - apply tri_from_end. assumption.
    - apply tri_from_end_to_root. assumption.
    - apply (tri_none m pub _ (fun _ _ => True)). apply tri_chain_set_origin; assumption.
    - apply (tri_none m pub _ (fun _ _ => True)). apply tri_chain_origin; assumption.
    - apply (tri_none m pub _ (fun _ _ => True)). apply tri_iter_joints; [assumption|]. intros j. left. eauto.
    - apply (tri_none m pub _ (fun _ _ => True)). apply tri_links_loop. apply Ha.
    - apply tri_find. assumption.
    - apply (tri_none m pub _ (fun _ _ => True)). apply tri_joint_positions. assumption.
    - apply (tri_none m pub _ (fun _ _ => True)). apply tri_set_joint_positions; assumption.
    - apply (tri_none m pub _ (fun _ _ => True)). apply tri_set_clamped; assumption.
    - apply (tri_none m pub _ (fun _ _ => True)). apply tri_set_unchecked; assumption.
    - apply (tri_none m pub _ (fun _ _ => True)). apply tri_update_transforms; assumption.
    - apply (tri_none m pub _ (fun _ _ => True)). destruct Hp as (H1 & H2 & H3). apply tri_update_velocities; assumption.
    - apply (tri_none m pub _ (fun _ _ => True)). destruct Hp as (H1 & H2). apply tri_update_links; assumption.
    - apply tri_clone; assumption.
    - apply (tri_none m pub _ (fun _ _ => True)). apply tri_chain_fmt; assumption.
    - eapply tri_handles; [|apply tri_try_new; exact Ha]. cbn. intros pub' [c'|] Hc; [apply handles_shared; assumption|constructor].
    - apply (tri_none m pub _ (fun _ _ => True)). apply tri_end_transform. assumption.
    - apply (tri_none m pub _ (fun _ _ => True)). apply tri_jacobian; assumption.
    - apply (tri_none m pub _ (fun _ _ => True)). apply tri_center_of_mass; assumption.
    - apply (tri_none m pub _ (fun _ _ => True)). apply tri_solve_with_constraints; assumption.
    - apply (tri_none m pub _ (fun _ _ => True)). apply tri_solve_with_constraints; assumption.
  Qed.

  Lemma client_tri (m : mode T) (P : forall R, api T R -> Prop) {A} (hs : A -> list nat) :
    (forall R (k : api T R), P R k -> permitted m k) ->
    forall (cl : client T A) K pub, obeys P hs K cl -> (forall a, K a -> shared pub a) ->
    tri m pub (denote cl) (fun pub' x => Forall (shared pub') (hs x)).
  Proof.
    intros HP cl. induction cl as [x|R k next IH]; intros K pub Ho HK; cbn [denote obeys] in *.
    - apply tri_ret. apply Forall_forall. auto.
    - destruct Ho as (H1 & H2 & H3). eapply tri_bind.
      + apply api_safe; [apply HP; exact H1|]. apply Forall_forall. auto.
      + intros pub' r Hs Hr. eapply (IH r); [apply H3|]. cbn. intros a [Ha|Ha].
        * eapply shared_mono; eauto.
        * exact (proj1 (Forall_forall _ _) Hr a Ha).
  Qed.
End ApiProofs.
