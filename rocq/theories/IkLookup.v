(** * Name lookup in the IK solver *)
From Coq Require Import String.
From stdpp Require Import gmap.
From Verif Require Import Scalar Geometry Joint Link Prog NodeM ChainM FuncsM IkM RunLemmas
  SpecJoint SpecNode SpecGraph SpecChain ChainProofs.

Section IkLookup.
  Context {T : Type} `{Sc : Scalar T}.
  Lemma run_position_first t (h : gmap nat (node T)) nx name l :
    all_live h l ->
    exists o, run t (positionM (fun a => read a (fun n : node T => String.eqb (j_name (n_joint n)) name)) l)
                (quiet h nx) = Done o (quiet h nx) /\
      match o with Some i => first_named h l name i | None => nowhere_named h l name end.
  Proof.
    intros Hl. destruct (run_position t h nx name l Hl) as (o & Hr & Ho). exists o. split; [assumption|].
    destruct o as [i|]; [|exact Ho]. destruct Ho as (l1 & a & l2 & -> & -> & Ha & Hb). exists a.
    split; [rewrite lookup_app_r, Nat.sub_diag by lia; reflexivity|]. split; [assumption|].
    intros j b Hj Hlj. apply Hb. rewrite lookup_app_l in Hlj by assumption.
    eapply elem_of_list_lookup_2; eauto.
  Qed.
  Lemma run_ignored_indices t (h : gmap nat (node T)) nx c names :
    all_live h (c_movable c) ->
    exists r, run t (ignored_indices c names) (quiet h nx) = Done r (quiet h nx) /\
      match r with
      | Ok idx => Forall2 (first_named h (c_movable c)) names idx
      | Err e => exists l1 nm l2, names = l1 ++ nm :: l2 /\ e = InvalidJointNameError nm /\
                   nowhere_named h (c_movable c) nm /\
                   forall nm', nm' ∈ l1 -> exists i, first_named h (c_movable c) nm' i
      end.
  Proof.
    intros Hl. induction names as [|nm names (r & Hr & IH)]; cbn [ignored_indices].
    - eexists. split; [reflexivity|]. constructor.
    - destruct (run_position_first t h nx nm _ Hl) as (o & Ho & Hs). rewrite run_bind, Ho. cbn [obind].
      destruct o as [i|].
      + rewrite run_bind, Hr. cbn [obind run]. eexists. split; [reflexivity|]. destruct r as [idx|e].
        * constructor; assumption.
        * destruct IH as (l1 & nm' & l2 & -> & -> & H1 & H2). exists (nm :: l1), nm', l2.
          repeat (split; [reflexivity || assumption|]). intros x Hx.
          apply elem_of_cons in Hx as [->|Hx]; eauto.
      + eexists. split; [reflexivity|]. exists [], nm, names. repeat (split; [reflexivity || assumption|]).
        intros x Hx. set_solver.
  Qed.
End IkLookup.
