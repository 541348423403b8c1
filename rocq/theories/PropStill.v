(** * C39: update_velocities where it does return *)
From Coq Require Import String ZArith Floats.SpecFloat.
From stdpp Require Import gmap.
From Verif Require Import Scalar ScalarF Geometry Joint Link Prog NodeM ChainM RunLemmas SpecJoint SpecNode SpecGraph GraphProofs LinkProofs
  SpecChain ChainProofs SpecFK FKProofs VelocityProofs Ex.

Section Still.
  Context {T : Type} `{Sc : Scalar T}.
  Implicit Types (h : gmap nat (node T)).
  (** no movement at all *)
  Definition at_rest (v : velocity T) : Prop := v = Velocity (V3 szero szero szero) (V3 szero szero szero).

  Lemma update_velocity_rest t h h' nx x l done rest :
    same_types h h' -> same_parents h h' -> parents_first h (done ++ x :: rest) -> is_Some (h !! x) ->
    (forall n, h !! x = Some n -> j_type (n_joint n) = Fixed) -> l = done ++ x :: rest ->
    (forall b, b ∈ l -> exists w, wt_of h' b (Some w)) -> (forall b, b ∈ done -> wv_of h' b (Some velocity_zero)) ->
    exists n', h' !! x = Some n' /\ run t (update_velocity x) (quiet h' nx) = Done velocity_zero (quiet (<[x := put_wv n' velocity_zero]> h') nx).
  Proof.
    intros Hty Hsp Hpf [n Hn] Hf E Hwt Hwv. pose proof (Hty x) as Htx. rewrite Hn in Htx. destruct (h' !! x) as [n'|] eqn:Hn'; [|discriminate]. cbn in Htx. injection Htx as Htx.
    exists n'. split; [reflexivity|].
    assert (Hp : exists ptf, run t (parent_world_transform x) (quiet h' nx) = Done (Some ptf) (quiet h' nx) /\
      run t (parent_world_velocity x) (quiet h' nx) = Done (Some velocity_zero) (quiet h' nx)).
    { destruct (n_parent_live h' n') as [(p & Hp & Hlp)|Hno].
      - assert (Hlive : live_parent h' x p) by (split; [exists n'; auto|assumption]).
        assert (Hin : p ∈ done).
        { eapply (Hpf done x rest); [reflexivity|]. eapply same_parents_lp; [apply same_parents_sym; exact Hsp|]. exact Hlive. }
        destruct (Hwt p ltac:(set_solver)) as [w Hw]. exists w. split; [apply run_parent_wt|apply run_parent_wv]; eauto.
      - assert (Hnp : no_parent h' x).
        { split; [eauto|]. intros p [(n0 & Hn0 & Hp) Hlp]. apply Hno. exists p. split; [congruence|assumption]. }
        exists iso1. split; [apply run_parent_wt|apply run_parent_wv]; eauto. }
    destruct Hp as (ptf & H1 & H2). destruct (run_update_velocity t h' nx x n' ptf velocity_zero Hn' H1 H2) as [[_ Hd]|[Hm _]]; [exact Hd|].
    exfalso. apply Hm. rewrite Htx. apply Hf. exact Hn.
  Qed.
End Still.

(** C39: on a chain of fixed joints in which parents come first, update_velocities returns,
    and every joint is at rest: both halves of the velocity are zero, in the answer and in
    [world_velocity()] *)
Theorem C39_fixed_at_rest {T} `{Scalar T} (t : nat) (h : gmap nat (node T)) nx c :
  all_live h (c_nodes c) -> parents_first h (c_nodes c) -> (forall a n, a ∈ c_nodes c -> h !! a = Some n -> j_type (n_joint n) = Fixed) ->
  exists vs h', run t (update_velocities c) (quiet h nx) = Done vs (quiet h' nx) /\ length vs = length (c_nodes c) /\ Forall at_rest vs /\
    forall a, a ∈ c_nodes c -> exists v, at_rest v /\ run t (node_world_velocity a) (quiet h' nx) = Done (Some v) (quiet h' nx).
Proof.
  intros Hl Hpf Hfix.
  destruct (update_transforms_lemma t h nx c Hl Hpf) as (ws & h1 & Hr & _ & Hc & Hout & _).
  unfold update_velocities. rewrite run_bind, Hr. cbn [obind]. clear Hr.
  assert (Hin : forall b, b ∈ c_nodes c -> exists n w, h !! b = Some n /\ h1 !! b = Some (put_wt n w)).
  { intros b Hb. apply elem_of_list_lookup in Hb as [i Hi].
    destruct (Forall2_lookup_l _ _ _ _ _ Hc Hi) as (w & _ & (n & n' & Hn & Hn' & Hw)).
    exists n, w. split; [assumption|]. rewrite Hn'. f_equal. apply put_wt_with. assumption. }
  assert (H1 : same_types h h1).
  { intros b. destruct (decide (b ∈ c_nodes c)) as [Hb|Hb]; [|rewrite Hout by assumption; reflexivity].
    destruct (Hin b Hb) as (n & w & Hn & Hn'). rewrite Hn, Hn'. reflexivity. }
  assert (H2 : same_parents h h1).
  { intros b. destruct (decide (b ∈ c_nodes c)) as [Hb|Hb]; [|rewrite Hout by assumption; reflexivity].
    destruct (Hin b Hb) as (n & w & Hn & Hn'). rewrite Hn, Hn'. reflexivity. }
  assert (H3 : forall b, b ∈ c_nodes c -> exists w, wt_of h1 b (Some w)).
  { intros b Hb. destruct (Hin b Hb) as (n & w & Hn & Hn'). exists w. eexists. split; [exact Hn'|reflexivity]. }
  clear Hin Hc Hout ws.
  assert (Hgo : forall l done h', c_nodes c = done ++ l -> same_types h h' -> same_parents h h' ->
    (forall b, b ∈ c_nodes c -> exists w, wt_of h' b (Some w)) -> (forall b, b ∈ done -> wv_of h' b (Some velocity_zero)) ->
    exists vs h2, run t (mapM update_velocity l) (quiet h' nx) = Done vs (quiet h2 nx) /\ length vs = length l /\ Forall at_rest vs /\
      forall b, b ∈ c_nodes c -> wv_of h2 b (Some velocity_zero)).
  { induction l as [|x l IH]; intros done h' E Hty Hsp Hwt Hwv.
    - exists [], h'. rewrite app_nil_r in E. rewrite E. repeat split; auto.
    - rewrite run_mapM_cons.
      destruct (update_velocity_rest t h h' nx x (c_nodes c) done l Hty Hsp) as (n' & Hn' & Hd); try assumption.
      { rewrite <- E. exact Hpf. }
      { apply Hl. rewrite E. set_solver. }
      { intros n Hn. apply (Hfix x); [rewrite E; set_solver|exact Hn]. }
      rewrite Hd. cbn [obind].
      destruct (IH (done ++ [x]) (<[x := put_wv n' velocity_zero]> h')) as (vs & h2 & Hs & Hlen & Hall & Hwv2).
      + rewrite <- app_assoc. exact E.
      + eapply same_types_trans; [exact Hty|]. eapply same_types_put; eauto.
      + intros b. destruct (decide (b = x)) as [->|Hne].
        * rewrite lookup_insert. pose proof (Hsp x) as Hx. rewrite Hn' in Hx. rewrite <- Hx. reflexivity.
        * rewrite lookup_insert_ne by done. apply Hsp.
      + intros b Hb. destruct (Hwt b Hb) as (w & m & Hm & Ew). exists w. destruct (decide (b = x)) as [->|Hne].
        * eexists. rewrite lookup_insert. split; [reflexivity|]. cbn. congruence.
        * eexists. rewrite lookup_insert_ne by done. eauto.
      + intros b Hb. destruct (decide (b = x)) as [->|Hne].
        * eexists. rewrite lookup_insert. split; reflexivity.
        * destruct (Hwv b) as (m & Hm & Ev); [set_solver|]. exists m. rewrite lookup_insert_ne by done. auto.
      + rewrite Hs. cbn [obind run]. eexists _, h2. split; [reflexivity|]. split; [cbn; congruence|]. split; [constructor; [reflexivity|assumption]|assumption]. }
  destruct (Hgo (c_nodes c) [] h1) as (vs & h2 & Hs & Hlen & Hall & Hwv); auto; [set_solver|].
  exists vs, h2. split; [exact Hs|]. split; [exact Hlen|]. split; [exact Hall|].
  intros a Ha. exists velocity_zero. split; [reflexivity|]. destruct (Hwv a Ha) as (m & Hm & Ev). unfold node_world_velocity, quiet.
  erewrite run_read by (eauto using lookup_empty). rewrite Ev. reflexivity.
Qed.
Print Assumptions C39_fixed_at_rest.

(** two fixed joints, one below the other *)
Definition bolted : gmap nat (node spec_float) :=
  <[0 := Node None [1] (Joint "base" Fixed (f 0) (f 0) None iso1 None None) None [] None None]>
  (<[1 := Node (Some 0) [] (Joint "plate" Fixed (f 0) (f 0) None iso1 None None) None [] None None]> ∅).
Example C39_fixed_case : all_live bolted [0; 1] /\ parents_first bolted [0; 1] /\ (forall a n, a ∈ [0; 1] -> bolted !! a = Some n -> j_type (n_joint n) = Fixed).
Proof.
  split; [|split].
  - intros a Ha. apply elem_of_cons in Ha as [->|Ha]; [eexists; reflexivity|]. apply elem_of_list_singleton in Ha as ->. eexists; reflexivity.
  - intros l1 a l2 p E [(n & Hn & Hp) _]. destruct l1 as [|b l1]; [injection E as <- <-; injection Hn as <-; discriminate Hp|].
    injection E as <- E. destruct l1 as [|b l1]; [|destruct l1; discriminate E]. injection E as <- <-. vm_compute in Hn. injection Hn as <-. injection Hp as <-. set_solver.
  - intros a n Ha Hn. apply elem_of_cons in Ha as [->|Ha]; [|apply elem_of_list_singleton in Ha as ->]; vm_compute in Hn; injection Hn as <-; reflexivity.
Qed.
