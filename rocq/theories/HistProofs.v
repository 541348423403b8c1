(** * Histories of calls: proofs *)
From Coq Require Import String.
From stdpp Require Import gmap.
From Verif Require Import Scalar Geometry Joint Link Prog RunLemmas NodeM ChainM FuncsM IkM RangeProofs SpecJoint JointProofs
  SpecNode SpecGraph SpecChain ChainProofs Safe SafeSound SafeNode SafeChain Api ApiProofs ApiSound SpecHist.

Section HistProofs.
  Context {T : Type} `{Sc : Scalar T}.
  Implicit Types (h : gmap nat (node T)).

  (** ** modes without the lock discipline, over a whole heap *)
  Definition gone h (nx : nat) (w : nat) : Prop := w < nx /\ h !! w = None.
  Definition lax h nx (ex : nat -> node T -> Prop) (gu : nat -> node T -> node T -> Prop) (fr : node T -> Prop) : mode T :=
    Mode T false (gone h nx) ex gu fr.
  Definition everything h : gmap nat bool := (fun _ => false) <$> h.
  Lemma everything_shared h a : shared (everything h) a <-> is_Some (h !! a).
  Proof. unfold shared, everything. rewrite lookup_fmap. destruct (h !! a); cbn; split; intros [? ?]; try discriminate; eauto. Qed.
  Lemma lax_started h nx (ex : nat -> node T -> Prop) (gu : nat -> node T -> node T -> Prop) (fr : node T -> Prop) :
    heap_ok h nx -> (forall a n, h !! a = Some n -> ex a n) ->
    started (lax h nx ex gu fr) h nx (everything h).
  Proof.
    intros [K1 K2 K3 K4 K5] He.
    assert (Hw : forall w, w < nx -> ref_ok (lax h nx ex gu fr) (everything h) (Some w)).
    { intros w Hw. cbn. destruct (h !! w) as [n|] eqn:E; [left; apply everything_shared; eauto|right; split; assumption]. }
    split.
    - intros a Ha. apply everything_shared in Ha as [n Hn]. exists n. split; [assumption|]. split.
      + intros c Hc. apply everything_shared. eapply K2; eassumption.
      + intros c Hc. split; [apply everything_shared; eapply K3; eassumption|cbn; discriminate].
      + destruct (n_parent n) as [w|] eqn:E; [apply Hw; eapply K4; eassumption|exact I].
      + destruct (n_mimic_parent n) as [w|] eqn:E; [apply Hw; eapply K5; eassumption|exact I].
      + cbn. discriminate.
      + apply He. assumption.
    - intros w [H1 H2]. auto.
    - exact K1.
  Qed.

  Lemma run_done_poison {A} t (p : prog T A) : forall s x s', run t p s = Done x s' -> poison s' = poison s.
  Proof.
    induction p as [a|a k IH|a k IH|a k IH|a n k IH|n k IH|a k IH|m|]; intros s x s' H; cbn [run] in H;
      try discriminate.
    - injection H as _ <-. reflexivity.
    - destruct (heap s !! a); [|discriminate]. destruct (locks s !! a); [discriminate|].
      destruct (decide _); [discriminate|]. apply IH in H. exact H.
    - destruct (decide _); [|discriminate]. apply IH in H. exact H.
    - destruct (decide _); [|discriminate]. destruct (heap s !! a); [|discriminate]. eapply IH; eauto.
    - destruct (decide _); [|discriminate]. apply IH in H. exact H.
    - apply IH in H. exact H.
    - apply IH in H. exact H.
  Qed.

  (** ** what the setters keep *)
  Definition keeps (n n' : node T) : Prop :=
    j_type (n_joint n') = j_type (n_joint n) /\ j_name (n_joint n') = j_name (n_joint n) /\
    j_limits (n_joint n') = j_limits (n_joint n).
  Lemma keeps_refl n : keeps n n.
  Proof. repeat split. Qed.
  Lemma keeps_trans n1 n2 n3 : keeps n1 n2 -> keeps n2 n3 -> keeps n1 n3.
  Proof. intros (A1 & A2 & A3) (B1 & B2 & B3). repeat split; congruence. Qed.
  Lemma joint_set_keeps (j : joint T) q :
    same_but_position j (fst (joint_set j q)).
  Proof.
    destruct (joint_set_cases j q) as [[_ E]|[[_ E]|[_ (r & _ & _ & E)]]]; rewrite E; cbn; repeat split.
  Qed.
  Lemma clamped_keeps (j : joint T) q : same_but_position j (joint_set_clamped j q).
  Proof. unfold joint_set_clamped. destruct (negb (is_movable j)); repeat split. Qed.

  Lemma set_inside (j : joint T) q : inside j -> inside (fst (joint_set j q)).
  Proof.
    intros Hj. destruct (joint_set_cases j q) as [[[_ Ha] E]|[[_ E]|[_ (r & _ & _ & E)]]]; rewrite E; cbn; try assumption.
    intros _ r Hr. apply Ha. exact Hr.
  Qed.
  Lemma inside_eq (j j' : joint T) :
    j_type j' = j_type j -> j_limits j' = j_limits j -> j_position j' = j_position j -> inside j -> inside j'.
  Proof. unfold inside, movable, within_limits. intros -> -> ->. auto. Qed.
  Lemma wf_eq (j j' : joint T) : j_limits j' = j_limits j -> limits_wf j -> limits_wf j'.
  Proof. unfold limits_wf. intros ->. auto. Qed.

  (** ** C05: every joint inside its limits *)
  Definition node_inside (n : node T) : Prop := limits_wf (n_joint n) /\ inside (n_joint n).
  Definition inside_mode h nx := lax h nx (fun _ n => node_inside n) (fun _ => keeps) node_inside.
  Lemma set_node_inside n q : node_inside n ->
    node_inside (set_n_joint n (fst (joint_set (n_joint n) q))) /\ keeps n (set_n_joint n (fst (joint_set (n_joint n) q))).
  Proof.
    intros [H1 H2]. destruct (joint_set_keeps (n_joint n) q) as (S1 & S2 & S3 & S4 & S5).
    split; [split; [apply (wf_eq (n_joint n)); assumption|apply set_inside; assumption]|repeat split; assumption].
  Qed.
  Lemma clamp_node_inside `{!OrdLaws T} n q : snum q -> node_inside n ->
    node_inside (set_n_joint n (joint_set_clamped (n_joint n) q)) /\ keeps n (set_n_joint n (joint_set_clamped (n_joint n) q)).
  Proof.
    intros Hq [H1 H2]. destruct (clamped_keeps (n_joint n) q) as (S1 & S2 & S3 & S4 & S5).
    split; [split; [apply (wf_eq (n_joint n)); assumption|apply set_clamped_inside; assumption]|repeat split; assumption].
  Qed.
  Lemma inside_permitted `{!OrdLaws T} h nx R (k : api T R) :
    checked_call_inside R k -> permitted (inside_mode h nx) k.
  Proof.
    intros [Hk Hn].
    assert (Cs : forall a, can_set (inside_mode h nx) a) by (intros a q n; apply set_node_inside).
    assert (Cc : forall a q, snum q -> can_clamp (inside_mode h nx) a q)
      by (intros a q Hq n; apply clamp_node_inside; assumption).
    assert (Csame : forall a (F : node T -> node T),
      (forall n, j_type (n_joint (F n)) = j_type (n_joint n) /\ j_name (n_joint (F n)) = j_name (n_joint n) /\
                 j_limits (n_joint (F n)) = j_limits (n_joint n) /\ j_position (n_joint (F n)) = j_position (n_joint n)) ->
      can (inside_mode h nx) a F).
    { intros a F HF n [H1 H2]. destruct (HF n) as (E1 & E2 & E3 & E4). split; [split|].
      - apply (wf_eq (n_joint n)); assumption.
      - apply (inside_eq (n_joint n)); assumption.
      - repeat split; assumption. }
    assert (Csa : forall c, can_set_all (inside_mode h nx) c) by (split; intros; apply Cs).
    assert (Cwt : forall c, can_wt_all (inside_mode h nx) c) by (intros c a _ w; apply Csame; repeat split).
    destruct k; cbn [permitted checked_call] in *; try exact I; try reflexivity; try contradiction.
    - split; [intros ?|]; exact Hn.
    - split; [intros ?|]; apply Csame; repeat split.
    - split; [intros ?|]; apply Csame; repeat split.
    - intros ?. apply Csame. repeat split.
    - split; intros; apply Cs.
    - apply Cc. assumption.
    - split; [reflexivity|]. split; (split; [|split]; intros ?; apply Csame; repeat split).
    - intros ?. apply Csame. repeat split.
    - intros a _ ?. apply Csame. repeat split.
    - apply Csa.
    - intros a q _ Hq. apply Cc. auto.
    - apply Cwt.
    - split; [reflexivity|]. split; [apply Cwt|]. intros a _ ?. apply Csame. repeat split.
    - split; [apply Cwt|]. intros a _ ?. apply Csame. repeat split.
    - intros a b n n' He Hj. cbn. unfold node_inside in *. rewrite Hj. auto.
    - apply Cwt.
    - apply Cwt.
    - split; [apply Cwt|]. split; [apply Csa|]. intros. apply Cc. auto.
    - split; [apply Cwt|]. split; [apply Csa|]. intros. apply Cc. auto.
  Qed.
  Theorem checked_history `{!OrdLaws T} {A} t h nx (cl : client T A) (hs : A -> list nat) :
    heap_ok h nx ->
    (forall a n, h !! a = Some n -> limits_wf (n_joint n) /\ inside (n_joint n)) ->
    obeys checked_call_inside hs (alive h) cl ->
    forall s, final_state (run t (denote cl) (quiet h nx)) = Some s ->
    (forall a, alive h a -> exists n, heap s !! a = Some n /\ limits_wf (n_joint n) /\ inside (n_joint n)) /\
    (forall x, run t (denote cl) (quiet h nx) = Done x s -> forall a, a ∈ hs x ->
       exists n, heap s !! a = Some n /\ limits_wf (n_joint n) /\ inside (n_joint n)).
  Proof.
    intros Hok Hin Ho.
    pose proof (client_run (inside_mode h nx) h nx (everything h) (fun _ => keeps_refl) (fun _ => keeps_trans)
      checked_call_inside hs (alive h) cl t ∅ (lax_started _ _ _ _ _ Hok Hin) (inside_permitted h nx) Ho) as H.
    specialize (H (fun a Ha => proj2 (everything_shared h a) Ha)). fold (quiet h nx) in H.
    assert (G : forall GP s, gcons (inside_mode h nx) h nx (everything h) GP s -> forall a, shared GP a ->
      exists n, heap s !! a = Some n /\ limits_wf (n_joint n) /\ inside (n_joint n)).
    { intros GP s HG a Ha. destruct (gc_live _ _ _ _ _ _ HG a Ha) as (n & n0 & Hn & Hnok & _).
      exists n. split; [assumption|]. apply (ok_extra _ _ _ _ Hnok). }
    assert (G0 : forall GP s, gcons (inside_mode h nx) h nx (everything h) GP s -> forall a, alive h a ->
      exists n, heap s !! a = Some n /\ limits_wf (n_joint n) /\ inside (n_joint n)).
    { intros GP s HG a Ha. apply (G GP s HG). eapply shared_mono; [exact (gc_pub0 _ _ _ _ _ _ HG)|].
      apply everything_shared. assumption. }
    intros s Hs. destruct (run t (denote cl) (quiet h nx)) as [x s'|msg s'|a s'|s'|]; cbn in Hs; [| | | |discriminate];
      injection Hs as ->.
    - destruct H as (_ & GP & HG & Hh). split; [eauto|]. intros y Hy. injection Hy as <-. intros a Ha. eauto.
    - destruct H as (_ & GP & HG). split; [eauto|discriminate].
    - destruct H as (_ & GP & HG). split; [eauto|discriminate].
    - destruct H as (GP & HG). split; [eauto|discriminate].
  Qed.

  (** ** C05/C41: one joint at a time *)
  Definition stays (n n' : node T) : Prop := keeps n n' /\ (node_inside n -> node_inside n').
  Lemma stays_refl n : stays n n.
  Proof. split; [apply keeps_refl|auto]. Qed.
  Lemma stays_trans n1 n2 n3 : stays n1 n2 -> stays n2 n3 -> stays n1 n3.
  Proof. intros [A1 A2] [B1 B2]. split; [eapply keeps_trans; eauto|auto]. Qed.
  Definition stays_mode h nx := lax h nx (fun _ _ => True) (fun _ => stays) (fun _ => True).
  Lemma stays_permitted `{!OrdLaws T} h nx R (k : api T R) :
    checked_call R k -> permitted (stays_mode h nx) k.
  Proof.
    intros Hk.
    assert (Cs : forall a, can_set (stays_mode h nx) a).
    { intros a q n _. split; [exact I|]. split; [|intros Hn; apply set_node_inside; assumption].
      destruct (joint_set_keeps (n_joint n) q) as (S1 & S2 & S3 & S4 & S5). repeat split; assumption. }
    assert (Cc : forall a q, snum q -> can_clamp (stays_mode h nx) a q).
    { intros a q Hq n _. split; [exact I|]. split; [|intros Hn; apply clamp_node_inside; assumption].
      destruct (clamped_keeps (n_joint n) q) as (S1 & S2 & S3 & S4 & S5). repeat split; assumption. }
    assert (Csame : forall a (F : node T -> node T),
      (forall n, j_type (n_joint (F n)) = j_type (n_joint n) /\ j_name (n_joint (F n)) = j_name (n_joint n) /\
                 j_limits (n_joint (F n)) = j_limits (n_joint n) /\ j_position (n_joint (F n)) = j_position (n_joint n)) ->
      can (stays_mode h nx) a F).
    { intros a F HF n _. destruct (HF n) as (E1 & E2 & E3 & E4). split; [exact I|]. split; [repeat split; assumption|].
      intros [H1 H2]. split.
      - apply (wf_eq (n_joint n)); assumption.
      - apply (inside_eq (n_joint n)); assumption. }
    assert (Csa : forall c, can_set_all (stays_mode h nx) c) by (split; intros; apply Cs).
    assert (Cwt : forall c, can_wt_all (stays_mode h nx) c) by (intros c a _ w; apply Csame; repeat split).
    destruct k; cbn [permitted checked_call] in *; try exact I; try reflexivity; try contradiction.
    - split; [intros ?|]; exact I.
    - split; [intros ?|]; apply Csame; repeat split.
    - split; [intros ?|]; apply Csame; repeat split.
    - intros ?. apply Csame. repeat split.
    - split; intros; apply Cs.
    - apply Cc. assumption.
    - split; [reflexivity|]. split; (split; [|split]; intros ?; apply Csame; repeat split).
    - intros ?. apply Csame. repeat split.
    - intros a _ ?. apply Csame. repeat split.
    - apply Csa.
    - intros a q _ Hq. apply Cc. auto.
    - apply Cwt.
    - split; [reflexivity|]. split; [apply Cwt|]. intros a _ ?. apply Csame. repeat split.
    - split; [apply Cwt|]. intros a _ ?. apply Csame. repeat split.
    - intros a b n n' He Hj. split; exact I.
    - apply Cwt.
    - apply Cwt.
    - split; [apply Cwt|]. split; [apply Csa|]. intros. apply Cc. auto.
    - split; [apply Cwt|]. split; [apply Csa|]. intros. apply Cc. auto.
  Qed.
  Theorem checked_history_one `{!OrdLaws T} {A} t h nx (cl : client T A) :
    heap_ok h nx -> obeys checked_call (fun _ => []) (alive h) cl ->
    forall s, final_state (run t (denote cl) (quiet h nx)) = Some s ->
    forall a n, h !! a = Some n -> limits_wf (n_joint n) -> inside (n_joint n) ->
    exists n', heap s !! a = Some n' /\ inside (n_joint n') /\ j_limits (n_joint n') = j_limits (n_joint n).
  Proof.
    intros Hok Ho.
    pose proof (client_run (stays_mode h nx) h nx (everything h) (fun _ => stays_refl) (fun _ => stays_trans)
      checked_call (fun _ => []) (alive h) cl t ∅ (lax_started _ _ _ _ _ Hok (fun _ _ _ => I)) (stays_permitted h nx) Ho) as H.
    specialize (H (fun a Ha => proj2 (everything_shared h a) Ha)). fold (quiet h nx) in H.
    intros s Hs a n Ha Hw Hi.
    assert (exists GP, gcons (stays_mode h nx) h nx (everything h) GP s) as [GP HG].
    { destruct (run t (denote cl) (quiet h nx)) as [x s'|msg s'|b s'|s'|]; cbn in Hs; [| | | |discriminate];
        injection Hs as ->; naive_solver. }
    assert (Hsh : shared GP a).
    { eapply shared_mono; [exact (gc_pub0 _ _ _ _ _ _ HG)|]. apply everything_shared. eauto. }
    destruct (gc_live _ _ _ _ _ _ HG a Hsh) as (n' & n0 & Hn & _ & [[_ Ho']|[Ho' _]] & [Hk Hg]).
    - rewrite Ha in Ho'. injection Ho' as <-. exists n'. split; [assumption|].
      split; [apply Hg; split; assumption|apply Hk].
    - pose proof (hk_bound _ _ Hok a (mk_is_Some _ _ Ha)). lia.
  Qed.
  Theorem checked_threads `{!OrdLaws T} {A} h nx po (cls : list (client T A)) c :
    heap_ok h nx -> (forall cl, cl ∈ cls -> obeys checked_call (fun _ => []) (alive h) cl) ->
    tsteps (spawn cls, Sh h nx ∅ po) c ->
    (forall a n, h !! a = Some n -> limits_wf (n_joint n) -> inside (n_joint n) ->
       exists n', heap c.2 !! a = Some n' /\ inside (n_joint n') /\ j_limits (n_joint n') = j_limits (n_joint n)) /\
    (forall t a k, c.1 !! t = Some (Running (Get a k)) -> locks c.2 !! a = Some t /\ is_Some (heap c.2 !! a)) /\
    (forall t a n k, c.1 !! t = Some (Running (Put a n k)) -> locks c.2 !! a = Some t).
  Proof.
    intros Hok Ho Hst.
    destruct (client_pool (stays_mode h nx) h nx (everything h) (fun _ => stays_refl) (fun _ => stays_trans)
      checked_call (alive h) cls po c (lax_started _ _ _ _ _ Hok (fun _ _ _ => I)) (stays_permitted h nx) Ho
      (fun a Ha => proj2 (everything_shared h a) Ha) Hst) as (GP & g & HP).
    pose proof (po_g _ _ _ _ _ _ _ _ _ HP) as HG.
    split; [|split].
    - intros a n Ha Hw Hi.
      assert (Hsh : shared GP a).
      { eapply shared_mono; [exact (gc_pub0 _ _ _ _ _ _ HG)|]. apply everything_shared. eauto. }
      destruct (gc_live _ _ _ _ _ _ HG a Hsh) as (n' & n0 & Hn & _ & [[_ Ho']|[Ho' _]] & [Hk Hg]).
      + rewrite Ha in Ho'. injection Ho' as <-. exists n'. split; [assumption|].
        split; [apply Hg; split; assumption|apply Hk].
      + pose proof (hk_bound _ _ Hok a (mk_is_Some _ _ Ha)). lia.
    - intros t a k Ht. pose proof (pool_not_stuck (stays_mode h nx) _ _ _ (fun _ => stays_refl) (fun _ => stays_trans) _ _ _ _ _ _ _ HP Ht) as Hns. cbn in Hns.
      destruct (decide _) as [E|E]; [|contradiction]. split; [assumption|]. destruct (heap c.2 !! a); [eauto|contradiction].
    - intros t a n k Ht. pose proof (pool_not_stuck (stays_mode h nx) _ _ _ (fun _ => stays_refl) (fun _ => stays_trans) _ _ _ _ _ _ _ HP Ht) as Hns. cbn in Hns.
      destruct (decide _) as [E|E]; [assumption|contradiction].
  Qed.

  (** ** C14: types are immutable *)
  Definition types_mode h nx := lax h nx (fun _ _ => True) (fun _ => keeps) (fun _ => True).
  Lemma types_permitted h nx R (k : api T R) : permitted (types_mode h nx) k.
  Proof.
    assert (Cs : forall a, can_set (types_mode h nx) a).
    { intros a q n _. split; [exact I|].
      destruct (joint_set_keeps (n_joint n) q) as (S1 & S2 & S3 & S4 & S5). repeat split; assumption. }
    assert (Cc : forall a q, can_clamp (types_mode h nx) a q).
    { intros a q n _. split; [exact I|].
      destruct (clamped_keeps (n_joint n) q) as (S1 & S2 & S3 & S4 & S5). repeat split; assumption. }
    assert (Csame : forall a (F : node T -> node T), (forall n, keeps n (F n)) -> can (types_mode h nx) a F)
      by (intros a F HF n _; split; [exact I|apply HF]).
    assert (Csa : forall c, can_set_all (types_mode h nx) c) by (split; intros; apply Cs).
    assert (Cwt : forall c, can_wt_all (types_mode h nx) c) by (intros c a _ w; apply Csame; repeat split).
    destruct k; cbn [permitted] in *; try exact I; try reflexivity.
    - split; [intros ?|]; exact I.
    - split; [intros ?|]; apply Csame; repeat split.
    - split; [intros ?|]; apply Csame; repeat split.
    - intros ?. apply Csame. repeat split.
    - split; intros; apply Cs.
    - apply Cc.
    - apply Csame. repeat split.
    - split; [reflexivity|]. split; (split; [|split]; intros ?; apply Csame; repeat split).
    - intros ?. apply Csame. repeat split.
    - intros a _ ?. apply Csame. repeat split.
    - apply Csa.
    - intros a q _ Hq. apply Cc.
    - intros a q _ Hq. apply Csame. repeat split.
    - apply Cwt.
    - split; [reflexivity|]. split; [apply Cwt|]. intros a _ ?. apply Csame. repeat split.
    - split; [apply Cwt|]. intros a _ ?. apply Csame. repeat split.
    - intros a b n n' He Hj. split; exact I.
    - apply Cwt.
    - apply Cwt.
    - split; [apply Cwt|]. split; [apply Csa|]. intros. apply Cc.
    - split; [apply Cwt|]. split; [apply Csa|]. intros. apply Cc.
  Qed.
  Theorem history_keeps {A} t h nx po (cl : client T A) :
    heap_ok h nx -> obeys any_call (fun _ => []) (alive h) cl ->
    run t (denote cl) (Sh h nx ∅ po) <> Stuck /\
    forall s, final_state (run t (denote cl) (Sh h nx ∅ po)) = Some s ->
    forall a n, h !! a = Some n -> exists n', heap s !! a = Some n' /\
      j_type (n_joint n') = j_type (n_joint n) /\ j_name (n_joint n') = j_name (n_joint n) /\
      j_limits (n_joint n') = j_limits (n_joint n).
  Proof.
    intros Hok Ho.
    pose proof (client_run (types_mode h nx) h nx (everything h) (fun _ => keeps_refl) (fun _ => keeps_trans)
      any_call (fun _ => []) (alive h) cl t po (lax_started _ _ _ _ _ Hok (fun _ _ _ => I))
      (fun R k _ => types_permitted h nx R k) Ho) as H.
    specialize (H (fun a Ha => proj2 (everything_shared h a) Ha)).
    split; [destruct (run t (denote cl) (Sh h nx ∅ po)); congruence|].
    intros s Hs a n Ha.
    assert (exists GP, gcons (types_mode h nx) h nx (everything h) GP s) as [GP HG].
    { destruct (run t (denote cl) (Sh h nx ∅ po)) as [x s'|msg s'|b s'|s'|]; cbn in Hs; [| | | |discriminate];
        injection Hs as ->; naive_solver. }
    assert (Hsh : shared GP a).
    { eapply shared_mono; [exact (gc_pub0 _ _ _ _ _ _ HG)|]. apply everything_shared. eauto. }
    destruct (gc_live _ _ _ _ _ _ HG a Hsh) as (n' & n0 & Hn & _ & [[_ Ho']|[Ho' _]] & Hk).
    - rewrite Ha in Ho'. injection Ho' as <-. exists n'. split; [assumption|]. apply Hk.
    - pose proof (hk_bound _ _ Hok a (mk_is_Some _ _ Ha)). lia.
  Qed.
  Theorem history_positions {A} t h nx (cl : client T A) l c :
    heap_ok h nx -> chain_of h l c -> obeys any_call (fun _ => []) (alive h) cl ->
    forall x s, run t (denote cl) (quiet h nx) = Done x s ->
    exists ps, run t (joint_positions c) s = Done ps s /\ length ps = c_dof c /\
      map Some ps = map (position_at (heap s)) (c_movable c).
  Proof.
    intros Hok Hc Ho x s Hs. destruct (history_keeps t h nx ∅ cl Hok Ho) as [_ Hk]. fold (quiet h nx) in Hk.
    rewrite Hs in Hk. specialize (Hk s eq_refl).
    assert (Hq : s = quiet (heap s) (nxt s)).
    { assert (Hl : locks s = ∅).
      { pose proof (client_run (types_mode h nx) h nx (everything h) (fun _ => keeps_refl) (fun _ => keeps_trans)
          any_call (fun _ => []) (alive h) cl t ∅ (lax_started _ _ _ _ _ Hok (fun _ _ _ => I))
          (fun R k _ => types_permitted h nx R k) Ho (fun a Ha => proj2 (everything_shared h a) Ha)) as H.
        fold (quiet h nx) in H. rewrite Hs in H. apply H. }
      pose proof (run_done_poison _ _ _ _ _ Hs) as Hp. cbn in Hp. destruct s as [hh nn ll pp]. cbn in *. subst. reflexivity. }
    rewrite Hq. apply (run_joint_positions t h (heap s) (nxt s) c l Hc).
    intros a n Ha. destruct (Hk a n Ha) as (n' & H1 & H2 & _). exists n'. auto.
  Qed.
End HistProofs.
