(** * Frame of the solver, lock discipline, deadlock freedom: proofs *)
From Coq Require Import String.
From stdpp Require Import gmap.
From Verif Require Import Scalar Geometry Joint Link Prog RunLemmas NodeM ChainM FuncsM IkM RangeProofs SpecJoint JointProofs
  SpecNode SpecGraph SpecChain ChainProofs Safe SafeSound SafeNode SafeChain Api ApiProofs ApiSound SpecHist HistProofs.

Section FrameProofs.
  Context {T : Type} `{Sc : Scalar T}.
  Implicit Types (h : gmap nat (node T)).

  (** ** C33 *)
  Definition follower h (c : chain) (d : nat) : Prop :=
    exists a n, a ∈ c_movable c /\ h !! a = Some n /\ d ∈ n_mimic_children n.
  Definition arm_step h (c : chain) (a : nat) (n n' : node T) : Prop :=
    node_same_but_joint n n' /\ same_but_position (n_joint n) (n_joint n') /\
    (a ∉ c_movable c -> ~ follower h c a -> j_position (n_joint n') = j_position (n_joint n)) /\
    (a ∉ c_nodes c -> a ∉ c_movable c -> ~ follower h c a -> n' = n).
  Lemma arm_step_refl h c a n : arm_step h c a n n.
  Proof. repeat split. Qed.
  Lemma arm_step_trans h c a n1 n2 n3 : arm_step h c a n1 n2 -> arm_step h c a n2 n3 -> arm_step h c a n1 n3.
  Proof.
    unfold arm_step, node_same_but_joint, same_but_position. intros (A1 & A2 & A3 & A4) (B1 & B2 & B3 & B4).
    destruct_and!. split; [repeat split; congruence|]. split; [repeat split; congruence|]. split.
    - intros X1 X2. rewrite B3, A3; auto.
    - intros X1 X2 X3. rewrite B4, A4; auto.
  Qed.
  Definition solve_mode h nx c := lax h nx
    (fun a n => exists n0, h !! a = Some n0 /\ n_mimic_children n = n_mimic_children n0) (arm_step h c) (fun _ => False).
  Lemma can_solve_mode h nx c : can_solve (solve_mode h nx c) c.
  Proof.
    assert (Hset : forall a, (a ∈ c_movable c \/ follower h c a) -> forall j',
      forall n, (exists n0, h !! a = Some n0 /\ n_mimic_children n = n_mimic_children n0) -> same_but_position (n_joint n) (j' n) ->
      extra (solve_mode h nx c) a (set_n_joint n (j' n)) /\ gua (solve_mode h nx c) a n (set_n_joint n (j' n))).
    { intros a Ha j' n He Hj. split; [exact He|]. split; [repeat split|]. split; [exact Hj|].
      split; intros; destruct Ha; contradiction. }
    split; [|split; [split|]].
    - intros a Ha w n He. split; [exact He|]. repeat split. intros. contradiction.
    - intros a Ha q n He. apply (Hset a (or_introl Ha) (fun n => fst (joint_set (n_joint n) q))); [exact He|apply joint_set_keeps].
    - intros a Ha pub n d Hok Hd q n' He.
      destruct (ok_extra _ _ _ _ Hok) as (n0 & Hn0 & Em). rewrite Em in Hd.
      apply (Hset d (or_intror (ex_intro _ a (ex_intro _ n0 (conj Ha (conj Hn0 Hd))))) (fun n => fst (joint_set (n_joint n) q)));
        [exact He|apply joint_set_keeps].
    - intros a q Ha n He. apply (Hset a (or_introl Ha) (fun n => joint_set_clamped (n_joint n) q)); [exact He|apply clamped_keeps].
  Qed.
  Theorem solver_frame t ovf la s h nx c target cs :
    heap_ok h nx -> all_live h (c_nodes c) -> all_live h (c_movable c) ->
    forall s', final_state (run t (solve_with_constraints ovf la s c target cs) (quiet h nx)) = Some s' ->
    forall a n, h !! a = Some n -> exists n', heap s' !! a = Some n' /\ arm_step h c a n n'.
  Proof.
    intros Hok Hl1 Hl2.
    assert (Hst : started (solve_mode h nx c) h nx (everything h)) by (apply lax_started; [assumption|eauto]).
    assert (Hc : chain_shared (everything h) c).
    { split; apply Forall_forall; intros a Ha; apply everything_shared; auto. }
    pose proof (tri_run (solve_mode h nx c) h nx (everything h) (arm_step_refl h c) (arm_step_trans h c) _ _ t ∅ Hst
      (tri_solve_with_constraints (solve_mode h nx c) ovf la s (everything h) c target cs Hc (can_solve_mode h nx c))) as H.
    fold (quiet h nx) in H. intros s' Hs a n Ha.
    assert (exists GP, gcons (solve_mode h nx c) h nx (everything h) GP s') as [GP HG].
    { destruct (run t _ (quiet h nx)) as [x s0|msg s0|b s0|s0|]; cbn in Hs; [| | | |discriminate];
        injection Hs as ->; naive_solver. }
    assert (Hsh : shared GP a).
    { eapply shared_mono; [exact (gc_pub0 _ _ _ _ _ _ HG)|]. apply everything_shared. eauto. }
    destruct (gc_live _ _ _ _ _ _ HG a Hsh) as (n' & n0 & Hn & _ & [[_ Ho']|[_ []]] & Hk).
    rewrite Ha in Ho'. injection Ho' as <-. eauto.
  Qed.

  (** ** C39, C40: the lock discipline *)
  Definition disc (dd : nat -> Prop) : mode T := Mode T true dd (fun _ _ => True) (fun _ _ _ => True) (fun _ => True).
  Lemma disc_can dd a F : can (disc dd) a F.
  Proof. split; exact I. Qed.
  Lemma disc_permitted dd R (k : api T R) : parallel_call R k -> permitted (disc dd) k.
  Proof.
    intros Hk.
    assert (Csa : forall c, can_set_all (disc dd) c) by (split; intros; intros ?; apply disc_can).
    assert (Cwt : forall c, can_wt_all (disc dd) c) by (intros c a _ w; apply disc_can).
    destruct k; cbn [permitted parallel_call] in *; try exact I; try contradiction.
    - split; [intros ?|]; exact I.
    - split; [intros ?|]; apply disc_can.
    - split; [intros ?|]; apply disc_can.
    - intros ?. apply disc_can.
    - split; intros; intros ?; apply disc_can.
    - apply disc_can.
    - apply disc_can.
    - intros ?. apply disc_can.
    - intros a _ ?. apply disc_can.
    - apply Csa.
    - intros a q _ Hq. apply disc_can.
    - intros a q _ Hq. apply disc_can.
    - apply Cwt.
    - split; [apply Cwt|]. intros a _ ?. apply disc_can.
    - intros a b n n' He Hj. split; exact I.
    - apply Cwt.
    - apply Cwt.
    - split; [apply Cwt|]. split; [apply Csa|]. intros. apply disc_can.
    - split; [apply Cwt|]. split; [apply Csa|]. intros. apply disc_can.
  Qed.

  (** flags: who is a mimic child *)
  Definition flag (n : node T) : bool :=
    match n_mimic_parent n, n_mimic n with Some _, Some _ => true | _, _ => false end.
  Definition flags h : gmap nat bool := flag <$> h.
  Lemma flags_shared h a : shared (flags h) a <-> is_Some (h !! a).
  Proof. unfold shared, flags. rewrite lookup_fmap. destruct (h !! a); cbn; split; intros [? ?]; try discriminate; eauto. Qed.
  Lemma disc_started h nx : heap_ok h nx -> mimic_wf h -> started (disc (gone h nx)) h nx (flags h).
  Proof.
    intros [K1 K2 K3 K4 K5] Hm.
    assert (Hw : forall w, w < nx -> ref_ok (disc (gone h nx)) (flags h) (Some w)).
    { intros w Hw. cbn. destruct (h !! w) as [n|] eqn:E; [left; apply flags_shared; eauto|right; split; assumption]. }
    split.
    - intros a Ha. apply flags_shared in Ha as [n Hn]. exists n. split; [assumption|]. split.
      + intros c Hc. apply flags_shared. eapply K2; eassumption.
      + intros c Hc. split; [apply flags_shared; eapply K3; eassumption|]. intros _.
        destruct (Hm a n c Hn Hc) as (cn & Hcn & [x Hx] & [y Hy]). unfold flags. rewrite lookup_fmap, Hcn. cbn.
        unfold flag. rewrite Hx, Hy. reflexivity.
      + destruct (n_parent n) as [w|] eqn:E; [apply Hw; eapply K4; eassumption|exact I].
      + destruct (n_mimic_parent n) as [w|] eqn:E; [apply Hw; eapply K5; eassumption|exact I].
      + intros _. unfold flags. rewrite lookup_fmap, Hn. cbn. unfold flag.
        destruct (n_mimic_parent n), (n_mimic n); try discriminate. eauto.
      + exact I.
    - intros w [H1 H2]. auto.
    - exact K1.
  Qed.

  (** set_mimic_parent keeps the discipline when no other thread runs *)
  Lemma disc_set_mimic_parent dd t h nx pub a b mi :
    started (disc dd) h nx pub -> shared pub a -> shared pub b ->
    exists h', run t (node_set_mimic_parent a b mi) (quiet h nx) = Done tt (quiet h' nx) /\
      started (disc dd) h' nx (<[a := true]> pub).
  Proof.
    intros [S1 S2 S3] Ha Hb.
    destruct (S1 a Ha) as (na & Hna & _). destruct (S1 b Hb) as (nb & Hnb & _).
    set (h1 := <[a := set_n_mimic_parent na (Some b)]> h).
    assert (exists nb1, h1 !! b = Some nb1) as [nb1 Hnb1].
    { unfold h1. destruct (decide (a = b)) as [->|Hne]; [rewrite lookup_insert; eauto|rewrite lookup_insert_ne by assumption; eauto]. }
    set (h2 := <[b := set_n_mimic_children nb1 (n_mimic_children nb1 ++ [a])]> h1).
    assert (exists na2, h2 !! a = Some na2) as [na2 Hna2].
    { unfold h2. destruct (decide (b = a)) as [->|Hne]; [rewrite lookup_insert; eauto|rewrite lookup_insert_ne by assumption].
      unfold h1. rewrite lookup_insert. eauto. }
    exists (<[a := set_n_mimic na2 (Some mi)]> h2). split.
    { unfold node_set_mimic_parent, quiet.
      rewrite run_bind, (run_modify t a _ h nx ∅ na) by (auto using lookup_empty). cbn [obind].
      fold h1. rewrite run_bind, (run_modify t b _ h1 nx ∅ nb1) by (auto using lookup_empty). cbn [obind]. fold h2.
      rewrite (run_modify t a _ h2 nx ∅ na2) by (auto using lookup_empty). reflexivity. }
    assert (Hsh : forall c, shared pub c -> shared (<[a := true]> pub) c).
    { intros c [x Hx]. unfold shared. destruct (decide (a = c)) as [->|Hne]; [rewrite lookup_insert|rewrite lookup_insert_ne by assumption]; eauto. }
    assert (Hsh' : forall c, shared (<[a := true]> pub) c -> shared pub c).
    { intros c [x Hx]. destruct (decide (a = c)) as [->|Hne]; [assumption|rewrite lookup_insert_ne in Hx by assumption; eexists; eauto]. }
    assert (Hh : forall c n', <[a := set_n_mimic na2 (Some mi)]> h2 !! c = Some n' -> exists n, h !! c = Some n /\
      n_children n' = n_children n /\ n_parent n' = n_parent n /\
      (forall d, d ∈ n_mimic_children n' -> d = a \/ d ∈ n_mimic_children n) /\
      (c = a -> n_mimic_parent n' = Some b /\ n_mimic n' = Some mi) /\
      (c <> a -> n_mimic_parent n' = n_mimic_parent n /\ n_mimic n' = n_mimic n)).
    { intros c n' Hc.
      assert (Hfst : forall c n1, h1 !! c = Some n1 -> exists n, h !! c = Some n /\
        n_children n1 = n_children n /\ n_parent n1 = n_parent n /\ n_mimic_children n1 = n_mimic_children n /\
        n_mimic n1 = n_mimic n /\ (c = a -> n_mimic_parent n1 = Some b) /\ (c <> a -> n_mimic_parent n1 = n_mimic_parent n)).
      { clear c n' Hc. intros c n1 Hc. unfold h1 in Hc. destruct (decide (a = c)) as [<-|Hne].
        - rewrite lookup_insert in Hc. injection Hc as <-. exists na. split; [assumption|]. repeat split; congruence.
        - rewrite lookup_insert_ne in Hc by assumption. exists n1. split; [assumption|]. repeat split; congruence. }
      assert (Hsnd : forall c n2, h2 !! c = Some n2 -> exists n, h !! c = Some n /\
        n_children n2 = n_children n /\ n_parent n2 = n_parent n /\
        (forall d, d ∈ n_mimic_children n2 -> d = a \/ d ∈ n_mimic_children n) /\
        n_mimic n2 = n_mimic n /\ (c = a -> n_mimic_parent n2 = Some b) /\ (c <> a -> n_mimic_parent n2 = n_mimic_parent n)).
      { clear c n' Hc. intros c n2 Hc. unfold h2 in Hc. destruct (decide (b = c)) as [<-|Hne].
        - rewrite lookup_insert in Hc. injection Hc as <-. destruct (Hfst _ _ Hnb1) as (n & F1 & F2 & F3 & F4 & F5 & F6 & F7).
          exists n. cbn. repeat split; auto. intros d Hd. apply elem_of_app in Hd as [Hd|Hd]; [right; congruence|left].
          apply elem_of_list_singleton in Hd. assumption.
        - rewrite lookup_insert_ne in Hc by assumption. destruct (Hfst _ _ Hc) as (n & F1 & F2 & F3 & F4 & F5 & F6 & F7).
          exists n. repeat split; auto. intros d Hd. right. congruence. }
      destruct (decide (a = c)) as [<-|Hne].
      - rewrite lookup_insert in Hc. injection Hc as <-. destruct (Hsnd _ _ Hna2) as (n & F1 & F2 & F3 & F4 & F5 & F6 & F7).
        exists n. cbn. repeat split; auto; congruence.
      - rewrite lookup_insert_ne in Hc by assumption. destruct (Hsnd _ _ Hc) as (n & F1 & F2 & F3 & F4 & F5 & F6 & F7).
        exists n. repeat split; auto; congruence. }
    assert (Hlive : forall c, is_Some (<[a := set_n_mimic na2 (Some mi)]> h2 !! c) <-> is_Some (h !! c)).
    { intros c. split; [intros [n' Hc]; destruct (Hh _ _ Hc) as (n & Hn & _); eauto|]. intros [n Hn].
      destruct (decide (a = c)) as [<-|Hne]; [rewrite lookup_insert; eauto|rewrite lookup_insert_ne by assumption].
      unfold h2. destruct (decide (b = c)) as [<-|Hne']; [rewrite lookup_insert; eauto|rewrite lookup_insert_ne by assumption].
      unfold h1. rewrite lookup_insert_ne by assumption. eauto. }
    split.
    - intros c Hc. apply Hsh' in Hc. destruct (S1 c Hc) as (n & Hn & [O1 O2 O3 O4 O5 O6]).
      destruct (proj2 (Hlive c)) as [n' Hn']; [eauto|].
      exists n'. split; [assumption|]. destruct (Hh _ _ Hn') as (n0 & Hn0 & E1 & E2 & E3 & E4 & E5).
      assert (n0 = n) as -> by congruence.
      assert (Hr : forall o, ref_ok (disc dd) pub o -> ref_ok (disc dd) (<[a := true]> pub) o).
      { intros [w|]; [|auto]. intros [H|H]; [left; auto|right; assumption]. }
      split.
      + intros d Hd. rewrite E1 in Hd. auto.
      + intros d Hd. destruct (E3 d Hd) as [->|Hd'].
        * split; [eexists; apply lookup_insert|intros _; apply lookup_insert].
        * destruct (O2 d Hd') as [H1 H2]. split; [auto|]. intros _.
          destruct (decide (a = d)) as [->|Hne]; [apply lookup_insert|rewrite lookup_insert_ne by assumption; auto].
      + rewrite E2. auto.
      + destruct (decide (c = a)) as [Eca|Hne].
        * destruct (E4 Eca) as [-> _]. left. auto.
        * destruct (E5 Hne) as [-> _]. auto.
      + intros _ Hf. destruct (decide (c = a)) as [Eca|Hne].
        * destruct (E4 Eca) as [-> ->]. eauto.
        * rewrite lookup_insert_ne in Hf by congruence. destruct (E5 Hne) as [-> ->]. auto.
      + exact I.
    - intros w Hw. destruct (S2 w Hw) as [H1 H2]. split; [assumption|].
      destruct (<[a := set_n_mimic na2 (Some mi)]> h2 !! w) as [n'|] eqn:E; [|reflexivity]. destruct (Hh _ _ E) as (n & Hn & _). congruence.
    - intros c Hc. apply Hlive in Hc. auto.
  Qed.

  Lemma sequential_split R (k : api T R) : sequential_call R k ->
    parallel_call R k \/ (exists a b mi, args k = [a; b] /\ (forall r, rets k r = []) /\
      forall t s, match run t (interp k) s, run t (node_set_mimic_parent a b mi) s with
        | Done _ s1, Done _ s2 => s1 = s2
        | Panicked m1 s1, Panicked m2 s2 => s1 = s2
        | Deadlock a1 s1, Deadlock a2 s2 => a1 = a2 /\ s1 = s2
        | OutOfFuel s1, OutOfFuel s2 => s1 = s2
        | Stuck, Stuck => True
        | _, _ => False
        end).
  Proof.
    intros H. destruct k; cbn [sequential_call parallel_call] in *; try (left; exact I); try contradiction.
    right. exists self, parent, m. split; [reflexivity|]. split; [reflexivity|]. intros t s.
    cbn [interp]. destruct (run t (node_set_mimic_parent self parent m) s); auto.
  Qed.
  Lemma disc_sequential dd t {A} (cl : client T A) : forall K h nx pub,
    started (disc dd) h nx pub -> obeys sequential_call (fun _ => []) K cl -> (forall a, K a -> shared pub a) ->
    match run t (denote cl) (quiet h nx) with
    | Done x s => locks s = ∅ /\ poison s = ∅
    | Panicked _ s => locks s = ∅
    | OutOfFuel _ => True
    | Deadlock _ _ | Stuck => False
    end.
  Proof.
    induction cl as [x|R k next IH]; intros K h nx pub Hst Ho HK; cbn [denote obeys] in *; [split; reflexivity|].
    destruct Ho as (H1 & H2 & H3). rewrite run_bind.
    assert (Ha : Forall (shared pub) (args k)) by (apply Forall_forall; auto).
    destruct (sequential_split R k H1) as [Hp|(a & b & mi & Ea & Er & Hrun)].
    - pose proof (tri_run (disc dd) h nx pub (fun _ _ => I) (fun _ _ _ _ _ _ => I) _ _ t ∅ Hst
        (api_safe (disc dd) k pub (disc_permitted dd R k Hp) Ha)) as H. fold (quiet h nx) in H.
      destruct (run t (interp k) (quiet h nx)) as [r s|msg s|a s|s|] eqn:Er; cbn [obind].
      + destruct H as (Hl & GP & pub' & HG & Hsub & HR).
        pose proof (run_done_poison _ _ _ _ _ Er) as Hpo. cbn in Hpo.
        assert (s = quiet (heap s) (nxt s)) as ->. { destruct s as [hh nn ll pp]. cbn in *. subst. reflexivity. }
        apply (IH r (fun a => K a \/ a ∈ rets k r) (heap s) (nxt s) GP); [|apply H3|].
        * split.
          -- intros a Ha'. destruct (gc_live _ _ _ _ _ _ HG a Ha') as (n & n0 & Hn & Hok & _). exists n. auto.
          -- apply (gc_dead _ _ _ _ _ _ HG).
          -- apply (gc_nxt _ _ _ _ _ _ HG).
        * cbn. intros a [Hk|Hk].
          -- eapply shared_mono; [exact (gc_pub0 _ _ _ _ _ _ HG)|auto].
          -- eapply shared_mono; [exact Hsub|]. exact (proj1 (Forall_forall _ _) HR a Hk).
      + apply H.
      + destruct H as [H _]. discriminate.
      + exact I.
      + exact H.
    - assert (Hsa : shared pub a) by (apply HK, H2; rewrite Ea; set_solver).
      assert (Hsb : shared pub b) by (apply HK, H2; rewrite Ea; set_solver).
      destruct (disc_set_mimic_parent dd t h nx pub a b mi Hst Hsa Hsb) as (h' & Hr & Hst').
      specialize (Hrun t (quiet h nx)). rewrite Hr in Hrun.
      destruct (run t (interp k) (quiet h nx)) as [r s|msg s|a' s|s|]; try contradiction. subst s. cbn [obind].
      apply (IH r (fun a => K a \/ a ∈ rets k r) h' nx (<[a := true]> pub) Hst' (H3 r)). cbn. intros c [Hk|Hk].
      + specialize (HK c Hk) as [x Hx]. unfold shared. destruct (decide (a = c)) as [->|Hne];
          [rewrite lookup_insert|rewrite lookup_insert_ne by assumption]; eauto.
      + rewrite Er in Hk. inversion Hk.
  Qed.
  Theorem sequential_no_deadlock {A} t h nx (cl : client T A) :
    heap_ok h nx -> mimic_wf h -> obeys sequential_call (fun _ => []) (alive h) cl ->
    match run t (denote cl) (quiet h nx) with
    | Done x s => locks s = ∅ /\ poison s = ∅
    | Panicked _ s => locks s = ∅
    | OutOfFuel _ => True
    | Deadlock _ _ | Stuck => False
    end.
  Proof.
    intros Hok Hm Ho. apply (disc_sequential (gone h nx) t cl (alive h) h nx (flags h)); [apply disc_started; assumption|assumption|].
    intros a Ha. apply flags_shared. assumption.
  Qed.

  (** C40 *)
  Theorem threads_progress {A} h nx po (cls : list (client T A)) c :
    heap_ok h nx -> mimic_wf h ->
    (forall cl, cl ∈ cls -> obeys parallel_call (fun _ => []) (alive h) cl) ->
    tsteps (spawn cls, Sh h nx ∅ po) c ->
    forall t a k, c.1 !! t = Some (Running (Lock a k)) -> is_Some (locks c.2 !! a) ->
    exists u, waits_for c.1 c.2 t u /\
      (can_move c.1 c.2 u \/ exists v, waits_for c.1 c.2 u v /\ can_move c.1 c.2 v).
  Proof.
    intros Hok Hm Ho Hst t a k Ht [w Hw].
    destruct (client_pool (disc (gone h nx)) h nx (flags h) (fun _ _ => I) (fun _ _ _ _ _ _ => I)
      parallel_call (alive h) cls po c (disc_started _ _ Hok Hm) (disc_permitted _) Ho
      (fun a Ha => proj2 (flags_shared h a) Ha) Hst) as (GP & g & HP).
    pose proof (pool_not_stuck (disc (gone h nx)) _ _ _ (fun _ _ => I) (fun _ _ _ _ _ _ => I) _ _ _ _ _ _ _ HP Ht) as Hns.
    assert (Hb : exec1 t (Lock a k) c.2 = RBlocked a).
    { cbn in Hns |- *. destruct (heap c.2 !! a); [|contradiction]. rewrite Hw. reflexivity. }
    assert (HQ : forall (pub' : gmap nat bool) (priv : gmap nat (node T)) (hp : gmap nat (option (node T))) (hv : gset nat) (x : A),
      flags h ⊆ pub' /\ priv = ∅ /\ hp = ∅ /\ hv = ∅ /\ True -> hp = ∅ /\ hv = ∅) by tauto.
    destruct (pool_progress (disc (gone h nx)) _ _ _ (fun _ _ => I) (fun _ _ _ _ _ _ => I) _ _ _ _ _ _ _ _
      HQ eq_refl HP Ht Hb) as (u & Hu & Hmv).
    assert (Hwf : forall t u, waits c.1 c.2 t u -> waits_for c.1 c.2 t u).
    { intros t' u' (p & b & H1 & H2 & H3). destruct p as [x|b' k'|b' k'|b' k'|b' n' k'|n' k'|b' k'|msg|]; cbn in H2; try discriminate.
      - destruct (heap c.2 !! b'); [|discriminate]. destruct (locks c.2 !! b') eqn:E; [|destruct (decide _); discriminate].
        injection H2 as ->. exists b, k'. split; [assumption|]. assumption.
      - destruct (decide _); discriminate.
      - destruct (decide _); [|discriminate]. destruct (heap c.2 !! b'); discriminate.
      - destruct (decide _); discriminate. }
    exists u. split; [apply Hwf; assumption|]. destruct Hmv as [Hmv|(v & Hv & Hmv)]; [left; exact Hmv|right].
    exists v. split; [apply Hwf; assumption|exact Hmv].
  Qed.
  Theorem threads_no_deadlock {A} h nx po (cls : list (client T A)) c D :
    heap_ok h nx -> mimic_wf h ->
    (forall cl, cl ∈ cls -> obeys parallel_call (fun _ => []) (alive h) cl) ->
    tsteps (spawn cls, Sh h nx ∅ po) c ->
    ~ deadlocked c.1 c.2 D.
  Proof.
    intros Hok Hm Ho Hst [Hne HD]. destruct D as [|t D]; [congruence|].
    assert (Hnm : forall t, t ∈ (t :: D) -> forall u, waits_for c.1 c.2 t u -> ~ can_move c.1 c.2 t).
    { intros t' _ u' (a & k & H1 & H2) (q & Hq & Hm'). rewrite H1 in Hq. injection Hq as <-. cbn in Hm'.
      rewrite H2 in Hm'. destruct (heap c.2 !! a); destruct Hm' as [(? & ? & ?)|(? & ? & ?)]; discriminate. }
    assert (Hfun : forall t u v, waits_for c.1 c.2 t u -> waits_for c.1 c.2 t v -> u = v).
    { intros t' u' v' (a & k & H1 & H2) (b & k' & H3 & H4). rewrite H1 in H3. injection H3 as <- _. congruence. }
    assert (Hstuck : forall t', t' ∈ t :: D -> ~ can_move c.1 c.2 t').
    { intros t' Ht'. destruct (HD t' Ht') as (u & _ & Hu). intros (q & Hq & Hm').
      destruct Hu as (a & k & H1 & H2). rewrite H1 in Hq. injection Hq as <-. cbn in Hm'.
      rewrite H2 in Hm'. destruct (heap c.2 !! a); destruct Hm' as [(? & ? & ?)|(? & ? & ?)]; discriminate. }
    destruct (HD t) as (u & Hu & Hwu); [set_solver|]. pose proof Hwu as (a & k & H1 & H2).
    destruct (threads_progress h nx po cls c Hok Hm Ho Hst t a k H1 (mk_is_Some _ _ H2)) as (u' & Hwu' & Hmv).
    assert (u' = u) as -> by (eapply Hfun; eauto). destruct Hmv as [Hmv|(v & Hv & Hmv)]; [exact (Hstuck u Hu Hmv)|].
    destruct (HD u Hu) as (v' & Hv' & Hwv'). assert (v' = v) as -> by (eapply Hfun; eauto). exact (Hstuck v Hv' Hmv).
  Qed.
End FrameProofs.
