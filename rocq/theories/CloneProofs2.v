(** * Cloning chains: the whole call *)
From Coq Require Import String.
From stdpp Require Import gmap.
From Verif Require Import Scalar Geometry Joint Link Prog NodeM ChainM FuncsM IkM RunLemmas SpecJoint SpecNode JointProofs NodeProofs
  SpecGraph GraphProofs SpecChain ChainProofs Safe SafeSound SafeNode SafeChain Api ApiProofs ApiSound SpecHist HistProofs SpecClone CloneProofs.

Section CloneProofs2.
  Context {T : Type} `{Sc : Scalar T}.
  Implicit Types (h : gmap nat (node T)).

  (** ** clients with handles in one part of the heap only *)
  Definition part h (D : nat -> Prop) `{!forall a, Decision (D a)} : gmap nat bool := (fun _ => false) <$> filter (fun x => D x.1) h.
  Lemma part_shared h D `{!forall a, Decision (D a)} a : shared (part h D) a <-> is_Some (h !! a) /\ D a.
  Proof.
    unfold shared, part. rewrite lookup_fmap. split.
    - intros [b Hb]. destruct (filter _ h !! a) as [n|] eqn:E; [|discriminate].
      apply map_filter_lookup_Some in E as [E1 E2]. eauto.
    - intros [[n Hn] Hd]. exists false.
      assert (filter (fun x : nat * node T => D x.1) h !! a = Some n) as -> by (apply map_filter_lookup_Some; auto). reflexivity.
  Qed.
  Definition separate h (nx : nat) (D : nat -> Prop) : Prop :=
    forall a n, h !! a = Some n -> D a -> mentions_only (fun b => b < nx /\ (is_Some (h !! b) -> D b)) n.
  Lemma part_frame {A} t h nx (D : nat -> Prop) `{!forall a, Decision (D a)} (cl : client T A) :
    heap_ok h nx -> separate h nx D -> obeys any_call (fun _ => []) (fun a => alive h a /\ D a) cl ->
    forall s, final_state (run t (denote cl) (quiet h nx)) = Some s ->
    forall a n, h !! a = Some n -> ~ D a -> heap s !! a = Some n.
  Proof.
    intros Hok Hsep Ho s Hs a n Ha Hd.
    assert (Hst : started (types_mode h nx) h nx (part h D)).
    { split.
      - intros b Hb. apply part_shared in Hb as [[m Hm] Hb]. exists m. split; [exact Hm|].
        destruct (Hsep b m Hm Hb) as (S1 & S2 & S3 & S4).
        assert (Hr : forall w, w < nx /\ (is_Some (h !! w) -> D w) -> ref_ok (types_mode h nx) (part h D) (Some w)).
        { intros w [W1 W2]. cbn. destruct (h !! w) as [x|] eqn:E.
          - left. apply part_shared. rewrite E. eauto.
          - right. split; assumption. }
        split.
        + intros c Hc. apply part_shared. split; [eapply (hk_children _ _ Hok); eauto|]. apply S1; [exact Hc|]. eapply (hk_children _ _ Hok); eauto.
        + intros c Hc. split; [|cbn; discriminate]. apply part_shared. split; [eapply (hk_mimic_children _ _ Hok); eauto|].
          apply S2; [exact Hc|]. eapply (hk_mimic_children _ _ Hok); eauto.
        + destruct (n_parent m) as [w|]; [apply Hr; auto|exact I].
        + destruct (n_mimic_parent m) as [w|]; [apply Hr; auto|exact I].
        + cbn. discriminate.
        + exact I.
      - intros w [H1 H2]. auto.
      - apply (hk_bound _ _ Hok). }
    pose proof (client_run (types_mode h nx) h nx (part h D) (fun _ => keeps_refl) (fun _ => keeps_trans)
      any_call (fun _ => []) (fun a => alive h a /\ D a) cl t ∅ Hst
      (fun R k _ => types_permitted h nx R k) Ho) as Hrun.
    specialize (Hrun (fun a Ha => proj2 (part_shared h D a) Ha)). fold (quiet h nx) in Hrun.
    assert (exists GP, gcons (types_mode h nx) h nx (part h D) GP s) as [GP HG].
    { destruct (run t (denote cl) (quiet h nx)) as [x s'|msg s'|b s'|s'|]; cbn in Hs; [| | | |discriminate];
        injection Hs as ->; naive_solver. }
    apply (gc_frame _ _ _ _ _ _ HG a n Ha). destruct (GP !! a) as [b|] eqn:E; [|reflexivity]. exfalso.
    destruct (gc_sub _ _ _ _ _ _ HG a) as [Hp|Hp]; [eauto| |].
    - apply part_shared in Hp as [_ Hp]. contradiction.
    - pose proof (hk_bound _ _ Hok a (mk_is_Some _ _ Ha)). lia.
  Qed.

  Lemma tc_r_inv (R : nat -> nat -> Prop) x z : tc R x z -> exists y, rtc R x y /\ R y z.
  Proof.
    induction 1 as [x z H|x y z H _ (w & H1 & H2)]; [exists x; split; [reflexivity|exact H]|].
    exists w. split; [eapply rtc_l; eauto|exact H2].
  Qed.
  (** ** trees below a node without predecessor *)
  Lemma rooted_tree h (D : nat -> Prop) r :
    (forall x y, D x -> lists_child h x y -> D y /\ is_Some (h !! y)) ->
    (forall x y z, D x -> D y -> lists_child h x z -> lists_child h y z -> x = y) ->
    D r -> (forall x, D x -> ~ lists_child h x r) -> is_Some (h !! r) -> exists tr, troot tr = r /\ tree_in h tr.
  Proof.
    intros Hcl Hun Hr Hnp Hlr. set (R := lists_child h).
    assert (HD : forall x y, D x -> rtc R x y -> D y).
    { intros x y Hx H. revert Hx. induction H as [x|x y z H1 H2 IH]; intros Hx; [exact Hx|]. apply IH. apply (Hcl x y Hx H1). }
    assert (Hac : forall x, rtc R r x -> ~ tc R x x).
    { apply (rtc_ind_r (fun x => ~ tc R x x)).
      - intros Ht. apply tc_r_inv in Ht as (y & Hy & Hyr). apply (Hnp y); [|exact Hyr]. apply (HD r y Hr). exact Hy.
      - intros y z Hy Hyz IH Ht. apply tc_r_inv in Ht as (w & Hw & Hwz). 
        assert (w = y) as ->. { apply (Hun w y z); [|apply (HD r y Hr Hy)|exact Hwz|exact Hyz]. apply (HD r w Hr). transitivity y; [exact Hy|]. eapply rtc_l; [exact Hyz|exact Hw]. }
        apply IH. eapply tc_rtc_r; [apply tc_once; exact Hyz|exact Hw]. }
    set (R' := fun x y => rtc R r x /\ R x y).
    assert (Hsub : forall x y, tc R' x y -> tc R x y).
    { induction 1 as [x y [_ H]|x y z [_ H] _ IH]; [apply tc_once; exact H|eapply tc_l; eauto]. }
    assert (Hsn : sn R' r).
    { apply (acyclic_sn h).
      - intros x y [H1 H2]. apply (Hcl x y); [apply (HD r x Hr H1)|exact H2].
      - intros x Ht. apply (Hac x); [|apply Hsub; exact Ht]. inversion Ht as [? ? [H _]|? ? ? [H _]]; exact H. }
    assert (Hrr : rtc R r r) by reflexivity. revert Hrr Hlr. generalize r at 2 3 4. 
    intros a. assert (sn R' a -> rtc R r a -> is_Some (h !! a) -> exists tr, troot tr = a /\ tree_in h tr) as Hgo.
    { intros Hs. induction Hs as [a _ IH]; intros Hra [n Hn].
      assert (exists cs, map troot cs = n_children n /\ Forall (tree_in h) cs) as (cs & Hcs & Hts).
      { assert (Hall : forall c, c ∈ n_children n -> exists tr, troot tr = c /\ tree_in h tr).
        { intros c Hc. assert (Hac' : R a c) by (exists n; auto). apply IH; [split; assumption|eapply rtc_r; eauto|].
          apply (Hcl a c); [apply (HD r a Hr Hra)|exact Hac']. }
        clear -Hall. induction (n_children n) as [|c l IHl]; [exists []; auto|].
        destruct (Hall c) as (tr & <- & Htr); [set_solver|].
        destruct IHl as (cs & <- & Hcs); [intros; apply Hall; set_solver|].
        exists (tr :: cs). auto. }
      exists (TNode a cs). split; [reflexivity|]. apply (tree_in_node h a n); auto. }
    intros Hra Hla. apply Hgo; auto. clear -Hsn Hra Hac. 
    assert (Hstep : forall x, rtc R r x -> sn R' x).
    { apply (rtc_ind_r (fun x => sn R' x)); [exact Hsn|]. intros y z Hy Hyz IH. destruct IH as [IH]. apply IH. split; assumption. }
    apply Hstep. exact Hra.
  Qed.

  (** ** the call *)
  Lemma par_iff h a p : par h a = Some p <-> live_parent h a p.
  Proof.
    unfold par. destruct (h !! a) as [n|] eqn:E; [apply live_parent_iff; exact E|].
    split; [discriminate|]. intros [(n & Hn & _) _]. congruence.
  Qed.
  Lemma mpar_iff h a p : mpar h a = Some p <-> live_mimic_parent h a p.
  Proof.
    unfold mpar, live_mimic_parent. destruct (h !! a) as [n|] eqn:E.
    - unfold live. split.
      + destruct (n_mimic_parent n) as [w|] eqn:Ew; [|discriminate]. destruct (h !! w) eqn:Eh; [|discriminate].
        intros H. injection H as <-. exists n. rewrite Eh. eauto.
      + intros (n' & Hn' & Hp & [x Hx]). injection Hn' as <-. rewrite Hp, Hx. reflexivity.
    - split; [discriminate|]. intros (n & Hn & _). congruence.
  Qed.
  Lemma all_ok_iff h l : all_live h l ->
    (forall i, parent_ok h l i /\ mimic_ok h l i) <-> self_contained h l /\ mimics_complete h l.
  Proof.
    intros Hl. split.
    - intros H. split.
      + intros a b Ha Hb. apply elem_of_list_lookup in Ha as [i Hi]. destruct (H i) as [H1 H2]. destruct Hb as [Hb|Hb].
        * apply (H1 a b Hi). apply par_iff. exact Hb.
        * destruct Hb as (n & Hn & Hm). apply (H2 a n b Hi Hn). apply mpar_iff. exists n. auto.
      + intros a n m Ha Hn Hm. apply elem_of_list_lookup in Ha as [i Hi]. destruct (H i) as [_ H2]. apply (H2 a n m Hi Hn). apply mpar_iff. exact Hm.
    - intros [H1 H2] i. split.
      + intros a p Hi Hp. apply (H1 a p); [eapply elem_of_list_lookup_2; eauto|]. left. apply par_iff. exact Hp.
      + intros a n m Hi Hn Hm. apply mpar_iff in Hm. split.
        * apply (H1 a m); [eapply elem_of_list_lookup_2; eauto|]. right. exact Hm.
        * apply (H2 a n m); [eapply elem_of_list_lookup_2; eauto|exact Hn|exact Hm].
  Qed.
  Lemma chain_clone_cons fuel c a0 l' : c_nodes c = a0 :: l' ->
    (chain_clone fuel c : prog T chain) = (b <- node_is_root a0 ;;
        assert_ b "assertion failed: self.nodes[0].is_root()" ;;;
        news <- mapM clone_node (c_nodes c) ;;
        forM_ (clone_connect (c_nodes c) news) (zip (c_nodes c) news) ;;;
        na0 <- expect (head news) "index out of bounds" ;;
        b' <- node_is_root na0 ;;
        assert_ b' "assertion failed: new_nodes[0].is_root()" ;;;
        from_root fuel na0).
  Proof. intros H. unfold chain_clone. rewrite H. reflexivity. Qed.
  Lemma clone_cases t h nx c a0 l' : heap_ok h nx -> all_live h (c_nodes c) -> c_nodes c = a0 :: l' ->
    (starts_at_root h (c_nodes c) /\ self_contained h (c_nodes c) /\ mimics_complete h (c_nodes c) /\
      exists h2, is_heap h nx (c_nodes c) (length (c_nodes c)) (length (c_nodes c)) (length (c_nodes c)) h2 /\
        forall fuel, run t (chain_clone fuel c) (quiet h nx) = run t (from_root fuel nx) (quiet h2 (nx + length (c_nodes c)))) \/
    (~ (starts_at_root h (c_nodes c) /\ self_contained h (c_nodes c) /\ mimics_complete h (c_nodes c)) /\
      forall fuel, exists m s, run t (chain_clone fuel c) (quiet h nx) = Panicked m s).
  Proof.
    intros Hok Hl El. assert (Ha0 : a0 ∈ c_nodes c) by (rewrite El; set_solver). destruct (Hl a0 Ha0) as [n0 Hn0].
    pose proof (fun fuel => chain_clone_cons fuel c a0 l' El) as EC. set (l := c_nodes c) in *. set (k := length l).
    assert (Hroot : run t (node_is_root a0) (quiet h nx) = Done (match n_parent n0 with None => true | Some _ => false end) (quiet h nx)).
    { unfold node_is_root, quiet. apply (run_read t a0 (fun n => match n_parent n with None => true | Some _ => false end) h nx ∅ n0 Hn0 (lookup_empty a0)). }
    destruct (n_parent n0) as [p|] eqn:Ep.
    { right. split.
      - intros [H _]. specialize (H a0 n0). rewrite El in H. specialize (H eq_refl Hn0). congruence.
      - intros fuel. rewrite EC, run_bind, Hroot. cbn [obind]. unfold assert_. cbn [bind]. eexists _, _. reflexivity. }
    assert (Hst : starts_at_root h l). { intros a n Ha Hn. rewrite El in Ha. injection Ha as <-. congruence. }
    destruct (run_clone_nodes h nx l Hok Hl t l 0 h eq_refl (is_heap_start h nx l Hok)) as (h1 & R1 & H1).
    rewrite !Nat.add_0_r, !Nat.add_0_l in R1. cbn [Nat.add] in H1. fold k in R1, H1.
    destruct (run_connects h nx l Hok Hl t l 0 h1 eq_refl H1) as [[Hall (h2 & R2 & H2)]|[Hno (m & s & R2)]].
    - left. split; [exact Hst|]. destruct (proj1 (all_ok_iff h l Hl)) as [Hs1 Hs2]; [intros i; apply Hall; lia|].
      split; [exact Hs1|]. split; [exact Hs2|]. exists h2. split; [exact H2|]. intros fuel.
      rewrite EC, run_bind, Hroot. cbn [obind]. unfold assert_. cbn [bind]. rewrite run_bind, R1. cbn [obind].
      rewrite run_bind. rewrite Nat.add_0_r in R2. fold k in R2. rewrite R2. cbn [obind].
      assert (Ek : seq nx k = nx :: seq (S nx) (length l')) by (unfold k; rewrite El; reflexivity).
      rewrite Ek. cbn [head expect bind].
      assert (Hk0 : 0 < k) by (unfold k; rewrite El; cbn; lia).
      assert (Hl0 : l !! 0 = Some a0) by (rewrite El; reflexivity).
      pose proof (ih_new _ _ _ _ _ _ _ H2 0 a0 n0 Hk0 Hl0 Hn0) as Enew. rewrite Nat.add_0_r in Enew.
      rewrite run_bind. unfold node_is_root at 1, quiet at 1. rewrite (run_read t nx (fun n => match n_parent n with None => true | Some _ => false end) h2 (nx + k) ∅ _ Enew (lookup_empty nx)). cbn [obind].
      assert (Hp0 : pidx h l 0 = None). { unfold pidx. rewrite Hl0. unfold par. rewrite Hn0, Ep. reflexivity. }
      assert (Ecp : n_parent (copied h nx l (length l) (length l) 0 n0) = None).
      { unfold copied. cbn [n_parent]. destruct (decide (0 < length l)); rewrite ?Hp0; reflexivity. }
      rewrite Ecp. unfold assert_. cbn [bind]. reflexivity.
    - right. split.
      + intros (_ & Hs). apply Hno. intros i _. apply (proj2 (all_ok_iff h l Hl) Hs).
      + intros fuel. rewrite EC, run_bind, Hroot. cbn [obind]. unfold assert_. cbn [bind]. rewrite run_bind, R1. cbn [obind].
        rewrite run_bind. rewrite Nat.add_0_r in R2. fold k in R2. rewrite R2. eexists _, _. reflexivity.
  Qed.

  (** ** the heap after the call *)
  Section After.
    Variables (h h2 : gmap nat (node T)) (nx : nat) (l : list nat).
    Hypothesis Hok : heap_ok h nx.
    Hypothesis Hl : all_live h l.
    Let k := length l.
    Hypothesis H2 : is_heap h nx l k k k h2.
    Lemma new_node b n' : nx <= b -> h2 !! b = Some n' -> exists i a n, i < k /\ b = nx + i /\ l !! i = Some a /\ h !! a = Some n /\ n' = copied h nx l k k i n.
    Proof.
      intros Hb Hn'. set (i := b - nx). assert (Eb : b = nx + i) by (unfold i; lia).
      destruct (decide (i < k)) as [Hi|Hi].
      - destruct (node_of_index h l Hl i Hi) as (a & n & Ha & Hn). exists i, a, n. split; [exact Hi|]. split; [exact Eb|].
        split; [exact Ha|]. split; [exact Hn|]. pose proof (ih_new _ _ _ _ _ _ _ H2 i a n Hi Ha Hn) as E. rewrite <- Eb in E. congruence.
      - rewrite Eb, (ih_none _ _ _ _ _ _ _ H2 i) in Hn' by lia. discriminate.
    Qed.
    Lemma new_alive i : i < k -> is_Some (h2 !! (nx + i)).
    Proof. intros Hi. destruct (node_of_index h l Hl i Hi) as (a & n & Ha & Hn). rewrite (ih_new _ _ _ _ _ _ _ H2 i a n Hi Ha Hn). eauto. Qed.
    Lemma pick_elem g d i c : c ∈ pick nx g d i <-> exists j, j < d /\ g j = Some i /\ c = nx + j.
    Proof.
      unfold pick. rewrite elem_of_list_In, in_map_iff. split.
      - intros (j & <- & Hj). apply filter_In in Hj as [Hj1 Hj2]. apply in_seq in Hj1. apply bool_decide_eq_true in Hj2. exists j. split; [lia|]. auto.
      - intros (j & Hj & Hg & ->). exists j. split; [reflexivity|]. apply filter_In. split; [apply in_seq; lia|apply bool_decide_eq_true; exact Hg].
    Qed.
    Definition new_addr (b : nat) : Prop := nx <= b /\ b < nx + k.
    Lemma new_mentions b n' : nx <= b -> h2 !! b = Some n' -> mentions_only new_addr n'.
    Proof.
      intros Hb Hn'. destruct (new_node b n' Hb Hn') as (i & a & n & Hi & -> & Ha & Hn & ->). unfold new_addr.
      split; [|split; [|split]]; cbn.
      - intros c Hc. apply pick_elem in Hc as (j & Hj & _ & ->). lia.
      - intros c Hc. apply pick_elem in Hc as (j & Hj & _ & ->). lia.
      - intros w. destruct (decide (i < k)); [|discriminate]. destruct (pidx h l i) as [j|] eqn:E; [|discriminate].
        apply pidx_bound in E. cbn. intros Hw. injection Hw as <-. unfold k in *. lia.
      - intros w. destruct (decide (i < k)); [|discriminate]. destruct (midx h l i) as [j|] eqn:E; [|discriminate].
        apply midx_bound in E. cbn. intros Hw. injection Hw as <-. unfold k in *. lia.
    Qed.
    Lemma after_heap_ok : heap_ok h2 (nx + k).
    Proof.
      assert (Hcase : forall a n, h2 !! a = Some n -> (a < nx /\ h !! a = Some n) \/ nx <= a).
      { intros a n Hn. destruct (decide (a < nx)) as [Hlt|Hge]; [|right; lia]. left. rewrite (ih_old _ _ _ _ _ _ _ H2) in Hn by exact Hlt. auto. }
      assert (Hold : forall c, is_Some (h !! c) -> is_Some (h2 !! c)).
      { intros c [n Hn]. rewrite (old_lookup h nx l Hok _ _ _ _ _ _ H2 Hn). eauto. }
      assert (Hnewlive : forall c, new_addr c -> is_Some (h2 !! c)).
      { intros c [H1 H3]. replace c with (nx + (c - nx)) by lia. apply new_alive. lia. }
      split.
      - intros a [n Hn]. destruct (Hcase a n Hn) as [[Hlt _]|Hge]; [lia|]. destruct (new_node a n Hge Hn) as (i & _ & _ & Hi & -> & _). lia.
      - intros a n c Hn Hc. destruct (Hcase a n Hn) as [[_ Hn0]|Hge]; [apply Hold; eapply (hk_children _ _ Hok); eauto|].
        apply Hnewlive. destruct (new_mentions a n Hge Hn) as (S1 & _ & _ & _). apply S1. exact Hc.
      - intros a n c Hn Hc. destruct (Hcase a n Hn) as [[_ Hn0]|Hge]; [apply Hold; eapply (hk_mimic_children _ _ Hok); eauto|].
        apply Hnewlive. destruct (new_mentions a n Hge Hn) as (_ & S1 & _ & _). apply S1. exact Hc.
      - intros a n w Hn Hw. destruct (Hcase a n Hn) as [[_ Hn0]|Hge]; [pose proof (hk_parent _ _ Hok a n w Hn0 Hw); lia|].
        destruct (new_mentions a n Hge Hn) as (_ & _ & S1 & _). apply S1. exact Hw.
      - intros a n w Hn Hw. destruct (Hcase a n Hn) as [[_ Hn0]|Hge]; [pose proof (hk_mimic_parent _ _ Hok a n w Hn0 Hw); lia|].
        destruct (new_mentions a n Hge Hn) as (_ & _ & _ & S1). apply S1. exact Hw.
    Qed.
    Lemma after_old a n : h !! a = Some n -> h2 !! a = Some n.
    Proof. apply (old_lookup h nx l Hok _ _ _ _ _ _ H2). Qed.
    Lemma separate_new : separate h2 (nx + k) (fun a => nx <= a).
    Proof.
      intros a n Hn Ha. destruct (new_mentions a n Ha Hn) as (S1 & S2 & S3 & S4). unfold new_addr in *.
      split; [|split; [|split]]; intros c Hc; [specialize (S1 c Hc)|specialize (S2 c Hc)|specialize (S3 c Hc)|specialize (S4 c Hc)]; split; [lia|intros _; lia|lia|intros _; lia|lia|intros _; lia|lia|intros _; lia].
    Qed.
    Lemma separate_old : separate h2 (nx + k) (fun a => a < nx).
    Proof.
      intros a n Hn Ha. rewrite (ih_old _ _ _ _ _ _ _ H2) in Hn by exact Ha.
      assert (forall c, c < nx -> c < nx + k /\ (is_Some (h2 !! c) -> c < nx)) as Hc by (intros c Hc; split; [lia|auto]).
      split; [|split; [|split]]; intros c Hm; apply Hc.
      - apply (hk_bound _ _ Hok). eapply (hk_children _ _ Hok); eauto.
      - apply (hk_bound _ _ Hok). eapply (hk_mimic_children _ _ Hok); eauto.
      - eapply (hk_parent _ _ Hok); eauto.
      - eapply (hk_mimic_parent _ _ Hok); eauto.
    Qed.
    Lemma child_new b c : nx <= b -> lists_child h2 b c <-> exists i j, i < k /\ j < k /\ b = nx + i /\ c = nx + j /\ pidx h l j = Some i.
    Proof.
      intros Hb. split.
      - intros (n' & Hn' & Hc). destruct (new_node b n' Hb Hn') as (i & a & n & Hi & -> & Ha & Hn & ->). cbn in Hc.
        apply pick_elem in Hc as (j & Hj & Hp & ->). exists i, j. auto.
      - intros (i & j & Hi & Hj & -> & -> & Hp). destruct (node_of_index h l Hl i Hi) as (a & n & Ha & Hn).
        exists (copied h nx l k k i n). split; [apply (ih_new _ _ _ _ _ _ _ H2 i a n Hi Ha Hn)|]. cbn. apply pick_elem. exists j. auto.
    Qed.
    Lemma after_tree : starts_at_root h l -> l <> [] -> exists tr, troot tr = nx /\ tree_in h2 tr.
    Proof.
      intros Hr Hne. assert (Hk : 0 < k) by (unfold k; destruct l; [congruence|cbn; lia]).
      apply (rooted_tree h2 (fun a => nx <= a) nx).
      - intros x y Hx Hc. apply child_new in Hc as (i & j & Hi & Hj & -> & -> & _); [|exact Hx]. split; [lia|apply new_alive; exact Hj].
      - intros x y z Hx Hy Hxz Hyz. apply child_new in Hxz as (i & j & Hi & Hj & -> & -> & Hp); [|exact Hx].
        apply child_new in Hyz as (i' & j' & Hi' & Hj' & -> & E & Hp'); [|exact Hy]. assert (j' = j) as -> by lia. congruence.
      - lia.
      - intros x Hx Hc. apply child_new in Hc as (i & j & Hi & Hj & -> & E & Hp); [|exact Hx]. assert (j = 0) as -> by lia.
        unfold pidx in Hp. destruct l as [|a0 l'] eqn:El; [congruence|]. cbn [lookup list_lookup] in Hp.
        destruct (par h a0) as [p|] eqn:Ep; [|discriminate]. unfold par in Ep. destruct (h !! a0) as [n0|] eqn:En; [|discriminate].
        rewrite (Hr a0 n0 eq_refl En) in Ep. discriminate.
      - rewrite <- (Nat.add_0_r nx). apply new_alive. exact Hk.
    Qed.
  End After.
End CloneProofs2.
