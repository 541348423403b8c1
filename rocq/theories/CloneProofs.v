(** * Cloning chains: proofs *)
From Coq Require Import String.
From stdpp Require Import gmap.
From Verif Require Import Scalar Geometry Joint Link Prog NodeM ChainM RunLemmas SpecJoint SpecNode JointProofs NodeProofs
  SpecGraph GraphProofs SpecChain ChainProofs Api SpecClone.

Lemma index_of_lookup x l i : index_of x l = Some i -> l !! i = Some x.
Proof.
  revert i. induction l as [|y l IH]; intros i; cbn; [discriminate|]. destruct (decide (y = x)) as [->|Hne].
  - intros E. injection E as <-. reflexivity.
  - destruct (index_of x l) as [j|]; [|discriminate]. cbn. intros E. injection E as <-. apply IH. reflexivity.
Qed.
Lemma index_of_elem x l : x ∈ l -> exists i, index_of x l = Some i.
Proof.
  induction 1 as [x l|x y l H [i Hi]]; cbn; [rewrite decide_True by done; eauto|].
  destruct (decide (y = x)); [eauto|]. rewrite Hi. eauto.
Qed.
Lemma index_of_none x l : x ∉ l -> index_of x l = None.
Proof. destruct (index_of x l) as [i|] eqn:E; [|reflexivity]. apply index_of_lookup, elem_of_list_lookup_2 in E. contradiction. Qed.
Lemma index_of_nodup l i x : NoDup l -> l !! i = Some x -> index_of x l = Some i.
Proof.
  intros Hnd Hi. destruct (index_of_elem x l) as [j Hj]; [eapply elem_of_list_lookup_2; eauto|].
  rewrite Hj. f_equal. eapply NoDup_lookup; eauto using index_of_lookup.
Qed.

Section CloneProofs.
  Context {T : Type} `{Sc : Scalar T}.
  Implicit Types (h : gmap nat (node T)).

  Section Fixed.
    Variables (h : gmap nat (node T)) (nx : nat) (l : list nat).
    Hypothesis Hok : heap_ok h nx.
    Hypothesis Hl : all_live h l.

    (** live parent and mimic parent of the [j]th node, and their positions *)
    Definition par (a : nat) : option nat := match h !! a with Some n => live h (n_parent n) | None => None end.
    Definition mpar (a : nat) : option nat := match h !! a with Some n => live h (n_mimic_parent n) | None => None end.
    Definition pidx (j : nat) : option nat := match l !! j with Some a => match par a with Some p => index_of p l | None => None end | None => None end.
    Definition midx (j : nat) : option nat := match l !! j with Some a => match mpar a with Some p => index_of p l | None => None end | None => None end.
    Definition pick (g : nat -> option nat) (d i : nat) : list nat :=
      map (Nat.add nx) (List.filter (fun j => bool_decide (g j = Some i)) (seq 0 d)).
    (** the copy of the [i]th node after [d] parent links and [e] mimic links were made *)
    Definition copied (d e i : nat) (n : node T) : node T :=
      Node (if decide (i < d) then Nat.add nx <$> pidx i else None) (pick pidx d i) (n_joint n)
           (if decide (i < e) then Nat.add nx <$> midx i else None) (pick midx e i)
           (if decide (i < e) then match midx i with Some _ => n_mimic n | None => None end else None) (n_link n).
    Record is_heap (d e k : nat) h' : Prop := {
      ih_old : forall b, b < nx -> h' !! b = h !! b;
      ih_none : forall i, k <= i -> h' !! (nx + i) = None;
      ih_new : forall i a n, i < k -> l !! i = Some a -> h !! a = Some n -> h' !! (nx + i) = Some (copied d e i n);
    }.

    Lemma pick_S g d i : pick g (S d) i = pick g d i ++ (if decide (g d = Some i) then [nx + d] else []).
    Proof.
      unfold pick. rewrite seq_S, List.filter_app, map_app. f_equal. cbn [List.filter Nat.add].
      destruct (decide (g d = Some i)); [rewrite bool_decide_true by assumption|rewrite bool_decide_false by assumption]; reflexivity.
    Qed.
    Lemma live_old d e k h' w : is_heap d e k h' -> w < nx -> live h' (Some w) = live h (Some w).
    Proof. intros H Hw. unfold live. rewrite (ih_old _ _ _ _ H) by assumption. reflexivity. Qed.
    Lemma old_lookup d e k h' a n : is_heap d e k h' -> h !! a = Some n -> h' !! a = Some n.
    Proof. intros H Hn. rewrite (ih_old _ _ _ _ H); [assumption|]. apply (hk_bound _ _ Hok). eauto. Qed.
    Lemma live_par d e k h' a n : is_heap d e k h' -> h !! a = Some n -> live h' (n_parent n) = par a.
    Proof.
      intros H Hn. unfold par. rewrite Hn. destruct (n_parent n) as [w|] eqn:E; [|reflexivity].
      eapply live_old; [exact H|]. eapply (hk_parent _ _ Hok); eauto.
    Qed.
    Lemma live_mpar d e k h' a n : is_heap d e k h' -> h !! a = Some n -> live h' (n_mimic_parent n) = mpar a.
    Proof.
      intros H Hn. unfold mpar. rewrite Hn. destruct (n_mimic_parent n) as [w|] eqn:E; [|reflexivity].
      eapply live_old; [exact H|]. eapply (hk_mimic_parent _ _ Hok); eauto.
    Qed.
    Lemma old_bound a n : h !! a = Some n -> a < nx.
    Proof. intros H. apply (hk_bound _ _ Hok). eauto. Qed.

    Lemma is_heap_start : is_heap 0 0 0 h.
    Proof.
      split; [auto| |intros; lia]. intros i _. destruct (h !! (nx + i)) as [n|] eqn:E; [|reflexivity].
      apply old_bound in E. lia.
    Qed.

    (** ** the copies *)
    Lemma run_clone_node t k a h1 : l !! k = Some a -> is_heap 0 0 k h1 ->
      exists h2, run t (clone_node a) (quiet h1 (nx + k)) = Done (nx + k) (quiet h2 (nx + S k)) /\ is_heap 0 0 (S k) h2.
    Proof.
      intros Hk H1. destruct (Hl a) as [n Hn]; [eapply elem_of_list_lookup_2; eauto|].
      pose proof (old_lookup _ _ _ _ _ _ H1 Hn) as Hn1. pose proof (old_bound _ _ Hn) as Hb.
      exists (<[nx + k := set_n_link (fresh_node (n_joint n)) (n_link n)]> h1). split.
      - unfold clone_node, quiet.
        rewrite (run_lock_bind t a _ h1 (nx + k) ∅ n Hn1 (lookup_empty a)).
        rewrite (run_get_bind t a _ h1 (nx + k) _ n Hn1 (lookup_insert _ _ _)).
        unfold node_new. rewrite run_bind, run_new. cbn [obind].
        rewrite run_unlock_bind by apply lookup_insert. rewrite delete_insert by apply lookup_empty.
        set (h1' := <[nx + k := fresh_node (n_joint n)]> h1).
        assert (Hn2 : h1' !! a = Some n) by (unfold h1'; rewrite lookup_insert_ne by lia; assumption).
        assert (Hn3 : h1' !! (nx + k) = Some (fresh_node (n_joint n))) by apply lookup_insert.
        rewrite (run_lock_bind t a _ h1' (S (nx + k)) ∅ n Hn2 (lookup_empty a)).
        rewrite (run_get_bind t a _ h1' (S (nx + k)) _ n Hn2 (lookup_insert _ _ _)).
        unfold node_set_link. rewrite run_bind.
        rewrite (run_modify t (nx + k) _ h1' _ _ _ Hn3) by (rewrite lookup_insert_ne by lia; apply lookup_empty).
        cbn [obind]. unfold h1'. rewrite run_unlock_bind by apply lookup_insert. rewrite delete_insert by apply lookup_empty.
        rewrite insert_insert. rewrite Nat.add_succ_r. reflexivity.
      - destruct H1 as [O1 N1 C1]. split.
        + intros b Hbn. rewrite lookup_insert_ne by lia. auto.
        + intros i Hi. rewrite lookup_insert_ne by lia. apply N1. lia.
        + intros i a' n' Hi Ha' Hn'. destruct (decide (i = k)) as [->|Hne].
          * rewrite lookup_insert. assert (a' = a) as -> by congruence. assert (n' = n) as -> by congruence. reflexivity.
          * rewrite lookup_insert_ne by lia. apply (C1 i a' n'); [lia|assumption|assumption].
    Qed.
    Lemma run_clone_nodes t : forall l2 k h1, drop k l = l2 -> is_heap 0 0 k h1 ->
      exists h2, run t (mapM clone_node l2) (quiet h1 (nx + k)) = Done (seq (nx + k) (length l2)) (quiet h2 (nx + (k + length l2))) /\
        is_heap 0 0 (k + length l2) h2.
    Proof.
      induction l2 as [|a l2 IH]; intros k h1 Hd H1.
      - exists h1. rewrite Nat.add_0_r. split; [reflexivity|assumption].
      - assert (Hk : l !! k = Some a). { rewrite <- (Nat.add_0_r k), <- lookup_drop, Hd. reflexivity. }
        destruct (run_clone_node t k a h1 Hk H1) as (h2 & R2 & H2).
        destruct (IH (S k) h2) as (h3 & R3 & H3); [|assumption|].
        { replace (S k) with (k + 1) by lia. rewrite <- drop_drop, Hd. reflexivity. }
        exists h3. rewrite run_mapM_cons, R2. cbn [obind]. rewrite R3. cbn [obind length seq].
        replace (S (nx + k)) with (nx + S k) by lia. replace (k + S (length l2)) with (S k + length l2) by lia. auto.
    Qed.

    (** ** the links *)
    Let k := length l.
    Definition parent_ok (j : nat) : Prop := forall a p, l !! j = Some a -> par a = Some p -> p ∈ l.
    Definition mimic_ok (j : nat) : Prop := forall a n m, l !! j = Some a -> h !! a = Some n -> mpar a = Some m -> m ∈ l /\ is_Some (n_mimic n).
    Lemma news_lookup i : i < k -> seq nx k !! i = Some (nx + i).
    Proof. intros. apply lookup_seq. auto. Qed.
    Lemma pidx_bound j i : pidx j = Some i -> i < k.
    Proof.
      unfold pidx. destruct (l !! j) as [a|]; [|discriminate]. destruct (par a) as [p|]; [|discriminate].
      intros H. apply index_of_lookup, lookup_lt_Some in H. exact H.
    Qed.
    Lemma midx_bound j i : midx j = Some i -> i < k.
    Proof.
      unfold midx. destruct (l !! j) as [a|]; [|discriminate]. destruct (mpar a) as [p|]; [|discriminate].
      intros H. apply index_of_lookup, lookup_lt_Some in H. exact H.
    Qed.
    Lemma node_of_index i : i < k -> exists a n, l !! i = Some a /\ h !! a = Some n.
    Proof.
      intros Hi. destruct (lookup_lt_is_Some_2 l i Hi) as [a Ha]. destruct (Hl a) as [n Hn]; [eapply elem_of_list_lookup_2; eauto|]. eauto.
    Qed.

    (** one parent link *)
    Lemma parent_link j i h1 a n a2 n2 : l !! j = Some a -> h !! a = Some n -> is_heap j j k h1 ->
      pidx j = Some i -> l !! i = Some a2 -> h !! a2 = Some n2 ->
      forall t L, L !! (nx + j) = None -> L !! (nx + i) = None ->
      exists h2, run t (node_set_parent (nx + j) (nx + i)) (Sh h1 (nx + k) L ∅) = Done tt (Sh h2 (nx + k) L ∅) /\ is_heap (S j) j k h2.
    Proof.
      intros Hj Hn H1 Hp Hi Hn2 t L HL1 HL2. assert (Hjk : j < k) by (eapply lookup_lt_Some; eauto). assert (Hik : i < k) by (eapply lookup_lt_Some; eauto).
      pose proof (ih_new _ _ _ _ H1 j a n Hjk Hj Hn) as E1. pose proof (ih_new _ _ _ _ H1 i a2 n2 Hik Hi Hn2) as E2.
      set (x := set_n_parent (copied j j j n) (Some (nx + i))). set (h2 := <[nx + j := x]> h1).
      assert (exists y, h2 !! (nx + i) = Some y /\ y = if decide (i = j) then x else copied j j i n2) as (y & Ey & Hy).
      { unfold h2. destruct (decide (i = j)) as [->|Hne]; [rewrite lookup_insert; eauto|rewrite lookup_insert_ne by lia; eauto]. }
      exists (<[nx + i := set_n_children y (n_children y ++ [nx + j])]> h2). split.
      - unfold node_set_parent. rewrite run_bind, (run_modify t (nx + j) _ h1 (nx + k) L _ E1) by assumption. cbn [obind].
        fold x. fold h2. rewrite (run_modify t (nx + i) _ h2 (nx + k) L _ Ey) by assumption. reflexivity.
      - destruct H1 as [O1 N1 C1]. split.
        + intros b Hb. unfold h2. rewrite !lookup_insert_ne by lia. auto.
        + intros q Hq. unfold h2. rewrite !lookup_insert_ne by lia. auto.
        + intros q b m Hq Hb Hm. destruct (decide (q = i)) as [->|Hqi].
          * rewrite lookup_insert. assert (b = a2) as -> by congruence. assert (m = n2) as -> by congruence. f_equal. subst y.
            unfold copied. rewrite pick_S, Hp, (decide_True (P := Some i = Some i)) by reflexivity. destruct (decide (i = j)) as [->|Hne].
            -- destruct (decide (j < S j)); [|lia]. rewrite Hp. assert (n2 = n) as -> by congruence. reflexivity.
            -- destruct (decide (i < j)), (decide (i < S j)); try lia; reflexivity.
          * rewrite lookup_insert_ne by lia. unfold h2. destruct (decide (q = j)) as [->|Hqj].
            -- rewrite lookup_insert. assert (b = a) as -> by congruence. assert (m = n) as -> by congruence. f_equal.
               unfold x, copied. rewrite pick_S, Hp. rewrite (decide_False (P := Some i = Some j)) by congruence.
               rewrite app_nil_r, (decide_True (P := j < S j)) by lia. reflexivity.
            -- rewrite lookup_insert_ne by lia. rewrite (C1 q b m Hq Hb Hm). f_equal. unfold copied. rewrite pick_S, Hp.
               rewrite (decide_False (P := Some i = Some q)) by congruence. rewrite app_nil_r.
               destruct (decide (q < j)), (decide (q < S j)); try lia; reflexivity.
    Qed.
    Lemma no_parent_link j h1 : is_heap j j k h1 -> pidx j = None -> is_heap (S j) j k h1.
    Proof.
      intros [O1 N1 C1] Hp. split; [exact O1|exact N1|]. intros q b m Hq Hb Hm. rewrite (C1 q b m Hq Hb Hm). f_equal.
      unfold copied. rewrite pick_S, Hp. rewrite (decide_False (P := None = Some q)) by discriminate. rewrite app_nil_r.
      destruct (decide (q < j)), (decide (q < S j)); try lia; try reflexivity. assert (q = j) as -> by lia. rewrite Hp. reflexivity.
    Qed.
    (** one mimic link *)
    Lemma mimic_link j i h1 a n a2 n2 mi : l !! j = Some a -> h !! a = Some n -> is_heap (S j) j k h1 ->
      midx j = Some i -> l !! i = Some a2 -> h !! a2 = Some n2 -> n_mimic n = Some mi ->
      forall t L, L !! (nx + j) = None -> L !! (nx + i) = None ->
      exists h2, run t (node_set_mimic_parent (nx + j) (nx + i) mi) (Sh h1 (nx + k) L ∅) = Done tt (Sh h2 (nx + k) L ∅) /\ is_heap (S j) (S j) k h2.
    Proof.
      intros Hj Hn H1 Hp Hi Hn2 Hmi t L HL1 HL2. assert (Hjk : j < k) by (eapply lookup_lt_Some; eauto). assert (Hik : i < k) by (eapply lookup_lt_Some; eauto).
      pose proof (ih_new _ _ _ _ H1 j a n Hjk Hj Hn) as E1. pose proof (ih_new _ _ _ _ H1 i a2 n2 Hik Hi Hn2) as E2.
      set (x := set_n_mimic_parent (copied (S j) j j n) (Some (nx + i))). set (h2 := <[nx + j := x]> h1).
      assert (exists y, h2 !! (nx + i) = Some y /\ y = if decide (i = j) then x else copied (S j) j i n2) as (y & Ey & Hy).
      { unfold h2. destruct (decide (i = j)) as [->|Hne]; [rewrite lookup_insert; eauto|rewrite lookup_insert_ne by lia; eauto]. }
      set (y' := set_n_mimic_children y (n_mimic_children y ++ [nx + j])). set (h3 := <[nx + i := y']> h2).
      assert (exists z, h3 !! (nx + j) = Some z /\ z = if decide (i = j) then y' else x) as (z & Ez & Hz).
      { unfold h3. destruct (decide (i = j)) as [->|Hne]; [rewrite lookup_insert; eauto|rewrite lookup_insert_ne by lia].
        unfold h2. rewrite lookup_insert. eauto. }
      exists (<[nx + j := set_n_mimic z (Some mi)]> h3). split.
      - unfold node_set_mimic_parent. rewrite run_bind, (run_modify t (nx + j) _ h1 (nx + k) L _ E1) by assumption. cbn [obind].
        fold x. fold h2. rewrite run_bind, (run_modify t (nx + i) _ h2 (nx + k) L _ Ey) by assumption. cbn [obind].
        fold y'. fold h3. rewrite (run_modify t (nx + j) _ h3 (nx + k) L _ Ez) by assumption. reflexivity.
      - destruct H1 as [O1 N1 C1]. split.
        + intros b Hb. unfold h3, h2. rewrite !lookup_insert_ne by lia. auto.
        + intros q Hq. unfold h3, h2. rewrite !lookup_insert_ne by lia. auto.
        + intros q b m Hq Hb Hm. destruct (decide (q = j)) as [->|Hqj].
          * rewrite lookup_insert. assert (b = a) as -> by congruence. assert (m = n) as -> by congruence. f_equal. subst z y'. subst y.
            unfold copied. rewrite (pick_S midx), Hp. destruct (decide (j < S j)); [|lia]. rewrite Hmi.
            destruct (decide (i = j)) as [->|Hne].
            -- rewrite (decide_True (P := Some j = Some j)) by reflexivity. unfold x, copied. destruct (decide (j < S j)); [|lia]. reflexivity.
            -- rewrite (decide_False (P := Some i = Some j)) by congruence. rewrite app_nil_r. unfold x, copied. destruct (decide (j < S j)); [|lia]. reflexivity.
          * rewrite lookup_insert_ne by lia. unfold h3. destruct (decide (q = i)) as [->|Hqi].
            -- rewrite lookup_insert. assert (b = a2) as -> by congruence. assert (m = n2) as -> by congruence. f_equal. subst y' y.
               destruct (decide (i = j)); [lia|]. unfold copied. rewrite (pick_S midx), Hp. rewrite (decide_True (P := Some i = Some i)) by reflexivity.
               destruct (decide (i < j)), (decide (i < S j)); try lia; reflexivity.
            -- rewrite lookup_insert_ne by lia. unfold h2. rewrite lookup_insert_ne by lia. rewrite (C1 q b m Hq Hb Hm). f_equal.
               unfold copied. rewrite (pick_S midx), Hp. rewrite (decide_False (P := Some i = Some q)) by congruence. rewrite app_nil_r.
               destruct (decide (q < j)), (decide (q < S j)); try lia; reflexivity.
    Qed.
    Lemma no_mimic_link j h1 : is_heap (S j) j k h1 -> midx j = None -> is_heap (S j) (S j) k h1.
    Proof.
      intros [O1 N1 C1] Hp. split; [exact O1|exact N1|]. intros q b m Hq Hb Hm. rewrite (C1 q b m Hq Hb Hm). f_equal.
      unfold copied. rewrite (pick_S midx), Hp. rewrite (decide_False (P := None = Some q)) by discriminate. rewrite app_nil_r.
      destruct (decide (q < j)), (decide (q < S j)); try lia; try reflexivity. assert (q = j) as -> by lia. rewrite Hp. reflexivity.
    Qed.

    Lemma run_connect t j a h1 : l !! j = Some a -> is_heap j j k h1 ->
      (parent_ok j /\ mimic_ok j /\ exists h2,
        run t (clone_connect l (seq nx k) (a, nx + j)) (quiet h1 (nx + k)) = Done tt (quiet h2 (nx + k)) /\ is_heap (S j) (S j) k h2) \/
      (~ (parent_ok j /\ mimic_ok j) /\ exists m s, run t (clone_connect l (seq nx k) (a, nx + j)) (quiet h1 (nx + k)) = Panicked m s).
    Proof.
      intros Hj H1. destruct (Hl a) as [n Hn]; [eapply elem_of_list_lookup_2; eauto|].
      pose proof (old_bound _ _ Hn) as Hbn.
      unfold clone_connect. cbn [fst snd]. unfold quiet at 1 3.
      rewrite run_bind, (run_node_parent t a h1 (nx + k) ∅ n) by (eauto using old_lookup, lookup_empty). cbn [obind].
      rewrite (live_par _ _ _ _ _ _ H1 Hn). rewrite run_bind.
      assert (Hpar : (parent_ok j /\ exists h2, run t match par a with
          | Some p => i <- expect (index_of p l) "called `Option::unwrap()` on a `None` value" ;;
                      np <- expect (seq nx k !! i) "index out of bounds" ;; node_set_parent (nx + j) np
          | None => Ret tt end (Sh h1 (nx + k) ∅ ∅) = Done tt (quiet h2 (nx + k)) /\ is_heap (S j) j k h2) \/
        (~ parent_ok j /\ exists m s, run t match par a with
          | Some p => i <- expect (index_of p l) "called `Option::unwrap()` on a `None` value" ;;
                      np <- expect (seq nx k !! i) "index out of bounds" ;; node_set_parent (nx + j) np
          | None => Ret tt end (Sh h1 (nx + k) ∅ ∅) = Panicked m s)).
      { destruct (par a) as [p|] eqn:Ep.
        - destruct (decide (p ∈ l)) as [Hin|Hout].
          + left. split; [intros a' p' Ha' Hp'; congruence|].
            destruct (index_of_elem p l Hin) as [i Hi]. rewrite Hi. cbn [expect bind].
            assert (Hik : i < k) by (eapply lookup_lt_Some, index_of_lookup; eauto). rewrite news_lookup by exact Hik. cbn [expect bind].
            destruct (node_of_index i Hik) as (a2 & n2 & Ha2 & Hn2).
            apply (parent_link j i h1 a n a2 n2 Hj Hn H1); auto using lookup_empty.
            unfold pidx. rewrite Hj, Ep. exact Hi.
          + right. split; [intros H; apply Hout; eapply H; eauto|]. rewrite index_of_none by exact Hout. eexists _, _. reflexivity.
        - left. split; [intros a' p' Ha' Hp'; congruence|]. exists h1. split; [reflexivity|]. apply no_parent_link; [exact H1|].
          unfold pidx. rewrite Hj, Ep. reflexivity. }
      destruct Hpar as [[Hpok (h2 & Hr & H2)]|[Hpno (m & s & Hr)]]; rewrite Hr; cbn [obind]; [|right; split; [tauto|eauto]].
      unfold quiet at 1 3. rewrite run_bind, (run_node_mimic_parent t a h2 (nx + k) ∅ n) by (eauto using old_lookup, lookup_empty). cbn [obind].
      rewrite (live_mpar _ _ _ _ _ _ H2 Hn). destruct (mpar a) as [m|] eqn:Em.
      - destruct (decide (m ∈ l)) as [Hin|Hout].
        + destruct (index_of_elem m l Hin) as [i Hi]. rewrite Hi. cbn [expect bind].
          assert (Hik : i < k) by (eapply lookup_lt_Some, index_of_lookup; eauto). rewrite news_lookup by exact Hik. cbn [expect bind].
          pose proof (old_lookup _ _ _ _ _ _ H2 Hn) as Hn2'.
          rewrite (run_lock_bind t a _ h2 (nx + k) ∅ n Hn2' (lookup_empty a)).
          rewrite (run_get_bind t a _ h2 (nx + k) _ n Hn2' (lookup_insert _ _ _)).
          destruct (n_mimic n) as [mi|] eqn:Emi.
          * left. split; [exact Hpok|]. split; [intros a' n' m' Ha' Hn' Hm'; split; [congruence|]; assert (n' = n) as -> by congruence; eauto|].
            cbn [expect bind]. destruct (node_of_index i Hik) as (a2 & n2 & Ha2 & Hn2).
            destruct (mimic_link j i h2 a n a2 n2 mi Hj Hn H2) with (t := t) (L := <[a := t]> (∅ : gmap nat nat)) as (h3 & R3 & H3); auto.
            { unfold midx. rewrite Hj, Em. exact Hi. }
            { rewrite lookup_insert_ne by lia. apply lookup_empty. }
            { rewrite lookup_insert_ne by lia. apply lookup_empty. }
            exists h3. split; [|exact H3]. rewrite run_bind, R3. cbn [obind]. rewrite run_unlock by apply lookup_insert.
            rewrite delete_insert by apply lookup_empty. reflexivity.
          * right. split; [|eexists _, _; reflexivity]. intros [_ H]. destruct (H a n m Hj Hn Em) as [_ [? E]]. congruence.
        + right. split; [|rewrite index_of_none by exact Hout; eexists _, _; reflexivity].
          intros [_ H]. destruct (H a n m Hj Hn Em) as [E _]. contradiction.
      - left. split; [exact Hpok|]. split; [intros a' n' m' Ha' Hn' Hm'; congruence|]. exists h2. split; [reflexivity|].
        apply no_mimic_link; [exact H2|]. unfold midx. rewrite Hj, Em. reflexivity.
    Qed.
    Lemma run_connects t : forall l2 j h1, drop j l = l2 -> is_heap j j k h1 ->
      ((forall i, j <= i -> parent_ok i /\ mimic_ok i) /\ exists h2,
        run t (forM_ (clone_connect l (seq nx k)) (zip l2 (seq (nx + j) (length l2)))) (quiet h1 (nx + k)) = Done tt (quiet h2 (nx + k)) /\ is_heap k k k h2) \/
      (~ (forall i, j <= i -> parent_ok i /\ mimic_ok i) /\ exists m s,
        run t (forM_ (clone_connect l (seq nx k)) (zip l2 (seq (nx + j) (length l2)))) (quiet h1 (nx + k)) = Panicked m s).
    Proof.
      induction l2 as [|a l2 IH]; intros j h1 Hd H1.
      - left. assert (Hjk : k <= j). { apply (f_equal length) in Hd. rewrite drop_length in Hd. cbn in Hd. unfold k. lia. } split.
        + intros i Hi. assert (l !! i = None) by (apply lookup_ge_None; unfold k in *; lia). split; intros a; intros; congruence.
        + exists h1. split; [reflexivity|]. destruct H1 as [O1 N1 C1]. split; [exact O1|exact N1|].
          intros i a n Hi Ha Hn. rewrite (C1 i a n Hi Ha Hn). f_equal. unfold copied.
          assert (Hpick : forall g, (forall x, k <= x -> g x = None) -> pick g j i = pick g k i).
          { intros g Hg. replace j with (k + (j - k)) by lia. generalize (j - k). intros d. induction d as [|d IHd]; [rewrite Nat.add_0_r; reflexivity|].
            rewrite Nat.add_succ_r, pick_S, IHd, Hg by lia. rewrite decide_False by discriminate. apply app_nil_r. }
          assert (Hnone : forall x, k <= x -> l !! x = None) by (intros; apply lookup_ge_None; assumption).
          rewrite (Hpick pidx), (Hpick midx); [|intros x Hx; unfold midx; rewrite Hnone by exact Hx; reflexivity|intros x Hx; unfold pidx; rewrite Hnone by exact Hx; reflexivity].
          destruct (decide (i < j)), (decide (i < k)); try lia; reflexivity.
      - assert (Hj : l !! j = Some a). { rewrite <- (Nat.add_0_r j), <- lookup_drop, Hd. reflexivity. }
        cbn [length seq zip zip_with]. change (zip_with pair l2 (seq (S (nx + j)) (length l2))) with (zip l2 (seq (S (nx + j)) (length l2))).
        rewrite run_forM__cons. destruct (run_connect t j a h1 Hj H1) as [(P1 & P2 & h2 & R2 & H2)|[Hno (m & s & R2)]]; rewrite R2; cbn [obind].
        + destruct (IH (S j) h2) as [[Hall (h3 & R3 & H3)]|[Hno Hp]]; [|exact H2| |].
          * replace (S j) with (j + 1) by lia. rewrite <- drop_drop, Hd. reflexivity.
          * left. split; [|exists h3; rewrite Nat.add_succ_r in R3; auto]. intros i Hi. destruct (decide (i = j)) as [->|Hne]; [auto|apply Hall; lia].
          * right. split; [|rewrite Nat.add_succ_r in Hp; exact Hp]. intros H. apply Hno. intros i Hi. apply H. lia.
        + right. split; [|eauto]. intros H. apply Hno. apply H. lia.
    Qed.
  End Fixed.
End CloneProofs.
