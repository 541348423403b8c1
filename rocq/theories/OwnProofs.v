(** * Ownership: proofs *)
From Coq Require Import String Permutation.
From stdpp Require Import gmap.
From Verif Require Import Scalar Geometry Joint Link Prog RunLemmas NodeM ChainM FuncsM IkM Safe SafeSound SafeNode SafeChain
  Api ApiProofs ApiSound SpecHist HistProofs Own SpecOwn.

Section Counting.
  Lemma refs_to_app a l1 l2 : refs_to a (l1 ++ l2) = refs_to a l1 + refs_to a l2.
  Proof. apply count_occ_app. Qed.
  Lemma refs_to_cons a b l : refs_to a (b :: l) = (if Nat.eq_dec b a then 1 else 0) + refs_to a l.
  Proof. unfold refs_to. cbn. destruct (Nat.eq_dec b a); reflexivity. Qed.
  Lemma refs_to_nil a : refs_to a [] = 0.
  Proof. reflexivity. Qed.
  Lemma refs_to_perm a l1 l2 : l1 ≡ₚ l2 -> refs_to a l1 = refs_to a l2.
  Proof. intros H. apply (Permutation_count_occ Nat.eq_dec). assumption. Qed.
  Lemma refs_to_pos a l : 0 < refs_to a l <-> a ∈ l.
  Proof. unfold refs_to. rewrite elem_of_list_In, (count_occ_In Nat.eq_dec). lia. Qed.
End Counting.

Section Release.
  Context {T : Type}.
  Implicit Types (h : gmap nat (node T)) (rc : gmap nat nat).

  Lemma stored_elem h b : b ∈ stored h <-> exists a, holds_ref h a b.
  Proof.
    unfold stored. rewrite elem_of_list_bind. split.
    - intros ([a n] & Hb & Ha). apply elem_of_map_to_list in Ha. cbn in Hb. exists a, n. split; [assumption|].
      apply elem_of_app in Hb. assumption.
    - intros (a & n & Hn & Hb). exists (a, n). split; [apply elem_of_app; assumption|]. apply elem_of_map_to_list. assumption.
  Qed.
  Lemma stored_insert h a n : h !! a = None -> stored (<[a := n]> h) ≡ₚ strong_refs n ++ stored h.
  Proof.
    intros Ha. unfold stored. rewrite (map_to_list_insert h a n Ha). reflexivity.
  Qed.
  Lemma stored_delete h a n : h !! a = Some n -> stored h ≡ₚ strong_refs n ++ stored (delete a h).
  Proof.
    intros Ha. rewrite <- (insert_id h a n Ha) at 1. rewrite <- insert_delete_insert.
    apply stored_insert. apply lookup_delete.
  Qed.
  Lemma stored_update h a n0 n : h !! a = Some n0 ->
    stored (<[a := n]> h) ++ strong_refs n0 ≡ₚ strong_refs n ++ stored h.
  Proof.
    intros Ha. rewrite (stored_delete h a n0 Ha). rewrite <- insert_delete_insert.
    rewrite stored_insert by apply lookup_delete. solve_Permutation.
  Qed.

  (** ** the counters *)
  Lemma counts_perm l1 l2 h rc : l1 ≡ₚ l2 -> counts_right l1 h rc -> counts_right l2 h rc.
  Proof. intros Hp H a. specialize (H a). rewrite <- (refs_to_perm a l1 l2 Hp). exact H. Qed.
  Lemma counts_alive l h rc a : counts_right l h rc -> is_Some (rc !! a) <-> is_Some (h !! a).
  Proof.
    intros H. specialize (H a). destruct (rc !! a).
    - split; [intros _; tauto|eauto].
    - destruct H as [-> _]. split; intros [? ?]; discriminate.
  Qed.
  Lemma counts_mine l h rc a : counts_right l h rc -> a ∈ l -> is_Some (h !! a).
  Proof.
    intros H Ha. apply refs_to_pos in Ha. specialize (H a). destruct (rc !! a); [tauto|]. lia.
  Qed.
  Lemma counts_stored l h rc a : counts_right l h rc -> a ∈ stored h -> is_Some (h !! a).
  Proof.
    intros H Ha. apply refs_to_pos in Ha. specialize (H a). destruct (rc !! a); [tauto|]. lia.
  Qed.
  Lemma counts_no_dangling l h rc : counts_right l h rc -> no_dangling l h.
  Proof.
    intros H. split; [intros a; apply (counts_mine _ _ _ _ H)|].
    intros a b Hab. apply (counts_stored _ _ _ _ H). apply stored_elem. eauto.
  Qed.
  Lemma counts_all l h rc : counts_right l h rc -> supported (fun x => is_Some (h !! x)) l h.
  Proof.
    intros H x Hx. split; [assumption|]. pose proof (H x) as Hc.
    destruct (proj2 (counts_alive _ _ _ x H) Hx) as [k Hk]. rewrite Hk in Hc. destruct Hc as (_ & Hk0 & Ek).
    destruct (refs_to x l) as [|m] eqn:E.
    - right. destruct (proj1 (stored_elem h x)) as (y & Hy); [apply refs_to_pos; lia|]. exists y.
      split; [|assumption]. destruct Hy as (n & Hn & _). eauto.
    - left. apply refs_to_pos. lia.
  Qed.
  Lemma clone_ok l h rc a : counts_right l h rc -> is_Some (h !! a) ->
    exists rc', arc_clone a rc = Some rc' /\ counts_right (a :: l) h rc'.
  Proof.
    intros H Ha. destruct (proj2 (counts_alive _ _ _ a H) Ha) as [k Hk]. unfold arc_clone. rewrite Hk.
    eexists. split; [reflexivity|]. intros b. rewrite refs_to_cons. pose proof (H b) as Hb.
    destruct (Nat.eq_dec a b) as [->|Hne].
    - rewrite lookup_insert. rewrite Hk in Hb. destruct Hb as (? & ? & ?). split; [assumption|]. lia.
    - rewrite lookup_insert_ne by assumption. exact Hb.
  Qed.
  Lemma clones_ok : forall new l h rc, counts_right l h rc -> (forall a, a ∈ new -> is_Some (h !! a)) ->
    exists rc', arc_clones new rc = Some rc' /\ counts_right (new ++ l) h rc'.
  Proof.
    induction new as [|a new IH]; intros l h rc H Hn; cbn [arc_clones]; [eauto|].
    destruct (clone_ok l h rc a H (Hn a ltac:(left))) as (rc1 & -> & H1).
    destruct (IH _ _ _ H1 ltac:(intros b Hb; apply Hn; right; exact Hb)) as (rc2 & -> & H2).
    eexists. split; [reflexivity|]. eapply counts_perm; [|exact H2]. cbn. solve_Permutation.
  Qed.

  (** ** dropping references *)
  Lemma supported_sub (S : nat -> Prop) l h h' : supported S l h ->
    (forall x, S x -> h' !! x = h !! x) -> supported S l h'.
  Proof.
    intros H E x Hx. destruct (H x Hx) as [H1 H2]. rewrite (E x Hx). split; [assumption|].
    destruct H2 as [H2|(y & Hy & n & Hn & Hr)]; [auto|]. right. exists y. split; [assumption|]. exists n.
    rewrite (E y Hy). auto.
  Qed.
  Lemma release_spec keep (S : nat -> Prop) : forall fuel work h rc,
    length work + length (stored h) <= fuel ->
    counts_right (work ++ keep) h rc -> supported S keep h ->
    exists h' rc', release fuel work h rc = Some (h', rc') /\ counts_right keep h' rc' /\ h' ⊆ h /\
      (forall x, S x -> h' !! x = h !! x) /\ (h = h' \/ exists x, is_Some (h !! x) /\ h' !! x = None).
  Proof.
    induction fuel as [|fuel IH]; intros work h rc Hf Hc Hs.
    { destruct work; [|cbn in Hf; lia]. exists h, rc. cbn. auto 10. }
    destruct work as [|a work]; cbn [release]; [exists h, rc; auto 10|].
    pose proof (Hc a) as Ha. destruct (rc !! a) as [[|[|k]]|] eqn:Ek.
    - lia.
    - destruct Ha as ([n Hn] & _ & E). rewrite Hn. pose proof (stored_delete h a n Hn) as Hp.
      assert (Hns : ~ S a).
      { intros HS. destruct (Hs a HS) as [_ [Hm|(y & _ & Hy)]].
        - apply refs_to_pos in Hm. rewrite <- app_comm_cons, refs_to_cons, refs_to_app in E.
          destruct (Nat.eq_dec a a); [lia|congruence].
        - assert (Hst : a ∈ stored h) by (apply stored_elem; eauto).
          apply refs_to_pos in Hst. rewrite <- app_comm_cons, refs_to_cons in E.
          destruct (Nat.eq_dec a a); [lia|congruence]. }
      assert (HSd : forall x, S x -> delete a h !! x = h !! x).
      { intros x Hx. apply lookup_delete_ne. congruence. }
      destruct (IH (strong_refs n ++ work) (delete a h) (delete a rc)) as (h' & rc' & E1 & E2 & E3 & E4 & E5).
      + apply Permutation_length in Hp. rewrite app_length in *. cbn in Hf. lia.
      + intros b. pose proof (Hc b) as Hb. rewrite (refs_to_perm b _ _ Hp) in Hb.
        rewrite <- app_comm_cons, refs_to_cons, !refs_to_app in Hb. rewrite !refs_to_app.
        rewrite (refs_to_perm a _ _ Hp) in E. rewrite <- app_comm_cons, refs_to_cons, !refs_to_app in E.
        destruct (Nat.eq_dec a b) as [->|Hne].
        * rewrite !lookup_delete. destruct (Nat.eq_dec b b); [|congruence]. split; [reflexivity|]. lia.
        * rewrite !lookup_delete_ne by assumption. destruct (rc !! b); [|split; [tauto|lia]].
          destruct Hb as (? & ? & ?). split; [assumption|]. lia.
      + apply (supported_sub S keep h); assumption.
      + exists h', rc'. split; [assumption|]. split; [assumption|]. split; [etrans; [exact E3|apply delete_subseteq]|].
        split; [intros x Hx; rewrite E4 by assumption; auto|].
        right. exists a. split; [eauto|]. destruct (h' !! a) as [n'|] eqn:En; [|reflexivity].
        pose proof (lookup_weaken _ _ _ _ En E3) as Hd. rewrite lookup_delete in Hd. discriminate.
    - destruct Ha as ([n Hn] & _ & E). rewrite Hn.
      destruct (IH work h (<[a := Datatypes.S k]> rc)) as (h' & rc' & E1 & E2 & E3 & E4 & E5).
      + cbn in Hf. lia.
      + intros b. pose proof (Hc b) as Hb. rewrite <- app_comm_cons, refs_to_cons in Hb, E.
        destruct (Nat.eq_dec a b) as [->|Hne].
        * rewrite lookup_insert. destruct (Nat.eq_dec b b); [|congruence]. split; [eauto|]. lia.
        * rewrite lookup_insert_ne by assumption. exact Hb.
      + assumption.
      + exists h', rc'. auto 10.
    - rewrite <- app_comm_cons, refs_to_cons in Ha. destruct (Nat.eq_dec a a); [lia|congruence].
  Qed.
  Lemma drop_spec keep (S : nat -> Prop) work h rc :
    counts_right (work ++ keep) h rc -> supported S keep h ->
    exists h' rc', drop_refs work h rc = Some (h', rc') /\ counts_right keep h' rc' /\ h' ⊆ h /\
      (forall x, S x -> h' !! x = h !! x).
  Proof.
    intros Hc Hs. destruct (release_spec keep S _ work h rc (le_n _) Hc Hs) as (h' & rc' & H1 & H2 & H3 & H4 & _).
    exists h', rc'. auto.
  Qed.
  (** the nodes left are exactly those in some supported set *)
  Lemma drop_exact keep work h rc h' rc' :
    counts_right (work ++ keep) h rc -> drop_refs work h rc = Some (h', rc') ->
    forall x, is_Some (h' !! x) <-> exists S, supported S keep h /\ S x.
  Proof.
    intros Hc E x. split.
    - intros Hx. exists (fun x => is_Some (h' !! x)). split; [|assumption].
      destruct (drop_spec keep (fun _ => False) work h rc Hc) as (h1 & rc1 & E1 & H1 & H2 & _); [intros ? []|].
      rewrite E in E1. injection E1 as <- <-.
      intros y Hy. destruct (counts_all _ _ _ H1 y Hy) as [_ H3]. destruct Hy as [n Hn].
      split; [exists n; eapply lookup_weaken; eauto|]. destruct H3 as [H3|(z & Hz & nz & Hnz & Hr)]; [auto|].
      right. exists z. split; [assumption|]. exists nz. split; [eapply lookup_weaken; eauto|assumption].
    - intros (S & HS & Hx). destruct (drop_spec keep S work h rc Hc HS) as (h1 & rc1 & E1 & H1 & H2 & H3).
      rewrite E in E1. injection E1 as <- <-. rewrite (H3 x Hx). apply (HS x Hx).
  Qed.
  (** references that are stored or held elsewhere as well: nothing is deallocated *)
  Lemma drop_keeps keep work h rc :
    counts_right (work ++ keep) h rc ->
    (forall b, b ∈ work -> b ∈ keep \/ b ∈ stored h) ->
    exists rc', drop_refs work h rc = Some (h, rc') /\ counts_right keep h rc'.
  Proof.
    intros Hc Hk.
    destruct (drop_spec keep (fun x => is_Some (h !! x)) work h rc Hc) as (h' & rc' & E & H1 & H2 & H3).
    - intros x Hx. split; [assumption|]. destruct (counts_all _ _ _ Hc x Hx) as [_ [Hm|Hr]]; [|auto].
      apply elem_of_app in Hm as [Hm|Hm]; [|auto]. destruct (Hk x Hm) as [Hx'|Hx']; [auto|].
      right. apply stored_elem in Hx' as (y & Hy). exists y. split; [|assumption]. destruct Hy as (n & Hn & _). eauto.
    - assert (h' = h) as ->; [|eauto]. apply map_eq. intros x. destruct (h !! x) as [n|] eqn:En.
      + rewrite H3; eauto.
      + destruct (h' !! x) as [n'|] eqn:En'; [|reflexivity]. rewrite (lookup_weaken _ _ _ _ En' H2) in En. discriminate.
  Qed.

  (** ** reachability *)
  Lemma supported_reach l h : no_dangling l h -> supported (reached_from h l) l h.
  Proof.
    intros [H1 H2] x (a & Ha & Hr). split.
    - apply rtc_inv_r in Hr as [<-|(y & _ & Hy)]; [auto|eauto].
    - apply rtc_inv_r in Hr as [<-|(y & Hay & Hy)]; [auto|]. right. exists y. split; [|assumption]. exists a. auto.
  Qed.
  Lemma reach_alive l h rc x : counts_right l h rc -> reached_from h l x -> is_Some (h !! x).
  Proof. intros H Hx. apply (supported_reach l h (counts_no_dangling _ _ _ H) x Hx). Qed.

  (** without cycles every live node is reached from a handle *)
  Lemma owner_path l h rc x : counts_right l h rc -> is_Some (h !! x) ->
    forall k, reached_from h l x \/ exists p : list nat, length p = k /\
      (forall y, y ∈ p -> is_Some (h !! y)) /\
      (forall i j y z, p !! i = Some y -> p !! j = Some z -> i < j -> tc (holds_ref h) y z) /\
      exists y, is_Some (h !! y) /\ reaches h y x /\ (forall z, z ∈ p -> tc (holds_ref h) y z).
  Proof.
    intros H Hx. induction k as [|k [Hr|(p & Hl & Hal & Hp & y & Hy1 & Hy2 & Hy3)]]; [|auto|].
    { right. exists []. split; [reflexivity|]. split; [intros y Hy; apply elem_of_nil in Hy; contradiction|].
      split; [intros i j y z Hi; rewrite lookup_nil in Hi; discriminate|].
      exists x. split; [assumption|]. split; [apply rtc_refl|]. intros z Hz. apply elem_of_nil in Hz. contradiction. }
    destruct (counts_all _ _ _ H y Hy1) as [_ [Hm|(w & Hw & Hwy)]].
    { left. exists y. auto. }
    right. exists (y :: p). split; [cbn; lia|]. split.
    { intros z Hz. apply elem_of_cons in Hz as [->|Hz]; auto. }
    split.
    - intros [|i] [|j] z v Hi Hj Hij; cbn in Hi, Hj; try lia.
      + injection Hi as <-. apply Hy3. eapply elem_of_list_lookup_2; eauto.
      + eapply Hp; eauto. lia.
    - exists w. split; [assumption|]. split; [eapply rtc_l; eauto|].
      intros z Hz. apply elem_of_cons in Hz as [->|Hz]; [apply tc_once; assumption|].
      eapply tc_l; eauto.
  Qed.
  Lemma no_leak l h rc : counts_right l h rc -> no_cycle h ->
    forall x, is_Some (h !! x) -> reached_from h l x.
  Proof.
    intros H Hc x Hx.
    destruct (owner_path l h rc x H Hx (S (size (dom h)))) as [Hr|(p & Hl & Hal & Hp & _)]; [assumption|]. exfalso.
    assert (Hnd : NoDup p).
    { apply NoDup_alt. intros i j y Hi Hj. destruct (Nat.lt_trichotomy i j) as [Hij|[->|Hij]]; [|reflexivity|].
      - exfalso. apply (Hc y). exact (Hp i j y y Hi Hj Hij).
      - exfalso. apply (Hc y). exact (Hp j i y y Hj Hi Hij). }
    assert (Hsub : list_to_set p ⊆ dom h).
    { intros y Hy. apply elem_of_list_to_set in Hy. apply elem_of_dom. auto. }
    apply subseteq_size in Hsub. rewrite size_list_to_set in Hsub by assumption. lia.
  Qed.
End Release.

Section OwnRun.
  Context {T : Type} `{Sc : Scalar T}.
  Implicit Types (h : gmap nat (node T)) (rc : gmap nat nat).

  (** a call gives up a stored reference only to a node its caller holds *)
  Definition refs_kept (K : nat -> Prop) (n n' : node T) : Prop :=
    forall b, b ∈ strong_refs n -> b ∈ strong_refs n' \/ K b.
  Definition own_mode h nx (K : nat -> Prop) : mode T :=
    lax h nx (fun _ _ => True) (fun _ => refs_kept K) (fun _ => True).
  Lemma refs_kept_refl K n : refs_kept K n n.
  Proof. intros b Hb. auto. Qed.
  Lemma refs_kept_trans K n1 n2 n3 : refs_kept K n1 n2 -> refs_kept K n2 n3 -> refs_kept K n1 n3.
  Proof. intros H1 H2 b Hb. destruct (H1 b Hb) as [H|H]; [apply H2; assumption|auto]. Qed.

  Lemma own_permitted h nx (K : nat -> Prop) R (k : api T R) :
    (forall a, a ∈ args k -> K a) -> permitted (own_mode h nx K) k.
  Proof.
    intros HK.
    assert (Csame : forall a (F : node T -> node T), (forall n, strong_refs (F n) = strong_refs n) -> can (own_mode h nx K) a F).
    { intros a F HF n _. split; [exact I|]. intros b Hb. left. rewrite HF. assumption. }
    assert (Cs : forall a, can_set (own_mode h nx K) a) by (intros a q; apply Csame; reflexivity).
    assert (Csa : forall c, can_set_all (own_mode h nx K) c) by (split; intros; apply Cs).
    assert (Cwt : forall c, can_wt_all (own_mode h nx K) c) by (intros c a _ w; apply Csame; reflexivity).
    assert (Cadd : forall a c, can_add_child (own_mode h nx K) a c).
    { intros a c n _. split; [exact I|]. intros b Hb. left. unfold strong_refs in *. cbn.
      rewrite !elem_of_app in *. tauto. }
    assert (Cm : forall a, can_mimic (own_mode h nx K) a).
    { intros a. split; [|split]; intros ?.
      - apply Csame. reflexivity.
      - intros n _. split; [exact I|]. intros b Hb. left. unfold strong_refs in *. cbn. rewrite !elem_of_app in *. tauto.
      - apply Csame. reflexivity. }
    destruct k; cbn [permitted] in *; try exact I; try reflexivity.
    - split; [intros ?|]; exact I.
    - split; [intros ?; apply Csame; reflexivity|apply Cadd].
    - split; [intros ?; apply Csame; reflexivity|].
      intros n _. split; [exact I|]. intros b Hb. unfold strong_refs in *. cbn. rewrite !elem_of_app in *.
      destruct (decide (b = self)) as [->|Hne]; [right; apply HK; left|]. left.
      destruct Hb as [Hb|Hb]; [left; apply elem_of_list_filter; auto|auto].
    - intros ?. apply Csame. reflexivity.
    - split; intros; apply Cs.
    - apply Csame. reflexivity.
    - apply Csame. reflexivity.
    - split; [reflexivity|]. split; apply Cm.
    - intros ?. apply Csame. reflexivity.
    - intros a _ ?. apply Csame. reflexivity.
    - apply Csa.
    - intros a q _ _. apply Csame. reflexivity.
    - intros a q _ _. apply Csame. reflexivity.
    - apply Cwt.
    - split; [reflexivity|]. split; [apply Cwt|]. intros a _ ?. apply Csame. reflexivity.
    - split; [apply Cwt|]. intros a _ ?. apply Csame. reflexivity.
    - intros a b n n' _ _. split; exact I.
    - apply Cwt.
    - apply Cwt.
    - split; [apply Cwt|]. split; [apply Csa|]. intros. apply Csame. reflexivity.
    - split; [apply Cwt|]. split; [apply Csa|]. intros. apply Csame. reflexivity.
  Qed.

  (** ** a call with the counters goes like the call without *)
  Section Agree.
    Context (h0 : gmap nat (node T)) (nx0 : nat) (K : nat -> Prop) (mine : list nat).
    Hypothesis K_mine : forall a, K a -> a ∈ mine.
    Notation m := (own_mode h0 nx0 K).
    Notation gc := (gcons m h0 nx0 (everything h0)).
    Let OLD (x : nat) : Prop := is_Some (h0 !! x).
    Definition good (s : sh T) rc (tmp : list nat) : Prop :=
      counts_right (tmp ++ mine) (heap s) rc /\ heap_ok (heap s) (nxt s) /\ supported OLD mine (heap s).

    Lemma step1 {A} t (Q : _ -> _ -> _ -> _ -> A -> Prop) pub priv hp hv p GP s :
      safe m Q pub priv hp hv p -> gc GP s -> tcons nx0 t pub priv hp hv GP s ->
      match exec1 t p s with
      | RStep p' s' => exists GP' pub' priv' hp' hv', safe m Q pub' priv' hp' hv' p' /\ gc GP' s' /\
          tcons nx0 t pub' priv' hp' hv' GP' s'
      | RStuck => False
      | _ => True
      end.
    Proof.
      intros Hs HG HT.
      pose proof (step_sound m h0 nx0 (everything h0) (fun _ => refs_kept_refl K) (fun _ => refs_kept_trans K)
        t Q pub priv hp hv p Hs GP s HG HT) as H.
      destruct (exec1 t p s); try exact I; [|assumption].
      destruct H as (GP' & pub' & priv' & hp' & hv' & H1 & H2 & H3 & _). eauto 10.
    Qed.

    Lemma put_good a n n0 s rc tmp :
      good s rc tmp -> heap s !! a = Some n0 -> refs_kept K n0 n ->
      (forall c, c ∈ strong_refs n -> is_Some (heap s !! c)) -> (forall w, w ∈ weak_refs n -> w < nxt s) ->
      exists rc1 rc2, arc_clones (strong_refs n) rc = Some rc1 /\
        drop_refs (strong_refs n0) (<[a := n]> (heap s)) rc1 = Some (<[a := n]> (heap s), rc2) /\
        good (set_heap s (<[a := n]> (heap s))) rc2 tmp.
    Proof.
      intros (Hc & Hok & Hs) Hn0 Hk Hst Hw.
      destruct (clones_ok (strong_refs n) _ _ _ Hc Hst) as (rc1 & E1 & Hc1). exists rc1.
      assert (Hal : forall x, is_Some (<[a := n]> (heap s) !! x) <-> is_Some (heap s !! x)).
      { intros x. rewrite lookup_insert_is_Some'. split; [intros [<-|?]; eauto|auto]. }
      assert (Hc2 : counts_right (strong_refs n0 ++ tmp ++ mine) (<[a := n]> (heap s)) rc1).
      { intros b. pose proof (Hc1 b) as Hb. pose proof (stored_update (heap s) a n0 n Hn0) as Hp.
        apply (refs_to_perm b) in Hp. rewrite !refs_to_app in Hp. rewrite !refs_to_app in Hb |- *.
        destruct (rc1 !! b).
        - destruct Hb as (B1 & B2 & B3). split; [apply Hal; assumption|]. lia.
        - destruct Hb as (B1 & B2). split; [|lia]. destruct (<[a := n]> (heap s) !! b) eqn:E; [|reflexivity].
          destruct (proj1 (Hal b) ltac:(eauto)). congruence. }
      destruct (drop_keeps (tmp ++ mine) _ _ _ Hc2) as (rc2 & E2 & Hc3).
      { intros b Hb. destruct (Hk b Hb) as [H|H].
        - right. apply stored_elem. exists a, n. rewrite lookup_insert. split; [reflexivity|]. apply elem_of_app. assumption.
        - left. apply elem_of_app. auto. }
      exists rc2. split; [assumption|]. split; [assumption|]. split; [exact Hc3|]. cbn [heap nxt set_heap]. split.
      - destruct Hok as [K1 K2 K3 K4 K5].
        assert (Hcases : forall b nb, <[a := n]> (heap s) !! b = Some nb -> (b = a /\ nb = n) \/ heap s !! b = Some nb).
        { intros b nb Hb. apply lookup_insert_Some in Hb as [[-> ->]|[_ Hb]]; auto. }
        split.
        + intros b Hb. apply K1. apply Hal. assumption.
        + intros b nb c Hb Hcc. apply Hal. destruct (Hcases b nb Hb) as [[-> ->]|Hb']; [|eauto].
          apply Hst. apply elem_of_app. auto.
        + intros b nb c Hb Hcc. apply Hal. destruct (Hcases b nb Hb) as [[-> ->]|Hb']; [|eauto].
          apply Hst. apply elem_of_app. auto.
        + intros b nb w Hb Hcc. destruct (Hcases b nb Hb) as [[-> ->]|Hb']; [|eauto].
          apply Hw. unfold weak_refs. rewrite Hcc. left.
        + intros b nb w Hb Hcc. destruct (Hcases b nb Hb) as [[-> ->]|Hb']; [|eauto].
          apply Hw. unfold weak_refs. rewrite Hcc. apply elem_of_app. right. left.
      - intros x Hx. destruct (Hs x Hx) as [X1 X2]. split; [apply Hal; assumption|].
        destruct X2 as [X2|(y & Hy & ny & Hny & Hr)]; [auto|].
        destruct (decide (y = a)) as [->|Hne].
        + assert (ny = n0) as -> by congruence.
          destruct (Hk x) as [H|H]; [apply elem_of_app; assumption| |auto].
          right. exists a. split; [assumption|]. exists n. rewrite lookup_insert. split; [reflexivity|].
          apply elem_of_app in H. assumption.
        + right. exists y. split; [assumption|]. exists ny. rewrite lookup_insert_ne by congruence. auto.
    Qed.
    Lemma new_good n s rc tmp :
      good s rc tmp -> strong_refs n ++ weak_refs n = [] ->
      good (alloc s n) (<[nxt s := 1]> rc) (nxt s :: tmp).
    Proof.
      intros (Hc & Hok & Hs) Hn. apply app_nil in Hn as [Hn Hw].
      pose proof Hok as [K1 K2 K3 K4 K5].
      assert (Hf : heap s !! nxt s = None).
      { destruct (heap s !! nxt s) eqn:E; [|reflexivity]. specialize (K1 (nxt s) ltac:(eauto)). lia. }
      assert (Hcases : forall b nb, <[nxt s := n]> (heap s) !! b = Some nb -> (b = nxt s /\ nb = n) \/ heap s !! b = Some nb).
      { intros b nb Hb. apply lookup_insert_Some in Hb as [[-> ->]|[_ Hb]]; auto. }
      assert (Hnil : n_children n = [] /\ n_mimic_children n = []) by (apply app_nil; exact Hn).
      assert (Hpar : n_parent n = None /\ n_mimic_parent n = None).
      { unfold weak_refs in Hw. destruct (n_parent n), (n_mimic_parent n); cbn in Hw; try discriminate. auto. }
      split; [|split]; cbn [heap nxt alloc].
      - intros b. pose proof (Hc b) as Hb. rewrite <- app_comm_cons, refs_to_cons.
        rewrite (refs_to_perm b _ _ (stored_insert (heap s) (nxt s) n Hf)), Hn. cbn [app].
        destruct (Nat.eq_dec (nxt s) b) as [<-|Hne].
        + rewrite !lookup_insert. destruct (rc !! nxt s).
          * destruct Hb as ([? Hb] & _). congruence.
          * destruct Hb as [_ Hb]. split; [eauto|]. lia.
        + rewrite !lookup_insert_ne by assumption. exact Hb.
      - split.
        + intros b [nb Hb]. destruct (Hcases b nb Hb) as [[-> ->]|Hb']; [lia|]. specialize (K1 b ltac:(eauto)). lia.
        + intros b nb c Hb Hcc. apply lookup_insert_is_Some'. right. destruct (Hcases b nb Hb) as [[-> ->]|Hb']; [|eauto].
          destruct Hnil as [E _]. rewrite E in Hcc. apply elem_of_nil in Hcc. contradiction.
        + intros b nb c Hb Hcc. apply lookup_insert_is_Some'. right. destruct (Hcases b nb Hb) as [[-> ->]|Hb']; [|eauto].
          destruct Hnil as [_ E]. rewrite E in Hcc. apply elem_of_nil in Hcc. contradiction.
        + intros b nb w Hb Hcc. destruct (Hcases b nb Hb) as [[-> ->]|Hb']; [destruct Hpar; congruence|].
          specialize (K4 _ _ _ Hb' Hcc). lia.
        + intros b nb w Hb Hcc. destruct (Hcases b nb Hb) as [[-> ->]|Hb']; [destruct Hpar; congruence|].
          specialize (K5 _ _ _ Hb' Hcc). lia.
      - intros x Hx. destruct (Hs x Hx) as [X1 X2]. split; [apply lookup_insert_is_Some'; auto|].
        destruct X2 as [X2|(y & Hy & ny & Hny & Hr)]; [auto|].
        right. exists y. split; [assumption|]. exists ny. rewrite lookup_insert_ne by congruence. auto.
    Qed.

    Lemma orun_agrees {A} t (Q : _ -> _ -> _ -> _ -> A -> Prop) : forall p pub priv hp hv GP s rc tmp,
      safe m Q pub priv hp hv p -> gc GP s -> tcons nx0 t pub priv hp hv GP s -> good s rc tmp ->
      erase (orun t p s rc tmp) = run t p s /\
      match orun t p s rc tmp with
      | ODone _ s' rc' tmp' | OPanicked _ s' rc' tmp' => good s' rc' tmp'
      | OStuck => False
      | _ => True
      end.
    Proof.
      induction p as [x|a k IH|a k IH|a k IH|a n k IH|n k IH|a k IH|msg|];
        intros pub priv hp hv GP s rc tmp Hs HG HT Hg; pose proof (step1 t Q _ _ _ _ _ _ _ Hs HG HT) as H1;
        cbn [exec1] in H1; cbn [orun run].
      - split; [reflexivity|assumption].
      - destruct (heap s !! a); [|contradiction]. destruct (locks s !! a); [split; [reflexivity|exact I]|].
        destruct (decide _); [split; [reflexivity|exact Hg]|].
        destruct H1 as (GP' & pub' & priv' & hp' & hv' & H1 & H2 & H3). eapply IH; eauto.
      - destruct (decide _); [|contradiction].
        destruct H1 as (GP' & pub' & priv' & hp' & hv' & H1 & H2 & H3). eapply IH; eauto.
      - destruct (decide _); [|contradiction]. destruct (heap s !! a); [|contradiction].
        destruct H1 as (GP' & pub' & priv' & hp' & hv' & H1 & H2 & H3). eapply IH; eauto.
      - destruct (decide _); [|contradiction].
        destruct (put_sound m h0 nx0 (everything h0) (fun _ => refs_kept_refl K) (fun _ => refs_kept_trans K)
          t Q pub priv hp hv _ Hs a n k eq_refl GP s HG HT)
          as (n0 & Hn0 & Hk & Hst & Hw).
        rewrite Hn0. destruct (put_good a n n0 s rc tmp Hg Hn0) as (rc1 & rc2 & -> & -> & Hg'); [|assumption|assumption|].
        { destruct Hk as [Hk|Hk]; [exact Hk|]. intros b Hb. auto. }
        destruct H1 as (GP' & pub' & priv' & hp' & hv' & H1 & H2 & H3). eapply IH; eauto.
      - pose proof (new_sound m Q pub priv hp hv _ Hs n k eq_refl) as Hn.
        pose proof (proj1 (app_nil _ _) Hn) as [Hn' _]. rewrite Hn'. cbn [arc_clones].
        destruct H1 as (GP' & pub' & priv' & hp' & hv' & H1 & H2 & H3). eapply IH; eauto. apply new_good; assumption.
      - assert (bool_decide (is_Some (rc !! a)) = bool_decide (is_Some (heap s !! a))) as ->.
        { apply bool_decide_ext. apply (counts_alive _ _ _ a (proj1 Hg)). }
        destruct H1 as (GP' & pub' & priv' & hp' & hv' & H1 & H2 & H3). eapply IH; eauto.
      - split; [reflexivity|exact Hg].
      - split; [reflexivity|exact I].
    Qed.
  End Agree.

  (** ** calls, clones and drops keep the counters right *)
  Lemma old_supported (o : own T) : own_ok o -> supported (fun x => is_Some (o_heap o !! x)) (o_mine o) (o_heap o).
  Proof. intros [_ Hc]. eapply counts_all; eauto. Qed.
  Lemma supported_more (S : nat -> Prop) l1 l2 h : supported S l2 h -> supported S (l1 ++ l2) h.
  Proof. intros H x Hx. destruct (H x Hx) as [H1 [H2|H2]]; (split; [assumption|]); [left; apply elem_of_app; auto|auto]. Qed.
  Lemma heap_ok_sub h h' nx l rc : heap_ok h nx -> h' ⊆ h -> counts_right l h' rc -> heap_ok h' nx.
  Proof.
    intros [K1 K2 K3 K4 K5] Hsub Hc. destruct (counts_no_dangling _ _ _ Hc) as [_ Hd].
    assert (Hl : forall a n, h' !! a = Some n -> h !! a = Some n) by (intros; eapply lookup_weaken; eauto).
    split.
    - intros a [n Hn]. apply K1. eauto.
    - intros a n c Hn Hcc. apply (Hd a). exists n. auto.
    - intros a n c Hn Hcc. apply (Hd a). exists n. auto.
    - eauto.
    - eauto.
  Qed.

  Theorem call_ok (o : own T) t {R} (k : api T R) :
    own_ok o -> (forall a, a ∈ args k -> a ∈ o_mine o) ->
    erase (orun t (interp k) (at_call o) (o_rc o) []) = run t (interp k) (at_call o) /\
    match orun t (interp k) (at_call o) (o_rc o) [] with
    | ODone x s rc tmp => locks s = ∅ /\ exists rc1 h2 rc2, arc_clones (rets k x) rc = Some rc1 /\
        drop_refs tmp (heap s) rc1 = Some (h2, rc2) /\
        own_ok (Own h2 (nxt s) (poison s) rc2 (rets k x ++ o_mine o)) /\ h2 ⊆ heap s /\
        (forall a, is_Some (o_heap o !! a) -> is_Some (h2 !! a))
    | OPanicked msg s rc tmp => locks s = ∅ /\ exists h2 rc2, drop_refs tmp (heap s) rc = Some (h2, rc2) /\
        own_ok (Own h2 (nxt s) (poison s) rc2 (o_mine o)) /\ h2 ⊆ heap s /\
        (forall a, is_Some (o_heap o !! a) -> is_Some (h2 !! a))
    | OStuck => False
    | _ => True
    end.
  Proof.
    intros Hok Ha. destruct o as [h nx po rc0 mine]. cbn [o_heap o_next o_poison o_rc o_mine] in *.
    pose proof Hok as [Hhk Hcr]. cbn [o_heap o_next o_poison o_rc o_mine] in *.
    set (K := fun a => a ∈ mine). unfold at_call; cbn [o_heap o_next o_poison].
    pose proof (lax_started h nx (fun _ _ => True) (fun _ => refs_kept K) (fun _ => True) Hhk (fun _ _ _ => I)) as Hst.
    assert (Htri : tri (own_mode h nx K) (everything h) (interp k) (fun pub' r => Forall (shared pub') (rets k r))).
    { apply api_safe; [apply own_permitted; exact Ha|]. apply Forall_forall. intros a Haa. apply everything_shared.
      eapply counts_mine; eauto. }
    assert (Hgood : good h mine (Sh h nx ∅ po) rc0 []).
    { split; [exact Hcr|]. split; [exact Hhk|]. exact (old_supported _ Hok). }
    destruct (orun_agrees h nx K mine (fun a H => H) t _ (interp k) (everything h) ∅ ∅ ∅ (everything h) (Sh h nx ∅ po) rc0 []
      Htri (started_gcons (own_mode h nx K) h nx (everything h) (fun _ => refs_kept_refl K) po Hst)
      (started_tcons (own_mode h nx K) h nx (everything h) (fun _ => refs_kept_refl K) (fun _ => refs_kept_trans K) t po) Hgood) as [He Hm].
    split; [exact He|].
    pose proof (tri_run (own_mode h nx K) h nx (everything h) (fun _ => refs_kept_refl K) (fun _ => refs_kept_trans K)
      _ (interp k) t po Hst Htri) as Hrun.
    rewrite <- He in Hrun.
    destruct (orun t (interp k) (Sh h nx ∅ po) rc0 []) as [x s rc tmp|msg s rc tmp|a s|s|]; cbn [erase] in Hrun; try exact I.
    - destruct Hrun as (Hl & GP & pub' & HG & Hsub & Hrets). split; [assumption|].
      destruct Hm as (Hc & Hk & Hs).
      destruct (clones_ok (rets k x) _ _ _ Hc) as (rc1 & E1 & Hc1).
      { intros a Hra. destruct (proj1 (Forall_forall _ _) Hrets a Hra) as [f Hf].
        destruct (gc_live _ _ _ _ _ _ HG a ltac:(exists f; eapply lookup_weaken; eauto)) as (n & _ & Hn & _). eauto. }
      destruct (drop_spec (rets k x ++ mine) (fun x => is_Some (h !! x)) tmp (heap s) rc1) as (h2 & rc2 & E2 & Hc2 & Hs2 & Ho2).
      { eapply counts_perm; [|exact Hc1]. solve_Permutation. }
      { apply supported_more. exact Hs. }
      exists rc1, h2, rc2. split; [assumption|]. split; [assumption|]. split; [|split; [assumption|]].
      + split; [|exact Hc2]. cbn. eapply heap_ok_sub; eauto.
      + intros a Hal. rewrite Ho2 by assumption. apply (Hs a Hal).
    - destruct Hrun as (Hl & GP & HG). split; [assumption|].
      destruct Hm as (Hc & Hk & Hs).
      destruct (drop_spec mine (fun x => is_Some (h !! x)) tmp (heap s) rc Hc Hs) as (h2 & rc2 & E2 & Hc2 & Hs2 & Ho2).
      exists h2, rc2. split; [assumption|]. split; [|split; [assumption|]].
      + split; [|exact Hc2]. cbn. eapply heap_ok_sub; eauto.
      + intros a Hal. rewrite Ho2 by assumption. apply (Hs a Hal).
    - exact Hm.
  Qed.
  Theorem clone_step_ok (o : own T) a : own_ok o -> a ∈ o_mine o ->
    exists rc1, arc_clone a (o_rc o) = Some rc1 /\ own_ok (Own (o_heap o) (o_next o) (o_poison o) rc1 (a :: o_mine o)).
  Proof.
    intros [Hk Hc] Ha. destruct (clone_ok _ _ _ a Hc (counts_mine _ _ _ _ Hc Ha)) as (rc1 & E & Hc1).
    exists rc1. split; [assumption|]. split; assumption.
  Qed.
  Theorem drop_step_ok (o : own T) a mine : own_ok o -> o_mine o ≡ₚ a :: mine ->
    exists h2 rc2, drop_refs [a] (o_heap o) (o_rc o) = Some (h2, rc2) /\
      own_ok (Own h2 (o_next o) (o_poison o) rc2 mine) /\ h2 ⊆ o_heap o /\
      (forall x, is_Some (h2 !! x) <-> exists S, supported S mine (o_heap o) /\ S x).
  Proof.
    intros [Hk Hc] Hp. pose proof (counts_perm _ ([a] ++ mine) _ _ Hp Hc) as Hc'.
    destruct (drop_spec mine (fun _ => False) [a] _ _ Hc') as (h2 & rc2 & E & Hc2 & Hs & _); [intros ? []|].
    exists h2, rc2. split; [assumption|]. split; [|split; [assumption|]].
    - split; [|exact Hc2]. cbn. eapply heap_ok_sub; eauto.
    - exact (drop_exact mine [a] _ _ _ _ Hc' E).
  Qed.

  Theorem ostep_ok t o o' : own_ok o -> ostep t o o' -> own_ok o'.
  Proof.
    intros Hok Hs. destruct Hs as [R k o x s rc tmp rc1 h2 rc2 Ha E E1 E2|R k o msg s rc tmp h2 rc2 Ha E E2|o a rc1 Ha E|o a mine h2 rc2 Hp E].
    - destruct (call_ok o t k Hok Ha) as [_ H]. rewrite E in H. destruct H as (_ & rc1' & h2' & rc2' & F1 & F2 & F3 & _).
      rewrite E1 in F1. injection F1 as <-. rewrite E2 in F2. injection F2 as <- <-. exact F3.
    - destruct (call_ok o t k Hok Ha) as [_ H]. rewrite E in H. destruct H as (_ & h2' & rc2' & F2 & F3 & _).
      rewrite E2 in F2. injection F2 as <- <-. exact F3.
    - destruct (clone_step_ok o a Hok Ha) as (rc1' & F & H). rewrite E in F. injection F as <-. exact H.
    - destruct (drop_step_ok o a mine Hok Hp) as (h2' & rc2' & F & H & _). rewrite E in F. injection F as <- <-. exact H.
  Qed.
  Lemma nothing_ok : own_ok (nothing : own T).
  Proof.
    split; cbn.
    - split; intros *; rewrite lookup_empty; try discriminate. intros [? ?]. discriminate.
    - intros a. rewrite !lookup_empty. split; [reflexivity|]. unfold stored. rewrite map_to_list_empty. reflexivity.
  Qed.
  Theorem ohistory_ok t o : ohistory t o -> own_ok o.
  Proof.
    assert (G : forall o0 o1 : own T, rtc (ostep t) o0 o1 -> own_ok o0 -> own_ok o1).
    { induction 1 as [|? ? ? Hs _ IH]; intros Hn; [assumption|]. apply IH. eapply ostep_ok; eauto. }
    intros H. exact (G _ _ H nothing_ok).
  Qed.
End OwnRun.

From Verif Require Import SpecNode SpecGraph SpecChain SpecFK NodeProofs GraphProofs ChainProofs FKProofs.
Section Orphans.
  Context {T : Type} `{Sc : Scalar T}.
  Implicit Types (h : gmap nat (node T)) (o : own T).

  Lemma drop_survivors o a mine h2 rc2 : own_ok o -> o_mine o ≡ₚ a :: mine ->
    drop_refs [a] (o_heap o) (o_rc o) = Some (h2, rc2) ->
    forall x, reached_from (o_heap o) mine x -> is_Some (h2 !! x) /\ h2 !! x = o_heap o !! x.
  Proof.
    intros Hok Hp E x Hx. destruct (drop_step_ok o a mine Hok Hp) as (h2' & rc2' & E' & Hok' & Hs & Hex).
    rewrite E in E'. injection E' as <- <-.
    assert (Hd : no_dangling mine (o_heap o)).
    { destruct (counts_no_dangling _ _ _ (proj2 Hok)) as [D1 D2]. split; [|assumption].
      intros b Hb. apply D1. rewrite Hp. right. assumption. }
    assert (Hx2 : is_Some (h2 !! x)).
    { apply Hex. exists (reached_from (o_heap o) mine). split; [apply supported_reach; assumption|assumption]. }
    split; [assumption|]. destruct Hx2 as [n Hn]. rewrite Hn. symmetry. eapply lookup_weaken; eauto.
  Qed.
  Lemma holds_sub h h' a b : h' ⊆ h -> holds_ref h' a b -> holds_ref h a b.
  Proof. intros Hs (n & Hn & Hb). exists n. split; [eapply lookup_weaken; eauto|assumption]. Qed.
  Lemma tc_sub h h' a b : h' ⊆ h -> tc (holds_ref h') a b -> tc (holds_ref h) a b.
  Proof.
    intros Hs. induction 1 as [x y H|x y z H _ IH]; [apply tc_once|eapply tc_l; [|exact IH]]; eapply holds_sub; eauto.
  Qed.
  Lemma reaches_sub h h' a b : h' ⊆ h -> reaches h' a b -> reaches h a b.
  Proof.
    intros Hs. induction 1 as [x|x y z H _ IH]; [apply rtc_refl|eapply rtc_l; [|exact IH]]. eapply holds_sub; eauto.
  Qed.
  Lemma drop_last o a mine h2 rc2 : own_ok o -> o_mine o ≡ₚ a :: mine ->
    drop_refs [a] (o_heap o) (o_rc o) = Some (h2, rc2) -> no_cycle (o_heap o) ->
    forall x, ~ reached_from (o_heap o) mine x -> h2 !! x = None.
  Proof.
    intros Hok Hp E Hc x Hx. destruct (drop_step_ok o a mine Hok Hp) as (h2' & rc2' & E' & Hok' & Hs & Hex).
    rewrite E in E'. injection E' as <- <-. destruct (h2 !! x) as [n|] eqn:En; [|reflexivity]. exfalso. apply Hx.
    destruct (no_leak mine h2 rc2 (proj2 Hok')) with (x := x) as (b & Hb & Hr).
    - intros b Hb. apply (Hc b). eapply tc_sub; eauto.
    - eauto.
    - exists b. split; [assumption|]. eapply reaches_sub; eauto.
  Qed.
  Lemma orphan_lemma t o a n w : own_ok o -> o_poison o = ∅ ->
    o_heap o !! a = Some n -> n_parent n = Some w -> o_heap o !! w = None ->
    run t (node_parent a) (at_call o) = Done None (at_call o) /\
    run t (node_is_root a) (at_call o) = Done false (at_call o) /\
    forall W, world (o_heap o) a W <-> W = iso_mul iso1 (local_transform (n_joint n)).
  Proof.
    intros Hok Hpo Hn Hw Hd. unfold at_call. rewrite Hpo. split; [|split].
    - rewrite (run_node_parent t a _ _ _ n Hn) by apply lookup_empty. rewrite Hw. cbn. rewrite Hd. reflexivity.
    - unfold node_is_root. erewrite run_read by (eauto; apply lookup_empty). rewrite Hw. reflexivity.
    - assert (Hnp : no_parent (o_heap o) a).
      { split; [eauto|]. intros p ((n' & Hn' & Hp') & [? Hal]). congruence. }
      intros W. split.
      + intros (l & ts & Hl & Hts & ->). inversion Hl as [x _ Ex|x p l' (Hpar & Hal) _ Ex].
        * subst. cbn in Hts. inversion Hts as [|? ? ? ? (n' & Hn' & ->) Hr]. subst. inversion Hr. subst.
          cbn. congruence.
        * exfalso. destruct Hpar as (n' & Hn' & Hp'). assert (p = w) as -> by congruence. destruct Hal. congruence.
      + intros ->. exists [a], [local_transform (n_joint n)]. split; [constructor; assumption|]. split; [|reflexivity].
        cbn. constructor; [|constructor]. exists n. auto.
  Qed.
  Lemma held_parent_lemma t o a n p : own_ok o -> o_poison o = ∅ ->
    o_heap o !! a = Some n -> n_parent n = Some p -> reached_from (o_heap o) (o_mine o) p ->
    run t (node_parent a) (at_call o) = Done (Some p) (at_call o).
  Proof.
    intros Hok Hpo Hn Hp Hr. unfold at_call. rewrite Hpo.
    rewrite (run_node_parent t a _ _ _ n Hn) by apply lookup_empty. rewrite Hp. cbn.
    destruct (reach_alive _ _ _ _ (proj2 Hok) Hr) as [np ->]. reflexivity.
  Qed.
  Lemma orphan_update t o a n w c : c_nodes c = [a] -> o_poison o = ∅ -> o_heap o !! a = Some n -> n_parent n = Some w -> o_heap o !! w = None ->
    (forall W, world (o_heap o) a W <-> W = iso_mul iso1 (local_transform (n_joint n))) ->
    exists h', run t (update_transforms c) (at_call o) =
      Done [iso_mul iso1 (local_transform (n_joint n))] (quiet h' (o_next o)).
  Proof.
    intros Hca Hpo Hn Hw Hd HW. unfold at_call. rewrite Hpo.
    destruct (update_transforms_lemma t (o_heap o) (o_next o) c) as (ws & h' & Hr & Hws & _).
    - intros b Hb. rewrite Hca in Hb. apply elem_of_list_singleton in Hb as ->. eauto.
    - rewrite Hca. intros l1 b l2 p E ((n' & Hn' & Hp') & [? Hal]).
      assert (b = a) as -> by (destruct l1 as [|? [|]]; cbn in E; congruence). congruence.
    - rewrite Hca in Hws. inversion Hws as [|? W ? ? HWa Hrest]. subst. inversion Hrest. subst.
      apply HW in HWa as ->. exists h'. exact Hr.
  Qed.

  Lemma calls_end_lemma t o {R} (k : api T R) :
    ohistory t o -> (forall a, a ∈ args k -> a ∈ o_mine o) ->
    match run t (interp k) (at_call o) with
    | Done x s => locks s = ∅ /\ exists h' rc', ohistory t (Own h' (nxt s) (poison s) rc' (rets k x ++ o_mine o)) /\
        h' ⊆ heap s /\ forall a, is_Some (o_heap o !! a) -> is_Some (h' !! a)
    | Panicked _ s => locks s = ∅ /\ exists h' rc', ohistory t (Own h' (nxt s) (poison s) rc' (o_mine o)) /\
        h' ⊆ heap s /\ forall a, is_Some (o_heap o !! a) -> is_Some (h' !! a)
    | Deadlock _ _ | OutOfFuel _ => True
    | Stuck => False
    end.
  Proof.
    intros Ho Ha. destruct (call_ok o t k (ohistory_ok t o Ho) Ha) as [He Hm]. rewrite <- He.
    destruct (orun t (interp k) (at_call o) (o_rc o) []) as [x s rc tmp|msg s rc tmp|a s|s|] eqn:E; cbn [erase]; try exact I.
    - destruct Hm as (Hl & rc1 & h2 & rc2 & E1 & E2 & _ & Hs & Hk). split; [assumption|]. exists h2, rc2. split; [|split; assumption].
      eapply rtc_r; [exact Ho|]. eapply os_call; eauto.
    - destruct Hm as (Hl & h2 & rc2 & E2 & _ & Hs & Hk). split; [assumption|]. exists h2, rc2. split; [|split; assumption].
      eapply rtc_r; [exact Ho|]. eapply os_panic; eauto.
    - exact Hm.
  Qed.

  (** references from older to newer nodes only: no cycle *)
  Lemma no_cycle_up h : (forall a n, h !! a = Some n -> Forall (fun b => a < b) (strong_refs n)) -> no_cycle h.
  Proof.
    intros Hr a Ha.
    assert (G : forall x y, tc (holds_ref h) x y -> x < y).
    { assert (G1 : forall x y, holds_ref h x y -> x < y).
      { intros x y (n & Hn & Hy). apply (proj1 (Forall_forall _ _) (Hr x n Hn)). apply elem_of_app. assumption. }
      induction 1 as [x y H|x y z H _ IH]; [auto|]. specialize (G1 _ _ H). lia. }
    specialize (G a a Ha). lia.
  Qed.
End Orphans.
