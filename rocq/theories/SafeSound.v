(** * Soundness of [safe] for sequential runs and for interleavings *)
From Coq Require Import String.
From stdpp Require Import gmap.
From Verif Require Import Scalar Geometry Joint Link Prog RunLemmas Safe.

Section Sound.
  Context {T : Type} (m : mode T).
  Context (h0 : gmap nat (node T)) (nx0 : nat) (pub0 : gmap nat bool).
  Hypothesis gua_refl : forall a n, gua m a n n.
  Hypothesis gua_trans : forall a n1 n2 n3, gua m a n1 n2 -> gua m a n2 n3 -> gua m a n1 n3.

  (** where the content of a shared node started *)
  Definition origin_of (a : nat) (n : node T) : Prop :=
    (is_Some (pub0 !! a) /\ h0 !! a = Some n) \/ (nx0 <= a /\ fresh_ok m n).
  (** the shared state, with the ghost set [GP] of shared nodes *)
  Record gcons (GP : gmap nat bool) (s : sh T) : Prop := {
    gc_pub0 : pub0 ⊆ GP;
    gc_live : forall a, is_Some (GP !! a) -> exists n n0,
      heap s !! a = Some n /\ node_ok m GP a n /\ origin_of a n0 /\ gua m a n0 n;
    gc_frame : forall a n, h0 !! a = Some n -> GP !! a = None -> heap s !! a = Some n;
    gc_dead : forall w, dead m w -> w < nxt s /\ heap s !! w = None;
    gc_nxt : forall a, is_Some (heap s !! a) -> a < nxt s;
    gc_h0 : forall a, is_Some (h0 !! a) -> a < nx0;
    gc_nx0 : nx0 <= nxt s;
    gc_sub : forall a, is_Some (GP !! a) -> is_Some (pub0 !! a) \/ nx0 <= a;
    gc_locks : forall a u, locks s !! a = Some u -> is_Some (heap s !! a);
  }.
  (** one thread's knowledge *)
  Record tcons (t : nat) (pub : gmap nat bool) (priv : gmap nat (node T))
      (hp : gmap nat (option (node T))) (hv : gset nat) (GP : gmap nat bool) (s : sh T) : Prop := {
    tc_pub : pub ⊆ GP;
    tc_priv : forall a n, priv !! a = Some n -> heap s !! a = Some n /\ GP !! a = None /\ nx0 <= a;
    tc_priv_lock : forall a u, is_Some (priv !! a) -> locks s !! a = Some u -> u = t;
    tc_locks : forall a, locks s !! a = Some t <-> is_Some (hp !! a) \/ a ∈ hv;
    tc_hp : forall a, is_Some (hp !! a) -> is_Some (pub !! a);
    tc_hv : forall a, a ∈ hv -> is_Some (priv !! a);
    tc_know : forall a n, hp !! a = Some (Some n) -> heap s !! a = Some n;
  }.
  (** what a step of thread [t] leaves to the others *)
  Record local_step (t : nat) (priv : gmap nat (node T)) (GP : gmap nat bool) (s : sh T)
      (priv' : gmap nat (node T)) (GP' : gmap nat bool) (s' : sh T) : Prop := {
    ls_grow : GP ⊆ GP';
    ls_new : forall a, is_Some (GP' !! a) -> GP !! a = None -> is_Some (priv !! a);
    ls_heap : forall a, heap s' !! a = heap s !! a \/ locks s !! a = Some t \/ heap s !! a = None;
    ls_locks : forall a u, u <> t -> (locks s' !! a = Some u <-> locks s !! a = Some u);
    ls_mine : forall a, locks s' !! a = Some t ->
      locks s !! a = Some t \/ is_Some (GP' !! a) \/ is_Some (priv !! a);
    ls_priv : forall a, is_Some (priv' !! a) -> is_Some (priv !! a) \/ a = nxt s;
  }.

  Lemma local_refl t priv GP s : local_step t priv GP s priv GP s.
  Proof. split; [reflexivity|intros a [b Hb] E; congruence|auto|tauto|auto|auto]. Qed.

  (** the claim made about a blocked thread *)
  Definition blocked_claim (t : nat) (GP : gmap nat bool) (s : sh T) (a : nat) : Prop :=
    is_Some (GP !! a) /\
    (strict m = true ->
       (forall b, locks s !! b = Some t -> GP !! b = None) \/
       (GP !! a = Some true /\ forall b, locks s !! b = Some t -> is_Some (GP !! b) -> GP !! b = Some false)).

  Definition after_ret {A} (Q : _ -> _ -> _ -> _ -> A -> Prop) t priv GP s x : Prop :=
    exists GP' pub' priv' hp' hv', Q pub' priv' hp' hv' x /\ gcons GP' s /\
      tcons t pub' priv' hp' hv' GP' s /\ local_step t priv GP s priv' GP' s.
  Definition after_step {A} (Q : _ -> _ -> _ -> _ -> A -> Prop) t priv GP s p' s' : Prop :=
    exists GP' pub' priv' hp' hv', safe m Q pub' priv' hp' hv' p' /\ gcons GP' s' /\
      tcons t pub' priv' hp' hv' GP' s' /\ local_step t priv GP s priv' GP' s'.

  (** ... after which the thread knows of no other nodes than [K] *)
  Definition after_step_in {A} (Q : _ -> _ -> _ -> _ -> A -> Prop) t priv GP s p' s' (K : gset nat) : Prop :=
    exists GP' pub' priv' hp' hv', (dom pub' ⊆ K /\ dom priv' ⊆ K) /\ safe m Q pub' priv' hp' hv' p' /\ gcons GP' s' /\
      tcons t pub' priv' hp' hv' GP' s' /\ local_step t priv GP s priv' GP' s'.

  Lemma gcons_locks GP s l :
    (forall a u, l !! a = Some u -> is_Some (heap s !! a)) -> gcons GP s -> gcons GP (set_locks s l).
  Proof. intros ? [? ? ? ? ? ? ? ? ?]. split; assumption. Qed.
  Lemma gcons_lock GP s a t : is_Some (heap s !! a) -> gcons GP s -> gcons GP (set_locks s (<[a := t]> (locks s))).
  Proof.
    intros Ha HG. apply gcons_locks; [|assumption]. intros b u Hb.
    destruct (decide (b = a)) as [->|Hne]; [assumption|]. rewrite lookup_insert_ne in Hb by congruence.
    eapply gc_locks; eauto.
  Qed.
  Lemma gcons_unlock GP s a : gcons GP s -> gcons GP (set_locks s (delete a (locks s))).
  Proof.
    intros HG. apply gcons_locks; [|assumption]. intros b u Hb. apply lookup_delete_Some in Hb as [_ Hb].
    eapply gc_locks; eauto.
  Qed.
  Lemma gcons_unwind t GP s : gcons GP s -> gcons GP (unwind t s).
  Proof.
    intros [? ? ? ? ? ? ? ? GL]. split; try assumption. cbn. intros a u Hu.
    apply map_filter_lookup_Some in Hu as [Hu _]. eauto.
  Qed.

  Lemma publish_sound t pub priv hp GP s (flags : gmap nat bool) :
    dom flags = dom priv ->
    (forall a n, priv !! a = Some n -> node_ok m (pub ∪ flags) a n /\ fresh_ok m n) ->
    gcons GP s -> tcons t pub priv hp ∅ GP s ->
    gcons (GP ∪ flags) s /\ tcons t (pub ∪ flags) ∅ hp ∅ (GP ∪ flags) s.
  Proof.
    intros Hdom Hok HG HT.
    assert (Hfl : forall a, is_Some (flags !! a) <-> is_Some (priv !! a)).
    { intros a. rewrite <- !elem_of_dom. rewrite Hdom. reflexivity. }
    assert (Hdisj : forall a, is_Some (flags !! a) -> GP !! a = None).
    { intros a Ha. apply Hfl in Ha as [n Hn]. apply (tc_priv _ _ _ _ _ _ _ HT _ _ Hn). }
    assert (HsubG : GP ⊆ GP ∪ flags) by apply map_union_subseteq_l.
    assert (Hsubp : pub ∪ flags ⊆ GP ∪ flags).
    { apply map_union_mono_r; [|apply (tc_pub _ _ _ _ _ _ _ HT)].
      apply map_disjoint_spec. intros a x y Hx Hy. rewrite (Hdisj a ltac:(eauto)) in Hx. discriminate. }
    split.
    - destruct HG as [G1 G2 G3 G4 G5 G6 G7 G8 G9]. split; auto.
      + etrans; eauto.
      + intros a Ha. destruct (GP !! a) as [fa|] eqn:E.
        * destruct (G2 a ltac:(eauto)) as (n & n0 & Hn & Hn1 & Hn2 & Hn3). exists n, n0.
            split; [assumption|]. split; [|auto]. eapply node_ok_mono; [exact HsubG|exists fa; exact E|assumption].
        * rewrite lookup_union_r in Ha by assumption. apply Hfl in Ha as [n Hn].
            destruct (Hok _ _ Hn) as [Hok1 Hok2].
            destruct (tc_priv _ _ _ _ _ _ _ HT _ _ Hn) as (Hh & _ & Hnx).
            exists n, n. split; [assumption|]. split.
          -- eapply node_ok_mono; [exact Hsubp| |exact Hok1]. apply lookup_union_is_Some. right. apply Hfl. eauto.
          -- split; [right; auto|apply gua_refl].
      + intros a n Ha Eu. apply lookup_union_None in Eu as [E _]. auto.
      + intros a Ha. apply lookup_union_is_Some in Ha as [Ha|Ha]; [auto|]. right.
          apply Hfl in Ha as [n Hn]. apply (tc_priv _ _ _ _ _ _ _ HT _ _ Hn).
    - destruct HT as [T1 T2 T3 T4 T5 T6 T7]. split.
      + assumption.
      + intros a n Ha. rewrite lookup_empty in Ha. discriminate.
      + intros a u Ha. rewrite lookup_empty in Ha. destruct Ha. discriminate.
      + assumption.
      + intros a Ha. apply lookup_union_is_Some. left. auto.
      + set_solver.
      + assumption.
  Qed.

  (** A thread that knows of the nodes [K] only (its own, shared ones it has come
      to know, and those its locked nodes refer to) steps; the shared nodes it
      knows afterwards are among [K], but for one it has just made. *)
  Definition learns {A} (p : prog T A) (s : sh T) : gset nat :=
    match p with New _ _ => {[nxt s]} | _ => ∅ end.
  Definition held_refs (t : nat) (s : sh T) (K : gset nat) : Prop := forall a n c,
    locks s !! a = Some t -> heap s !! a = Some n -> c ∈ strong_refs n ++ weak_refs n -> c ∈ K \/ dead m c.
  Lemma step_know {A} t (Q : _ -> _ -> _ -> _ -> A -> Prop) pub priv hp hv p :
    safe m Q pub priv hp hv p ->
    forall GP s K, gcons GP s -> tcons t pub priv hp hv GP s ->
    dom pub ⊆ K -> dom priv ⊆ K -> held_refs t s K ->
    match exec1 t p s with
    | RRet x => after_ret Q t priv GP s x
    | RStep p' s' => after_step_in Q t priv GP s p' s' (K ∪ learns p s)
    | RBlocked a => blocked_claim t GP s a /\ is_Some (locks s !! a)
    | RPanic _ s' => s' = unwind t s
    | RNoFuel => strict m = true -> forall b, locks s !! b <> Some t
    | RStuck => False
    end.
  Proof.
    induction 1 as
      [pub priv hp hv x HQ
      |pub priv hp hv a k Ha Hm Hk IH
      |pub priv hp hv a k Est Ha
      |pub priv hp hv a k Ha Hm Hk IH
      |pub priv hp hv a k Ha Hk IH
      |pub priv hp hv a k Ha Hk IH
      |pub priv hp hv a k Ha Hk IH
      |pub priv hp hv a n k Ha Hn Hk IH
      |pub priv hp hv a n0 n k Ha Hn Hg Hk IH
      |pub priv hp hv a n k Ha Hn Hpr Hk IH
      |pub priv hp hv n k Hnr Hk IH
      |pub priv hp hv a k Ha Hk IH
      |pub priv hp hv a k Ha Hk IH
      |pub priv hp hv a k Ha Hk IH
      |pub priv hp hv msg
      |pub priv hp hv Hst
      |pub priv hp hv flags p Hhv Hdom Hok Hp IH]; intros GP s K HG HT HK1 HK2 HK3.
    - exists GP, pub, priv, hp, hv. auto using local_refl.
    - (* lock a shared node *)
      cbn [exec1].
      destruct Ha as [fa Hfa].
      assert (HaG : GP !! a = Some fa) by (eapply lookup_weaken; [exact Hfa|apply (tc_pub _ _ _ _ _ _ _ HT)]).
      destruct (gc_live _ _ HG a ltac:(eauto)) as (n & n0 & Hn & _). rewrite Hn.
      destruct (locks s !! a) as [u|] eqn:El.
      { split; [|eauto]. split; [eauto|]. intros Es. destruct (Hm Es) as [->|[Ht Hf]].
        - left. intros b Hb. apply (tc_locks _ _ _ _ _ _ _ HT) in Hb as [Hb|Hb].
          + rewrite lookup_empty in Hb. destruct Hb. discriminate.
          + destruct (tc_hv _ _ _ _ _ _ _ HT b Hb) as [nb Hnb].
            destruct (tc_priv _ _ _ _ _ _ _ HT _ _ Hnb) as (_ & ? & _). assumption.
        - right. split.
          + eapply lookup_weaken; [exact Ht|apply (tc_pub _ _ _ _ _ _ _ HT)].
          + intros b Hb [fb Hfb]. apply (tc_locks _ _ _ _ _ _ _ HT) in Hb as [Hb|Hb].
            * specialize (Hf b Hb).
              eapply lookup_weaken; [exact Hf|apply (tc_pub _ _ _ _ _ _ _ HT)].
            * destruct (tc_hv _ _ _ _ _ _ _ HT b Hb) as [nb Hnb].
              destruct (tc_priv _ _ _ _ _ _ _ HT _ _ Hnb) as (_ & ? & _). congruence. }
      destruct (decide (a ∈ poison s)); [reflexivity|].
      assert (Hhpa : hp !! a = None).
      { destruct (hp !! a) eqn:E; [|reflexivity].
        assert (locks s !! a = Some t) by (apply (tc_locks _ _ _ _ _ _ _ HT); left; eauto). congruence. }
      exists GP, pub, priv, (<[a := None]> hp), hv. split; [split; apply union_subseteq_l'; assumption|]. split; [assumption|]. split; [apply gcons_lock; [rewrite Hn; eauto|assumption]|].
      split.
      + destruct HT as [T1 T2 T3 T4 T5 T6 T7]. split; cbn [heap locks nxt poison set_locks].
        * assumption.
        * assumption.
        * intros b u Hb. destruct (decide (b = a)) as [->|Hne].
          -- rewrite lookup_insert. congruence.
          -- rewrite lookup_insert_ne by congruence. eauto.
        * intros b. destruct (decide (b = a)) as [->|Hne].
          -- rewrite !lookup_insert. split; [left; eauto|auto].
          -- rewrite !lookup_insert_ne by congruence. apply T4.
        * intros b. destruct (decide (b = a)) as [->|Hne].
          -- rewrite lookup_insert. eauto.
          -- rewrite !lookup_insert_ne by congruence. apply T5.
        * assumption.
        * intros b nb. destruct (decide (b = a)) as [->|Hne].
          -- rewrite lookup_insert. discriminate.
          -- rewrite !lookup_insert_ne by congruence. apply T7.
      + split; cbn [heap locks nxt poison set_locks]; auto.
        * intros b [fb Hfb] E. congruence.
        * intros b u Hu. destruct (decide (b = a)) as [->|Hne].
          -- rewrite lookup_insert. split; congruence.
          -- rewrite lookup_insert_ne by congruence. tauto.
        * intros b. destruct (decide (b = a)) as [->|Hne].
          -- right; left. eauto.
          -- rewrite lookup_insert_ne by congruence. auto.
    - (* lock a node already held *)
      cbn [exec1]. assert (El : locks s !! a = Some t) by (apply (tc_locks _ _ _ _ _ _ _ HT); auto).
      destruct (gc_locks _ _ HG _ _ El) as [n Hn]. rewrite Hn, El. split; [|eauto]. split; [|congruence].
      destruct (tc_hp _ _ _ _ _ _ _ HT a Ha) as [fa Hfa]. exists fa.
      eapply lookup_weaken; [exact Hfa|apply (tc_pub _ _ _ _ _ _ _ HT)].
    - (* lock an own node *)
      cbn [exec1]. destruct Ha as [n Hn]. destruct (tc_priv _ _ _ _ _ _ _ HT _ _ Hn) as (Hh & Hg & _).
      rewrite Hh.
      assert (Hhpa : hp !! a = None).
      { destruct (hp !! a) eqn:E; [|reflexivity].
        destruct (tc_hp _ _ _ _ _ _ _ HT a ltac:(eauto)) as [fa Hfa].
        rewrite (lookup_weaken _ _ _ _ Hfa (tc_pub _ _ _ _ _ _ _ HT)) in Hg. discriminate. }
      destruct (locks s !! a) as [u|] eqn:El.
      { pose proof (tc_priv_lock _ _ _ _ _ _ _ HT a u ltac:(eauto) El) as ->.
        apply (tc_locks _ _ _ _ _ _ _ HT) in El as [[x Hx]|El]; [congruence|contradiction]. }
      destruct (decide (a ∈ poison s)); [reflexivity|].
      exists GP, pub, priv, hp, ({[a]} ∪ hv). split; [split; apply union_subseteq_l'; assumption|]. split; [assumption|]. split; [apply gcons_lock; [rewrite Hh; eauto|assumption]|].
      split.
      + destruct HT as [T1 T2 T3 T4 T5 T6 T7]. split; cbn [heap locks nxt poison set_locks].
        * assumption.
        * assumption.
        * intros b u Hb. destruct (decide (b = a)) as [->|Hne].
          -- rewrite lookup_insert. congruence.
          -- rewrite lookup_insert_ne by congruence. eauto.
        * intros b. destruct (decide (b = a)) as [->|Hne].
          -- rewrite !lookup_insert. split; [right; set_solver|auto].
          -- rewrite !lookup_insert_ne by congruence. rewrite T4. set_solver.
        * assumption.
        * intros b Hb. apply elem_of_union in Hb as [Hb|Hb]; [|auto].
          apply elem_of_singleton in Hb as ->. eauto.
        * assumption.
      + split; cbn [heap locks nxt poison set_locks]; auto.
        * intros b [fb Hfb] E. congruence.
        * intros b u Hu. destruct (decide (b = a)) as [->|Hne].
          -- rewrite lookup_insert. split; congruence.
          -- rewrite lookup_insert_ne by congruence. tauto.
        * intros b. destruct (decide (b = a)) as [->|Hne].
          -- right; right. eauto.
          -- rewrite lookup_insert_ne by congruence. auto.
    - (* unlock shared *)
      cbn [exec1]. assert (El : locks s !! a = Some t) by (apply (tc_locks _ _ _ _ _ _ _ HT); auto).
      destruct (decide _) as [_|]; [|contradiction].
      assert (Hna : a ∉ hv).
      { intros Hv. destruct (tc_hv _ _ _ _ _ _ _ HT a Hv) as [n Hn].
        destruct (tc_priv _ _ _ _ _ _ _ HT _ _ Hn) as (_ & Hg & _).
        destruct (tc_hp _ _ _ _ _ _ _ HT a Ha) as [fa Hfa].
        rewrite (lookup_weaken _ _ _ _ Hfa (tc_pub _ _ _ _ _ _ _ HT)) in Hg. discriminate. }
      exists GP, pub, priv, (delete a hp), hv. split; [split; apply union_subseteq_l'; assumption|]. split; [assumption|]. split; [apply gcons_unlock; assumption|].
      split.
      + destruct HT as [T1 T2 T3 T4 T5 T6 T7]. split; cbn [heap locks nxt poison set_locks].
        * assumption.
        * assumption.
        * intros b u Hb Hl. apply lookup_delete_Some in Hl as [_ Hl]. eauto.
        * intros b. destruct (decide (b = a)) as [->|Hne].
          -- rewrite !lookup_delete. split; [discriminate|]. intros [[x Hx]|Hx]; [discriminate|contradiction].
          -- rewrite !lookup_delete_ne by congruence. apply T4.
        * intros b [x Hb]. apply lookup_delete_Some in Hb as [_ Hb]. eauto.
        * assumption.
        * intros b nb Hb. apply lookup_delete_Some in Hb as [_ Hb]. eauto.
      + split; cbn [heap locks nxt poison set_locks]; auto.
        * intros b [fb Hfb] E. congruence.
        * intros b u Hu. destruct (decide (b = a)) as [->|Hne].
          -- rewrite lookup_delete. split; congruence.
          -- rewrite lookup_delete_ne by congruence. tauto.
        * intros b Hl. apply lookup_delete_Some in Hl as [_ Hl]. auto.
    - (* unlock own *)
      cbn [exec1]. assert (El : locks s !! a = Some t) by (apply (tc_locks _ _ _ _ _ _ _ HT); auto).
      destruct (decide _) as [_|]; [|contradiction].
      assert (Hna : hp !! a = None).
      { destruct (tc_hv _ _ _ _ _ _ _ HT a Ha) as [n Hn].
        destruct (tc_priv _ _ _ _ _ _ _ HT _ _ Hn) as (_ & Hg & _).
        destruct (hp !! a) eqn:E; [|reflexivity].
        destruct (tc_hp _ _ _ _ _ _ _ HT a ltac:(eauto)) as [fa Hfa].
        rewrite (lookup_weaken _ _ _ _ Hfa (tc_pub _ _ _ _ _ _ _ HT)) in Hg. discriminate. }
      exists GP, pub, priv, hp, (hv ∖ {[a]}). split; [split; apply union_subseteq_l'; assumption|]. split; [assumption|]. split; [apply gcons_unlock; assumption|].
      split.
      + destruct HT as [T1 T2 T3 T4 T5 T6 T7]. split; cbn [heap locks nxt poison set_locks].
        * assumption.
        * assumption.
        * intros b u Hb Hl. apply lookup_delete_Some in Hl as [_ Hl]. eauto.
        * intros b. destruct (decide (b = a)) as [->|Hne].
          -- rewrite !lookup_delete, Hna. split; [discriminate|]. intros [[x Hx]|Hx]; [discriminate|set_solver].
          -- rewrite !lookup_delete_ne by congruence. rewrite T4. set_solver.
        * assumption.
        * intros b Hb. apply T6. set_solver.
        * assumption.
      + split; cbn [heap locks nxt poison set_locks]; auto.
        * intros b [fb Hfb] E. congruence.
        * intros b u Hu. destruct (decide (b = a)) as [->|Hne].
          -- rewrite lookup_delete. split; congruence.
          -- rewrite lookup_delete_ne by congruence. tauto.
        * intros b Hl. apply lookup_delete_Some in Hl as [_ Hl]. auto.
    - (* get shared *)
      cbn [exec1]. assert (El : locks s !! a = Some t) by (apply (tc_locks _ _ _ _ _ _ _ HT); auto).
      destruct (decide _) as [_|]; [|contradiction].
      destruct (tc_hp _ _ _ _ _ _ _ HT a Ha) as [fa Hfa].
      pose proof (lookup_weaken _ _ _ _ Hfa (tc_pub _ _ _ _ _ _ _ HT)) as HaG.
      destruct (gc_live _ _ HG a ltac:(eauto)) as (n & n0 & Hn & Hok & _). rewrite Hn.
      set (pub' := filter (fun kv => kv.1 ∈ K) GP : gmap nat bool).
      assert (Hin : forall b fb, pub' !! b = Some fb <-> GP !! b = Some fb /\ b ∈ K) by (intros b fb; apply map_filter_lookup_Some).
      assert (HpG : pub' ⊆ GP) by apply map_filter_subseteq.
      assert (Hpp : pub ⊆ pub').
      { apply map_subseteq_spec. intros b fb Hb. apply Hin. split.
        - eapply lookup_weaken; [exact Hb|apply (tc_pub _ _ _ _ _ _ _ HT)].
        - apply HK1. apply elem_of_dom. eauto. }
      assert (Hsh : forall c, c ∈ strong_refs n ++ weak_refs n -> shared GP c -> shared pub' c \/ dead m c).
      { intros c Hc [fc Hfc]. destruct (HK3 _ _ _ El Hn Hc) as [HcK|HcD]; [|auto]. left. exists fc. apply Hin. auto. }
      assert (Hdl : forall c, dead m c -> shared GP c -> False).
      { intros c Hc HcG. destruct (gc_live _ _ HG c HcG) as (nc & _ & Hnc & _). destruct (gc_dead _ _ HG c Hc). congruence. }
      assert (Hok' : node_ok m pub' a n).
      { destruct Hok as [O1 O2 O3 O4 O5 O6]. split.
        - intros c Hc. destruct (Hsh c) as [?|Hd]; [|apply O1; assumption|assumption|exfalso; eapply Hdl; eauto].
          apply elem_of_app. left. apply elem_of_app. left. assumption.
        - intros c Hc. destruct (O2 c Hc) as [O2a O2b].
          assert (Hcs : shared pub' c).
          { destruct (Hsh c) as [?|Hd]; [|assumption|assumption|exfalso; eapply Hdl; eauto].
            apply elem_of_app. left. apply elem_of_app. right. assumption. }
          split; [assumption|]. intros Es. destruct Hcs as [fc Hfc]. rewrite Hfc, <- (O2b Es). symmetry. eapply lookup_weaken; eauto.
        - destruct (n_parent n) as [w|] eqn:E; [|exact I]. destruct O3 as [O3|O3]; [|right; assumption].
          apply Hsh; [|assumption]. apply elem_of_app. right. unfold weak_refs. rewrite E. set_solver.
        - destruct (n_mimic_parent n) as [w|] eqn:E; [|exact I]. destruct O4 as [O4|O4]; [|right; assumption].
          apply Hsh; [|assumption]. apply elem_of_app. right. unfold weak_refs. rewrite E. set_solver.
        - intros Es Ea. apply O5; [assumption|]. eapply lookup_weaken; eauto.
        - assumption. }
      exists GP, pub', priv, (<[a := Some n]> hp), hv. split.
      { split; apply union_subseteq_l'; [|assumption]. intros b Hb. apply elem_of_dom in Hb as [fb Hb]. apply Hin in Hb. tauto. }
      split.
      { apply Hk; [assumption|assumption| |].
        { intros b [nb Hb]. destruct (tc_priv _ _ _ _ _ _ _ HT _ _ Hb) as (_ & Hgb & _).
          destruct (pub' !! b) as [fb|] eqn:Eb; [|reflexivity]. apply Hin in Eb as [Eb _]. congruence. }
        intros n1 H1. apply (tc_know _ _ _ _ _ _ _ HT) in H1. congruence. }
      split; [assumption|]. split; [|apply local_refl].
      destruct HT as [T1 T2 T3 T4 T5 T6 T7]. split.
      + assumption.
      + assumption.
      + assumption.
      + intros b. rewrite T4. destruct (decide (b = a)) as [->|Hne].
        * rewrite lookup_insert. split; intros _; left; eauto.
        * rewrite lookup_insert_ne by congruence. tauto.
      + intros b. destruct (decide (b = a)) as [->|Hne].
        * intros _. exists fa. exact (lookup_weaken _ _ _ _ Hfa Hpp).
        * rewrite lookup_insert_ne by congruence. intros Hb. destruct (T5 b Hb) as [fb Hfb]. exists fb.
          exact (lookup_weaken _ _ _ _ Hfb Hpp).
      + assumption.
      + intros b nb. destruct (decide (b = a)) as [->|Hne].
        * rewrite lookup_insert. congruence.
        * rewrite lookup_insert_ne by congruence. apply T7.
    - (* get own *)
      cbn [exec1]. assert (El : locks s !! a = Some t) by (apply (tc_locks _ _ _ _ _ _ _ HT); auto).
      destruct (decide _) as [_|]; [|contradiction].
      destruct (tc_priv _ _ _ _ _ _ _ HT _ _ Hn) as (Hh & _). rewrite Hh.
      exists GP, pub, priv, hp, hv. split; [split; apply union_subseteq_l'; assumption|]. auto using local_refl.
    - (* put shared *)
      cbn [exec1]. assert (El : locks s !! a = Some t) by (apply (tc_locks _ _ _ _ _ _ _ HT); eauto).
      destruct (decide _) as [_|]; [|contradiction].
      destruct (tc_hp _ _ _ _ _ _ _ HT a ltac:(eauto)) as [fa Hfa].
      pose proof (tc_pub _ _ _ _ _ _ _ HT) as Hsub.
      pose proof (lookup_weaken _ _ _ _ Hfa Hsub) as HaG.
      pose proof (tc_know _ _ _ _ _ _ _ HT _ _ Ha) as Hhn0.
      destruct (gc_live _ _ HG a ltac:(eauto)) as (n1 & n00 & Hn1 & Hok1 & Hor & Hg1).
      assert (n1 = n0) as -> by congruence.
      exists GP, pub, priv, (<[a := Some n]> hp), hv. split; [split; apply union_subseteq_l'; assumption|]. split; [assumption|]. split; [|split].
      + destruct HG as [G1 G2 G3 G4 G5 G6 G7 G8 G9]. split; cbn [heap nxt locks set_heap].
        * assumption.
        * intros b Hb. destruct (decide (b = a)) as [->|Hne].
          -- exists n, n00. rewrite lookup_insert. split; [reflexivity|]. split.
             ++ eapply node_ok_mono; [exact Hsub|exists fa; exact Hfa|assumption].
             ++ split; [assumption|]. eapply gua_trans; eauto.
          -- rewrite lookup_insert_ne by congruence. auto.
        * intros b nb Hb Eb. destruct (decide (b = a)) as [->|Hne]; [congruence|].
          rewrite lookup_insert_ne by congruence. auto.
        * intros w Hw. destruct (G4 w Hw) as [? E]. split; [assumption|].
          destruct (decide (w = a)) as [->|Hne]; [congruence|]. rewrite lookup_insert_ne by congruence. assumption.
        * intros b [x Hb]. destruct (decide (b = a)) as [->|Hne]; [eauto|].
          rewrite lookup_insert_ne in Hb by congruence. eauto.
        * assumption.
        * assumption.
        * assumption.
        * intros b u Hb. destruct (decide (b = a)) as [->|Hne]; [rewrite lookup_insert; eauto|].
          rewrite lookup_insert_ne by congruence. eauto.
      + destruct HT as [T1 T2 T3 T4 T5 T6 T7]. split; cbn [heap locks nxt poison set_heap].
        * assumption.
        * intros b nb Hb. destruct (T2 _ _ Hb) as (E1 & E2 & E3).
          assert (b <> a) by congruence. rewrite lookup_insert_ne by congruence. auto.
        * assumption.
        * intros b. rewrite T4. destruct (decide (b = a)) as [->|Hne].
          -- rewrite lookup_insert. split; intros _; left; eauto.
          -- rewrite lookup_insert_ne by congruence. tauto.
        * intros b. destruct (decide (b = a)) as [->|Hne]; [eauto|].
          rewrite lookup_insert_ne by congruence. auto.
        * assumption.
        * intros b nb. destruct (decide (b = a)) as [->|Hne].
          -- rewrite !lookup_insert. congruence.
          -- rewrite !lookup_insert_ne by congruence. auto.
      + split; cbn [heap locks nxt poison set_heap]; auto.
        * intros b [fb Hfb] E. congruence.
        * intros b. destruct (decide (b = a)) as [->|Hne]; [auto|].
          rewrite lookup_insert_ne by congruence. auto.
    - (* put own *)
      cbn [exec1]. assert (El : locks s !! a = Some t) by (apply (tc_locks _ _ _ _ _ _ _ HT); eauto).
      destruct (decide _) as [_|]; [|contradiction].
      destruct Hn as [n0 Hn0]. destruct (tc_priv _ _ _ _ _ _ _ HT _ _ Hn0) as (Hh & Hg & Hnx).
      exists GP, pub, (<[a := n]> priv), hp, hv. split.
      { split; apply union_subseteq_l'; [assumption|]. rewrite dom_insert_lookup_L by eauto. assumption. }
      split; [assumption|]. split; [|split].
      + destruct HG as [G1 G2 G3 G4 G5 G6 G7 G8 G9]. split; cbn [heap nxt locks set_heap].
        * assumption.
        * intros b Hb. destruct (decide (b = a)) as [->|Hne]; [destruct Hb; congruence|].
          rewrite lookup_insert_ne by congruence. auto.
        * intros b nb Hb Eb. destruct (decide (b = a)) as [->|Hne].
          -- specialize (G6 a ltac:(eauto)). lia.
          -- rewrite lookup_insert_ne by congruence. auto.
        * intros w Hw. destruct (G4 w Hw) as [? E]. split; [assumption|].
          destruct (decide (w = a)) as [->|Hne]; [congruence|]. rewrite lookup_insert_ne by congruence. assumption.
        * intros b [x Hb]. destruct (decide (b = a)) as [->|Hne]; [eauto|].
          rewrite lookup_insert_ne in Hb by congruence. eauto.
        * assumption.
        * assumption.
        * assumption.
        * intros b u Hb. destruct (decide (b = a)) as [->|Hne]; [rewrite lookup_insert; eauto|].
          rewrite lookup_insert_ne by congruence. eauto.
      + destruct HT as [T1 T2 T3 T4 T5 T6 T7]. split; cbn [heap locks nxt poison set_heap].
        * assumption.
        * intros b nb. destruct (decide (b = a)) as [->|Hne].
          -- rewrite !lookup_insert. intros [= ->]. auto.
          -- rewrite !lookup_insert_ne by congruence. auto.
        * intros b u [x Hb]. destruct (decide (b = a)) as [->|Hne]; [eauto|].
          rewrite lookup_insert_ne in Hb by congruence. eauto.
        * assumption.
        * assumption.
        * intros b Hb. destruct (decide (b = a)) as [->|Hne]; [rewrite lookup_insert; eauto|].
          rewrite lookup_insert_ne by congruence. auto.
        * intros b nb Hb. destruct (decide (b = a)) as [->|Hne].
          -- destruct (T5 a ltac:(eauto)) as [fa Hfa]. rewrite (lookup_weaken _ _ _ _ Hfa T1) in Hg. discriminate.
          -- rewrite lookup_insert_ne by congruence. auto.
      + split; cbn [heap locks nxt poison set_heap]; auto.
        * intros b [fb Hfb] E. congruence.
        * intros b. destruct (decide (b = a)) as [->|Hne]; [auto|].
          rewrite lookup_insert_ne by congruence. auto.
        * intros b [x Hb]. destruct (decide (b = a)) as [->|Hne]; [left; eauto|].
          rewrite lookup_insert_ne in Hb by congruence. left; eauto.
    - (* new *)
      cbn [exec1]. set (a := nxt s).
      assert (Hfree : heap s !! a = None).
      { destruct (heap s !! a) eqn:E; [|reflexivity]. pose proof (gc_nxt _ _ HG a ltac:(eauto)). subst a. lia. }
      assert (HGa : GP !! a = None).
      { destruct (GP !! a) eqn:E; [|reflexivity]. destruct (gc_live _ _ HG a ltac:(eauto)) as (? & ? & ? & _). congruence. }
      assert (Hpa : pub !! a = None).
      { destruct (pub !! a) eqn:E; [|reflexivity]. rewrite (lookup_weaken _ _ _ _ E (tc_pub _ _ _ _ _ _ _ HT)) in HGa.
        discriminate. }
      assert (Hva : priv !! a = None).
      { destruct (priv !! a) eqn:E; [|reflexivity]. destruct (tc_priv _ _ _ _ _ _ _ HT _ _ E) as (? & _). congruence. }
      assert (Hda : ~ dead m a).
      { intros Hd. destruct (gc_dead _ _ HG a Hd). subst a. lia. }
      assert (Hla : locks s !! a = Some t -> False).
      { intros Hl. apply (tc_locks _ _ _ _ _ _ _ HT) in Hl as [Hl|Hl].
        - destruct (tc_hp _ _ _ _ _ _ _ HT a Hl). congruence.
        - destruct (tc_hv _ _ _ _ _ _ _ HT a Hl). congruence. }
      exists GP, pub, (<[a := n]> priv), hp, hv. split.
      { split; [apply union_subseteq_l'; assumption|]. rewrite dom_insert_L. cbn [learns]. fold a. set_solver. }
      split; [apply Hk; assumption|]. split; [|split].
      + destruct HG as [G1 G2 G3 G4 G5 G6 G7 G8 G9]. split; cbn [heap nxt locks alloc]; fold a.
        * assumption.
        * intros b Hb. destruct (decide (b = a)) as [->|Hne]; [destruct Hb; congruence|].
          rewrite lookup_insert_ne by congruence. auto.
        * intros b nb Hb Eb. rewrite lookup_insert_ne by (specialize (G3 _ _ Hb Eb); congruence). auto.
        * intros w Hw. destruct (G4 w Hw) as [? E]. split; [subst a; lia|].
          rewrite lookup_insert_ne by (subst a; lia). assumption.
        * intros b [x Hb]. destruct (decide (b = a)) as [->|Hne]; [lia|].
          rewrite lookup_insert_ne in Hb by congruence. specialize (G5 b ltac:(eauto)). subst a. lia.
        * assumption.
        * subst a. lia.
        * assumption.
        * intros b u Hb. destruct (decide (b = a)) as [->|Hne]; [rewrite lookup_insert; eauto|].
          rewrite lookup_insert_ne by congruence. eauto.
      + destruct HT as [T1 T2 T3 T4 T5 T6 T7]. split; cbn [heap locks nxt poison alloc]; fold a.
        * assumption.
        * intros b nb. destruct (decide (b = a)) as [->|Hne].
          -- rewrite !lookup_insert. intros [= ->]. split; [reflexivity|]. split; [assumption|].
             apply (gc_nx0 _ _ HG).
          -- rewrite !lookup_insert_ne by congruence. auto.
        * intros b u [x Hb]. destruct (decide (b = a)) as [->|Hne].
          -- intros Hl. destruct (gc_locks _ _ HG _ _ Hl). congruence.
          -- rewrite lookup_insert_ne in Hb by congruence. eauto.
        * assumption.
        * assumption.
        * intros b Hb. destruct (decide (b = a)) as [->|Hne]; [rewrite lookup_insert; eauto|].
          rewrite lookup_insert_ne by congruence. auto.
        * intros b nb Hb. rewrite lookup_insert_ne by (specialize (T7 _ _ Hb); congruence). auto.
      + split; cbn [heap locks nxt poison alloc]; fold a; auto.
        * intros b [fb Hfb] E. congruence.
        * intros b. destruct (decide (b = a)) as [->|Hne]; [auto|].
          rewrite lookup_insert_ne by congruence. auto.
        * intros b [x Hb]. destruct (decide (b = a)) as [->|Hne]; [auto|].
          rewrite lookup_insert_ne in Hb by congruence. left; eauto.
    - (* upgrade shared *)
      cbn [exec1]. destruct Ha as [fa Hfa].
      pose proof (lookup_weaken _ _ _ _ Hfa (tc_pub _ _ _ _ _ _ _ HT)) as HaG.
      destruct (gc_live _ _ HG a ltac:(eauto)) as (n & n0 & Hn & _).
      rewrite bool_decide_eq_true_2 by eauto. exists GP, pub, priv, hp, hv. split; [split; apply union_subseteq_l'; assumption|]. auto using local_refl.
    - cbn [exec1]. destruct Ha as [n Hn]. destruct (tc_priv _ _ _ _ _ _ _ HT _ _ Hn) as (Hh & _).
      rewrite bool_decide_eq_true_2 by eauto. exists GP, pub, priv, hp, hv. split; [split; apply union_subseteq_l'; assumption|]. auto using local_refl.
    - cbn [exec1]. destruct (gc_dead _ _ HG a Ha) as [_ E].
      rewrite bool_decide_eq_false_2 by (rewrite E; intros []; discriminate).
      exists GP, pub, priv, hp, hv. split; [split; apply union_subseteq_l'; assumption|]. auto using local_refl.
    - reflexivity.
    - cbn [exec1]. intros Es b Hb. destruct (Hst Es) as [-> ->].
      apply (tc_locks _ _ _ _ _ _ _ HT) in Hb as [Hb|Hb]; [|set_solver].
      rewrite lookup_empty in Hb. destruct Hb. discriminate.
    - (* publish *)
      subst hv.
      assert (Hfl : forall a, is_Some (flags !! a) <-> is_Some (priv !! a)).
      { intros a. rewrite <- !elem_of_dom. rewrite Hdom. reflexivity. }
      assert (Hdisj : forall a, is_Some (flags !! a) -> GP !! a = None).
      { intros a Ha. apply Hfl in Ha as [n Hn]. apply (tc_priv _ _ _ _ _ _ _ HT _ _ Hn). }
      assert (HsubG : GP ⊆ GP ∪ flags) by apply map_union_subseteq_l.
      assert (Hsubp : pub ∪ flags ⊆ GP ∪ flags).
      { apply map_union_mono_r; [|apply (tc_pub _ _ _ _ _ _ _ HT)].
        apply map_disjoint_spec. intros a x y Hx Hy. rewrite (Hdisj a ltac:(eauto)) in Hx. discriminate. }
      destruct (publish_sound t pub priv hp GP s flags Hdom Hok HG HT) as [HG' HT'].
      specialize (IH _ _ K HG' HT').
      specialize (IH ltac:(rewrite dom_union_L; apply union_subseteq; split; [assumption|rewrite Hdom; assumption])
        ltac:(rewrite dom_empty_L; apply empty_subseteq) HK3).
      assert (Hls : forall priv' GP' s', local_step t ∅ (GP ∪ flags) s priv' GP' s' ->
                local_step t priv GP s priv' GP' s').
      { intros priv' GP' s' [L1 L2 L3 L4 L5 L6]. split; auto.
        - etrans; eauto.
        - intros a Ha E. destruct ((GP ∪ flags) !! a) as [fa|] eqn:E2.
          + apply Hfl. rewrite lookup_union_r in E2 by assumption. eauto.
          + destruct (L2 a Ha E2) as [x Hx]. rewrite lookup_empty in Hx. discriminate.
        - intros a Ha. destruct (L5 a Ha) as [H1|[H1|H1]]; auto.
          rewrite lookup_empty in H1. destruct H1. discriminate.
        - intros a Ha. destruct (L6 a Ha) as [H1|H1]; auto.
          rewrite lookup_empty in H1. destruct H1. discriminate. }
      destruct (exec1 t p s) as [x|p' s'|a|msg s'| |] eqn:Ee.
      + destruct IH as (GP' & pub' & priv' & hp' & hv' & H1 & H2 & H3 & H4).
        exists GP', pub', priv', hp', hv'. auto.
      + destruct IH as (GP' & pub' & priv' & hp' & hv' & H0 & H1 & H2 & H3 & H4).
        exists GP', pub', priv', hp', hv'. split; [exact H0|]. auto.
      + destruct IH as [[H1 H2] H3]. split; [|assumption].
        assert (Hmine : forall b, locks s !! b = Some t -> is_Some (GP !! b)).
        { intros b Hb. apply (tc_locks _ _ _ _ _ _ _ HT) in Hb as [Hb|Hb]; [|set_solver].
          destruct (tc_hp _ _ _ _ _ _ _ HT b Hb) as [fb Hfb]. exists fb.
          eapply lookup_weaken; [exact Hfb|apply (tc_pub _ _ _ _ _ _ _ HT)]. }
        assert (HaG : is_Some (GP !! a)).
        { apply lookup_union_is_Some in H1 as [H1|H1]; [assumption|]. apply Hfl in H1.
          destruct H3 as [u Hu]. pose proof (tc_priv_lock _ _ _ _ _ _ _ HT a u H1 Hu) as ->. auto. }
        split; [assumption|]. intros Es. destruct (H2 Es) as [H4|[H4 H5]].
        * left. intros b Hb. destruct (Hmine b Hb) as [fb Hfb]. specialize (H4 b Hb).
          apply lookup_union_None in H4 as [H4 _]. congruence.
        * right. destruct HaG as [fa Hfa]. split.
          -- rewrite (lookup_weaken _ _ _ _ Hfa HsubG) in H4. congruence.
          -- intros b Hb [fb Hfb]. specialize (H5 b Hb).
             rewrite (lookup_weaken _ _ _ _ Hfb HsubG) in H5. specialize (H5 ltac:(eauto)). congruence.
      + assumption.
      + assumption.
      + assumption.
  Qed.

  Lemma step_sound {A} t (Q : _ -> _ -> _ -> _ -> A -> Prop) pub priv hp hv p :
    safe m Q pub priv hp hv p ->
    forall GP s, gcons GP s -> tcons t pub priv hp hv GP s ->
    match exec1 t p s with
    | RRet x => after_ret Q t priv GP s x
    | RStep p' s' => after_step Q t priv GP s p' s'
    | RBlocked a => blocked_claim t GP s a /\ is_Some (locks s !! a)
    | RPanic _ s' => s' = unwind t s
    | RNoFuel => strict m = true -> forall b, locks s !! b <> Some t
    | RStuck => False
    end.
  Proof.
    intros Hs GP s HG HT.
    set (K := dom pub ∪ dom priv ∪
      list_to_set (mjoin ((fun kv => strong_refs kv.2 ++ weak_refs kv.2) <$> map_to_list (heap s))) : gset nat).
    assert (HK : held_refs t s K).
    { intros a n c _ Hn Hc. left. apply elem_of_union_r. apply elem_of_list_to_set. apply elem_of_list_join.
      exists (strong_refs n ++ weak_refs n). split; [assumption|]. apply elem_of_list_fmap. exists (a, n).
      split; [reflexivity|]. apply elem_of_map_to_list. assumption. }
    pose proof (step_know t Q pub priv hp hv p Hs GP s K HG HT ltac:(set_solver) ltac:(set_solver) HK) as H.
    destruct (exec1 t p s); try exact H. destruct H as (GP' & pub' & priv' & hp' & hv' & _ & H).
    exists GP', pub', priv', hp', hv'. exact H.
  Qed.
  (** the nodes a step names are known *)
  Lemma names_sound {A} (Q : _ -> _ -> _ -> _ -> A -> Prop) pub priv hp hv p :
    safe m Q pub priv hp hv p -> forall K : gset nat, dom pub ⊆ K -> dom priv ⊆ K ->
    (forall a, is_Some (hp !! a) -> is_Some (pub !! a)) ->
    match p with
    | Lock a _ => a ∈ K
    | Upgrade a _ => a ∈ K \/ dead m a
    | Put _ n _ => forall c, c ∈ strong_refs n ++ weak_refs n -> c ∈ K \/ dead m c
    | New n _ => strong_refs n ++ weak_refs n = []
    | _ => True
    end.
  Proof.
    induction 1 as
      [pub priv hp hv x HQ
      |pub priv hp hv a k Ha Hm Hk IH
      |pub priv hp hv a k Est Ha
      |pub priv hp hv a k Ha Hm Hk IH
      |pub priv hp hv a k Ha Hk IH
      |pub priv hp hv a k Ha Hk IH
      |pub priv hp hv a k Ha Hk IH
      |pub priv hp hv a n k Ha Hn Hk IH
      |pub priv hp hv a n0 n k Ha Hn Hg Hk IH
      |pub priv hp hv a n k Ha Hn Hpr Hk IH
      |pub priv hp hv n k Hnr Hk IH
      |pub priv hp hv a k Ha Hk IH
      |pub priv hp hv a k Ha Hk IH
      |pub priv hp hv a k Ha Hk IH
      |pub priv hp hv msg
      |pub priv hp hv Hst
      |pub priv hp hv flags p Hhv Hdom Hok Hp IH]; intros K HK1 HK2 Hhp; try exact I.
    - apply HK1. apply elem_of_dom. exact Ha.
    - apply HK1. apply elem_of_dom. auto.
    - apply HK2. apply elem_of_dom. exact Ha.
    - assert (Hin : forall c, shared pub c -> c ∈ K) by (intros c Hc; apply HK1; apply elem_of_dom; exact Hc).
      assert (Hw : forall o w, ref_ok m pub o -> o = Some w -> w ∈ K \/ dead m w).
      { intros o w Ho ->. destruct Ho as [Ho|Ho]; auto. }
      intros c Hc. apply elem_of_app in Hc as [Hc|Hc].
      + left. apply Hin. apply elem_of_app in Hc as [Hc|Hc].
        * apply (ok_children _ _ _ _ Hn). assumption.
        * apply (ok_mimic_children _ _ _ _ Hn). assumption.
      + unfold weak_refs in Hc. apply elem_of_app in Hc as [Hc|Hc].
        * destruct (n_parent n) as [w'|] eqn:E; [|apply elem_of_nil in Hc; contradiction].
          apply elem_of_list_singleton in Hc as ->. exact (Hw _ _ (ok_parent _ _ _ _ Hn) E).
        * destruct (n_mimic_parent n) as [w'|] eqn:E; [|apply elem_of_nil in Hc; contradiction].
          apply elem_of_list_singleton in Hc as ->. exact (Hw _ _ (ok_mimic_parent _ _ _ _ Hn) E).
    - intros c Hc. left. destruct (proj1 Hpr c Hc) as [H1|H1]; [apply HK1|apply HK2]; apply elem_of_dom; exact H1.
    - assumption.
    - left. apply HK1. apply elem_of_dom. exact Ha.
    - left. apply HK2. apply elem_of_dom. exact Ha.
    - right. assumption.
    - apply IH.
      + rewrite dom_union_L. apply union_subseteq. split; [assumption|]. rewrite Hdom. assumption.
      + rewrite dom_empty_L. apply empty_subseteq.
      + intros a Ha. apply lookup_union_is_Some. left. auto.
  Qed.

  (** what [safe] knows about the strong references written *)
  Lemma put_sound {A} t (Q : _ -> _ -> _ -> _ -> A -> Prop) pub priv hp hv p :
    safe m Q pub priv hp hv p -> forall a n k, p = Put a n k ->
    forall GP s, gcons GP s -> tcons t pub priv hp hv GP s ->
    exists n0, heap s !! a = Some n0 /\ (gua m a n0 n \/ forall c, c ∈ strong_refs n0 -> c ∈ strong_refs n) /\
      (forall c, c ∈ strong_refs n -> is_Some (heap s !! c)) /\ (forall w, w ∈ weak_refs n -> w < nxt s).
  Proof.
    induction 1 as [| | | | | | | |pub priv hp hv a n0 n k Ha Hn Hg Hk IH
      |pub priv hp hv a n k Ha Hn Hpr Hk IH| | | | | | |pub priv hp hv flags p Hhv Hdom Hok Hp IH];
      intros b nb kb E; try discriminate; intros GP s HG HT.
    - injection E as <- <- <-. pose proof (tc_know _ _ _ _ _ _ _ HT _ _ Ha) as Hh.
      exists n0. split; [assumption|]. split; [left; assumption|].
      assert (Hl : forall c, shared pub c -> is_Some (heap s !! c)).
      { intros c [f Hf]. pose proof (lookup_weaken _ _ _ _ Hf (tc_pub _ _ _ _ _ _ _ HT)) as HcG.
        destruct (gc_live _ _ HG c ltac:(eauto)) as (nc & _ & Hc & _). eauto. }
      assert (Hw : forall o w, ref_ok m pub o -> o = Some w -> w < nxt s).
      { intros o w Ho ->. destruct Ho as [Ho|Ho]; [|apply (gc_dead _ _ HG _ Ho)].
        apply (gc_nxt _ _ HG). auto. }
      split.
      + intros c Hc. apply elem_of_app in Hc as [Hc|Hc]; apply Hl.
        * apply (ok_children _ _ _ _ Hn). assumption.
        * apply (ok_mimic_children _ _ _ _ Hn). assumption.
      + intros w Hc. unfold weak_refs in Hc. apply elem_of_app in Hc as [Hc|Hc].
        * destruct (n_parent n) as [w'|] eqn:E; [|apply elem_of_nil in Hc; contradiction].
          apply elem_of_list_singleton in Hc as ->. exact (Hw _ _ (ok_parent _ _ _ _ Hn) E).
        * destruct (n_mimic_parent n) as [w'|] eqn:E; [|apply elem_of_nil in Hc; contradiction].
          apply elem_of_list_singleton in Hc as ->. exact (Hw _ _ (ok_mimic_parent _ _ _ _ Hn) E).
    - injection E as <- <- <-. destruct Hn as [n0 Hn0]. destruct Hpr as [Hp1 Hp2].
      destruct (tc_priv _ _ _ _ _ _ _ HT _ _ Hn0) as (Hh & _).
      exists n0. split; [assumption|]. split; [right; eauto|].
      assert (Hl : forall c, c ∈ strong_refs n ++ weak_refs n -> is_Some (heap s !! c)).
      2:{ split; [intros c Hc; apply Hl; apply elem_of_app; auto|].
          intros w Hw. apply (gc_nxt _ _ HG). apply Hl. apply elem_of_app. auto. }
      intros c Hc. destruct (Hp1 c Hc) as [[f Hf]|[nc Hc']].
      + pose proof (lookup_weaken _ _ _ _ Hf (tc_pub _ _ _ _ _ _ _ HT)) as HcG.
        destruct (gc_live _ _ HG c ltac:(eauto)) as (nc & _ & Hc' & _). eauto.
      + destruct (tc_priv _ _ _ _ _ _ _ HT _ _ Hc') as (Hhc & _). eauto.
    - subst hv. destruct (publish_sound t pub priv hp GP s flags Hdom Hok HG HT) as [HG' HT'].
      exact (IH _ _ _ E _ _ HG' HT').
  Qed.
  Lemma new_sound {A} (Q : _ -> _ -> _ -> _ -> A -> Prop) pub priv hp hv p :
    safe m Q pub priv hp hv p -> forall n k, p = New n k -> strong_refs n ++ weak_refs n = [].
  Proof. induction 1; intros nb kb E; try discriminate; [injection E as <- <-; assumption|eauto]. Qed.

  (** ** sequential runs *)
  Lemma run_exec1 {A} t (p : prog T A) s :
    run t p s = match exec1 t p s with
                | RRet x => Done x s
                | RStep p' s' => run t p' s'
                | RBlocked a => Deadlock a s
                | RPanic msg s' => Panicked msg s'
                | RNoFuel => OutOfFuel s
                | RStuck => Stuck
                end.
  Proof.
    destruct p as [x|a k|a k|a k|a n k|n k|a k|msg|]; cbn [run exec1]; try reflexivity.
    - destruct (heap s !! a); [|reflexivity]. destruct (locks s !! a); [reflexivity|].
      destruct (decide _); reflexivity.
    - destruct (decide _); reflexivity.
    - destruct (decide _); [|reflexivity]. destruct (heap s !! a); reflexivity.
    - destruct (decide _); reflexivity.
  Qed.
  (** [exec1] moves to a strict subprogram *)
  Lemma prog_step_ind {A} (P : prog T A -> Prop) :
    (forall p, (forall t s p' s', exec1 t p s = RStep p' s' -> P p') -> P p) -> forall p, P p.
  Proof.
    intros HP. induction p as [x|a k IH|a k IH|a k IH|a n k IH|n k IH|a k IH|msg|]; apply HP;
      intros t s p' s'; cbn [exec1].
    - discriminate.
    - destruct (heap s !! a); [|discriminate]. destruct (locks s !! a); [discriminate|].
      destruct (decide _); [discriminate|]. intros [= <- <-]. assumption.
    - destruct (decide _); [|discriminate]. intros [= <- <-]. assumption.
    - destruct (decide _); [|discriminate]. destruct (heap s !! a); [|discriminate]. intros [= <- <-]. auto.
    - destruct (decide _); [|discriminate]. intros [= <- <-]. assumption.
    - intros [= <- <-]. auto.
    - intros [= <- <-]. auto.
    - discriminate.
    - discriminate.
  Qed.
  Lemma run_sound {A} t (Q : _ -> _ -> _ -> _ -> A -> Prop) p :
    forall pub priv hp hv GP s, safe m Q pub priv hp hv p -> gcons GP s -> tcons t pub priv hp hv GP s ->
    (forall a u, locks s !! a = Some u -> u = t) ->
    match run t p s with
    | Done x s' => exists GP' pub' priv' hp' hv', GP ⊆ GP' /\ Q pub' priv' hp' hv' x /\ gcons GP' s' /\
        tcons t pub' priv' hp' hv' GP' s' /\ (forall a u, locks s' !! a = Some u -> u = t)
    | Panicked _ s' => exists GP', GP ⊆ GP' /\ gcons GP' s' /\ locks s' = ∅
    | Deadlock _ s' => strict m = false /\ exists GP', GP ⊆ GP' /\ gcons GP' s'
    | OutOfFuel s' => exists GP', GP ⊆ GP' /\ gcons GP' s'
    | Stuck => False
    end.
  Proof.
    induction p as [p IH] using prog_step_ind. intros pub priv hp hv GP s Hp HG HT Hmine.
    pose proof (step_sound t Q pub priv hp hv p Hp GP s HG HT) as Hstep. rewrite run_exec1.
    destruct (exec1 t p s) as [x|p' s'|a|msg s'| |] eqn:Ee.
    - destruct Hstep as (GP' & pub' & priv' & hp' & hv' & H1 & H2 & H3 & H4).
      exists GP', pub', priv', hp', hv'. split; [apply (ls_grow _ _ _ _ _ _ _ H4)|auto].
    - destruct Hstep as (GP' & pub' & priv' & hp' & hv' & H1 & H2 & H3 & H4).
      assert (Hmine' : forall a u, locks s' !! a = Some u -> u = t).
      { intros a u Hu. destruct (decide (u = t)) as [|Hne]; [assumption|].
        apply (ls_locks _ _ _ _ _ _ _ H4 a u Hne) in Hu. eauto. }
      specialize (IH _ _ _ _ Ee _ _ _ _ _ _ H1 H2 H3 Hmine').
      pose proof (ls_grow _ _ _ _ _ _ _ H4) as Hg.
      destruct (run t p' s').
      + destruct IH as (GP2 & pub2 & priv2 & hp2 & hv2 & K1 & K). exists GP2, pub2, priv2, hp2, hv2.
        split; [etrans; eauto|assumption].
      + destruct IH as (GP2 & K1 & K). exists GP2. split; [etrans; eauto|assumption].
      + destruct IH as (K0 & GP2 & K1 & K). split; [assumption|]. exists GP2. split; [etrans; eauto|assumption].
      + destruct IH as (GP2 & K1 & K). exists GP2. split; [etrans; eauto|assumption].
      + assumption.
    - destruct Hstep as [[H1 H2] [u H3]]. split; [|exists GP; split; [reflexivity|assumption]].
      destruct (strict m) eqn:Es; [|reflexivity]. exfalso.
      pose proof (Hmine _ _ H3) as ->. destruct (H2 eq_refl) as [H4|[H4 H5]].
      + specialize (H4 a H3). destruct H1. congruence.
      + specialize (H5 a H3 H1). congruence.
    - subst s'. exists GP. split; [reflexivity|]. split; [apply gcons_unwind; assumption|].
      cbn. apply map_empty. intros a. destruct (filter _ _ !! a) as [u|] eqn:E; [|reflexivity].
      apply map_filter_lookup_Some in E as [E1 E2]. cbn in E2. apply Hmine in E1. contradiction.
    - exists GP. auto.
    - assumption.
  Qed.

  (** ** pools of threads *)
  Record ghost := Ghost {
    g_pub : gmap nat bool; g_priv : gmap nat (node T);
    g_hp : gmap nat (option (node T)); g_hv : gset nat }.
  Record pool {A} (Q : _ -> _ -> _ -> _ -> A -> Prop) (ths : list (thread T A)) (s : sh T)
      (GP : gmap nat bool) (g : nat -> ghost) : Prop := {
    po_g : gcons GP s;
    po_t : forall t p, ths !! t = Some (Running p) ->
      safe m Q (g_pub (g t)) (g_priv (g t)) (g_hp (g t)) (g_hv (g t)) p /\
      tcons t (g_pub (g t)) (g_priv (g t)) (g_hp (g t)) (g_hv (g t)) GP s;
    po_disj : forall t u p q, t <> u -> ths !! t = Some (Running p) -> ths !! u = Some (Running q) ->
      forall a, is_Some (g_priv (g t) !! a) -> is_Some (g_priv (g u) !! a) -> False;
    po_locks : forall a t, locks s !! a = Some t -> exists p, ths !! t = Some (Running p);
  }.
  Lemma pool_update {A} (Q : _ -> _ -> _ -> _ -> A -> Prop) ths s s' GP g t p p' GP' pub' priv' hp' hv' :
    pool Q ths s GP g -> ths !! t = Some (Running p) ->
    safe m Q pub' priv' hp' hv' p' -> gcons GP' s' -> tcons t pub' priv' hp' hv' GP' s' ->
    local_step t (g_priv (g t)) GP s priv' GP' s' ->
    pool Q (<[t := Running p']> ths) s' GP' (fun u => if decide (u = t) then Ghost pub' priv' hp' hv' else g u).
  Proof.
    intros HP Ht H1 H2 H3 H4. destruct (po_t _ _ _ _ _ HP t p Ht) as [Hs HT].
    pose proof (po_g _ _ _ _ _ HP) as HG.
    assert (Hoth : forall u q, u <> t -> <[t := Running p']> ths !! u = Some (Running q) ->
              ths !! u = Some (Running q)).
    { intros u q Hne Hu. rewrite list_lookup_insert_ne in Hu by congruence. assumption. }
    split.
    + assumption.
    + intros u q Hu. destruct (decide (u = t)) as [->|Hne]; cbn [g_pub g_priv g_hp g_hv].
      * rewrite list_lookup_insert in Hu by (eapply lookup_lt_Some; eauto). injection Hu as <-. auto.
      * apply Hoth in Hu; [|assumption]. destruct (po_t _ _ _ _ _ HP u q Hu) as [Hsu HTu]. split; [assumption|].
        pose proof (po_disj _ _ _ _ _ HP u t q p Hne Hu Ht) as Hd.
        destruct HTu as [T1 T2 T3 T4 T5 T6 T7]. destruct H4 as [L1 L2 L3 L4 L5 L6]. split.
        -- etrans; eauto.
        -- intros a n Ha. destruct (T2 a n Ha) as (E1 & E2 & E3). split; [|split; [|assumption]].
           ++ destruct (L3 a) as [E|[E|E]]; [congruence| |congruence].
              exfalso. apply Hne. symmetry. apply (T3 a t); eauto.
           ++ destruct (GP' !! a) eqn:E; [|reflexivity]. exfalso. apply (Hd a); eauto.
        -- intros a v Ha Hl. destruct (decide (v = t)) as [->|Hvt].
           ++ destruct Ha as [n Hn]. destruct (L5 a Hl) as [E|[E|E]].
              ** apply (T3 a t); eauto.
              ** exfalso. destruct (GP !! a) eqn:Eg.
                 --- destruct (T2 _ _ Hn) as (_ & E2 & _). congruence.
                 --- apply (Hd a); [eauto|]. apply L2; assumption.
              ** exfalso. apply (Hd a); eauto.
           ++ apply (L4 a v Hvt) in Hl. eauto.
        -- intros a. rewrite L4 by congruence. apply T4.
        -- assumption.
        -- assumption.
        -- intros a n Ha. specialize (T7 _ _ Ha). destruct (L3 a) as [E|[E|E]]; [congruence| |congruence].
           exfalso. assert (locks s !! a = Some u) by (apply T4; left; eauto). congruence.
    + assert (Hfresh : forall u q, ths !! u = Some (Running q) -> g_priv (g u) !! nxt s = None).
      { intros u q Hu. destruct (g_priv (g u) !! nxt s) as [n|] eqn:E; [|reflexivity].
        destruct (po_t _ _ _ _ _ HP u q Hu) as [_ HTu].
        destruct (tc_priv _ _ _ _ _ _ _ HTu _ _ E) as (E1 & _).
        pose proof (gc_nxt _ _ HG (nxt s) ltac:(eauto)). lia. }
      intros u v pu pv Huv Hu Hv a.
      destruct (decide (u = t)) as [->|Hut]; destruct (decide (v = t)) as [->|Hvt]; cbn [g_priv].
      * congruence.
      * intros Ha Hb. apply Hoth in Hv; [|assumption].
        destruct (ls_priv _ _ _ _ _ _ _ H4 a Ha) as [E|E].
        -- apply (po_disj _ _ _ _ _ HP t v p pv ltac:(congruence) Ht Hv a); assumption.
        -- subst a. rewrite (Hfresh _ _ Hv) in Hb. destruct Hb. discriminate.
      * intros Ha Hb. apply Hoth in Hu; [|assumption].
        destruct (ls_priv _ _ _ _ _ _ _ H4 a Hb) as [E|E].
        -- apply (po_disj _ _ _ _ _ HP t u p pu ltac:(congruence) Ht Hu a); assumption.
        -- subst a. rewrite (Hfresh _ _ Hu) in Ha. destruct Ha. discriminate.
      * apply Hoth in Hu; [|assumption]. apply Hoth in Hv; [|assumption].
        eapply (po_disj _ _ _ _ _ HP u v); eauto.
    + intros a u Hu. destruct (decide (u = t)) as [->|Hne].
      * exists p'. apply list_lookup_insert. eapply lookup_lt_Some; eauto.
      * apply (ls_locks _ _ _ _ _ _ _ H4 a u Hne) in Hu.
        destruct (po_locks _ _ _ _ _ HP a u Hu) as [q Hq]. exists q.
        rewrite list_lookup_insert_ne by congruence. assumption.
  Qed.
  Lemma pool_panic {A} (Q : _ -> _ -> _ -> _ -> A -> Prop) ths s GP g t p msg :
    pool Q ths s GP g -> ths !! t = Some (Running p) -> pool Q (<[t := Dead msg]> ths) (unwind t s) GP g.
  Proof.
    intros HP Ht.
    assert (Hoth : forall u q, <[t := Dead msg]> ths !! u = Some (Running q) ->
              u <> t /\ ths !! u = Some (Running q)).
    { intros u q Hu. destruct (decide (u = t)) as [->|Hne].
      - rewrite list_lookup_insert in Hu by (eapply lookup_lt_Some; eauto). discriminate.
      - rewrite list_lookup_insert_ne in Hu by congruence. auto. }
    assert (Hl : forall a u, u <> t -> filter (fun kv => kv.2 <> t) (locks s) !! a = Some u <-> locks s !! a = Some u).
    { intros a u Hne. rewrite map_filter_lookup_Some. cbn. tauto. }
    split.
    + apply gcons_unwind. apply (po_g _ _ _ _ _ HP).
    + intros u q Hu. apply Hoth in Hu as [Hne Hu]. destruct (po_t _ _ _ _ _ HP u q Hu) as [Hsu HTu].
      split; [assumption|]. destruct HTu as [T1 T2 T3 T4 T5 T6 T7]. split; cbn [unwind heap locks nxt]; auto.
      * intros a v Ha Hv. apply map_filter_lookup_Some in Hv as [Hv _]. eauto.
      * intros a. rewrite Hl by assumption. apply T4.
    + intros u v pu pv Huv Hu Hv. apply Hoth in Hu as [_ Hu]. apply Hoth in Hv as [_ Hv].
      eapply (po_disj _ _ _ _ _ HP u v); eauto.
    + cbn [unwind locks]. intros a u Hu. apply map_filter_lookup_Some in Hu as [Hu Hne]. cbn in Hne.
      destruct (po_locks _ _ _ _ _ HP a u Hu) as [q Hq]. exists q. rewrite list_lookup_insert_ne by congruence.
      assumption.
  Qed.
  Lemma pool_step {A} (Q : _ -> _ -> _ -> _ -> A -> Prop) ths s ths' s' GP g :
    pool Q ths s GP g -> tstep (ths, s) (ths', s') -> exists GP' g', pool Q ths' s' GP' g' /\ GP ⊆ GP'.
  Proof.
    intros HP Hst. inversion Hst as [t ths1 s1 p p' s1' Ht Ee|t ths1 s1 p msg s1' Ht Ee]; subst;
      destruct (po_t _ _ _ _ _ HP t p Ht) as [Hs HT];
      pose proof (step_sound t Q _ _ _ _ p Hs GP s (po_g _ _ _ _ _ HP) HT) as Hstep; rewrite Ee in Hstep.
    - destruct Hstep as (GP' & pub' & priv' & hp' & hv' & H1 & H2 & H3 & H4).
      eexists GP', _. split; [eapply pool_update; eauto|apply (ls_grow _ _ _ _ _ _ _ H4)].
    - subst s'. exists GP, g. split; [eapply pool_panic; eauto|reflexivity].
  Qed.
  Lemma pool_steps {A} (Q : _ -> _ -> _ -> _ -> A -> Prop) c c' :
    tsteps c c' -> forall GP g, pool Q c.1 c.2 GP g -> exists GP' g', pool Q c'.1 c'.2 GP' g' /\ GP ⊆ GP'.
  Proof.
    induction 1 as [c|c c1 c2 Hs _ IH]; intros GP g HP; [eauto|].
    destruct c as [ths s], c1 as [ths1 s1]. destruct (pool_step _ _ _ _ _ _ _ HP Hs) as (GP1 & g1 & HP1 & Hg1).
    destruct (IH GP1 g1 HP1) as (GP2 & g2 & HP2 & Hg2). exists GP2, g2. split; [assumption|etrans; eauto].
  Qed.
  (** no thread of a consistent pool is stuck *)
  Lemma pool_not_stuck {A} (Q : _ -> _ -> _ -> _ -> A -> Prop) ths s GP g t p :
    pool Q ths s GP g -> ths !! t = Some (Running p) -> exec1 t p s <> RStuck.
  Proof.
    intros HP Ht. destruct (po_t _ _ _ _ _ HP t p Ht) as [Hs HT].
    pose proof (step_sound t Q _ _ _ _ p Hs GP s (po_g _ _ _ _ _ HP) HT) as Hstep.
    destruct (exec1 t p s); congruence || contradiction.
  Qed.
  (** whoever is blocked waits, in at most two hops, for a thread that can move *)
  Definition moves {A} (ths : list (thread T A)) s u : Prop := exists q, ths !! u = Some (Running q) /\
    ((exists p' s', exec1 u q s = RStep p' s') \/ exists msg s', exec1 u q s = RPanic msg s').
  Definition waits {A} (ths : list (thread T A)) s t u : Prop := exists p a, ths !! t = Some (Running p) /\
    exec1 t p s = RBlocked a /\ locks s !! a = Some u.
  Lemma pool_progress {A} (Q : _ -> _ -> _ -> _ -> A -> Prop) ths s GP g t p a :
    (forall pub priv hp hv x, Q pub priv hp hv x -> hp = ∅ /\ hv = ∅) ->
    strict m = true -> pool Q ths s GP g ->
    ths !! t = Some (Running p) -> exec1 t p s = RBlocked a ->
    exists u, waits ths s t u /\ (moves ths s u \/ exists v, waits ths s u v /\ moves ths s v).
  Proof.
    intros HQ Es HP Ht Ee.
    assert (Hholder : forall a, is_Some (locks s !! a) -> exists u q, locks s !! a = Some u /\
      ths !! u = Some (Running q) /\ (moves ths s u \/ exists b, exec1 u q s = RBlocked b)).
    { clear t p a Ht Ee. intros a [u Hu]. destruct (po_locks _ _ _ _ _ HP a u Hu) as [q Hq].
      exists u, q. split; [assumption|]. split; [assumption|].
      destruct (po_t _ _ _ _ _ HP u q Hq) as [Hs HT].
      pose proof (step_sound u Q _ _ _ _ q Hs GP s (po_g _ _ _ _ _ HP) HT) as Hstep.
      destruct (exec1 u q s) as [x|p' s'|b|msg s'| |] eqn:E.
      - destruct Hstep as (GP' & pub' & priv' & hp' & hv' & H1 & H2 & H3 & H4).
        destruct (HQ _ _ _ _ _ H1) as [-> ->]. apply (tc_locks _ _ _ _ _ _ _ H3) in Hu as [Hu|Hu]; [|set_solver].
        rewrite lookup_empty in Hu. destruct Hu. discriminate.
      - left. exists q. eauto 10.
      - right. eauto.
      - left. exists q. eauto 10.
      - exfalso. apply (Hstep Es a). assumption.
      - contradiction. }
    assert (Hclaim : forall t p a, ths !! t = Some (Running p) -> exec1 t p s = RBlocked a ->
              blocked_claim t GP s a /\ is_Some (locks s !! a)).
    { clear t p a Ht Ee. intros t p a Ht Ee. destruct (po_t _ _ _ _ _ HP t p Ht) as [Hs HT].
      pose proof (step_sound t Q _ _ _ _ p Hs GP s (po_g _ _ _ _ _ HP) HT) as Hstep. rewrite Ee in Hstep. assumption. }
    destruct (Hclaim _ _ _ Ht Ee) as [[Ha _] Hla].
    destruct (Hholder a Hla) as (u & q & Hu & Hq & Hm). exists u. split; [exists p, a; auto|].
    destruct Hm as [Hm|[b Hb]]; [left; assumption|right].
    destruct (Hclaim _ _ _ Hq Hb) as [[Hb1 Hb2] Hlb].
    destruct (Hb2 Es) as [H1|[H1 H2]].
    { specialize (H1 a Hu). destruct Ha. congruence. }
    destruct (Hholder b Hlb) as (v & r & Hv & Hr & Hm). exists v. split; [exists q, b; auto|].
    destruct Hm as [Hm|[c Hc]]; [assumption|exfalso].
    destruct (Hclaim _ _ _ Hr Hc) as [[Hc1 Hc2] _].
    destruct (Hc2 Es) as [H3|[H3 H4]].
    - specialize (H3 b Hv). destruct Hb1. congruence.
    - specialize (H4 b Hv Hb1). congruence.
  Qed.
End Sound.
