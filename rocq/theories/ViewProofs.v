(** * Weak memory: the proofs *)
From Coq Require Import String.
From stdpp Require Import gmap.
From Verif Require Import Scalar Geometry Joint Link Prog NodeM ChainM FuncsM IkM Api SpecHist SpecRace SpecView Safe SafeSound
  ApiProofs ApiSound HistProofs SpecNode SpecGraph RaceProofs.

Lemma upd_eq {B} (f : nat -> B) a x : upd f a x a = x.
Proof. unfold upd. rewrite decide_True; reflexivity. Qed.
Lemma upd_ne {B} (f : nat -> B) a b x : b <> a -> upd f a x b = f b.
Proof. intros Hne. unfold upd. rewrite decide_False by assumption. reflexivity. Qed.
Lemma join_dom v w : (dom (join v w) : gset nat) = dom v ∪ dom w.
Proof.
  apply set_eq. intros a. unfold join. rewrite elem_of_union, !elem_of_dom, lookup_union_with.
  destruct (v !! a), (w !! a); cbn; split; intros; eauto; try (destruct H; discriminate); destruct H as [[]|[]]; discriminate.
Qed.
Lemma join_lookup v w a : join v w !! a =
  match v !! a, w !! a with Some x, Some y => Some (max x y) | Some x, None => Some x | None, o => o end.
Proof. unfold join. rewrite lookup_union_with. destruct (v !! a), (w !! a); reflexivity. Qed.

Section ViewMem.
  Context {T : Type} (D : nat -> Prop) (h : gmap nat (node T)).
  Notation refs n := (strong_refs n ++ weak_refs n).

  Record vmem (m : vm T) (s : sh T) : Prop := {
    vi_shows : shows m s;
    vi_base : forall t a, is_Some (h !! a) -> a ∈ dom (seen m t);
    vi_held : forall a t n c, locks s !! a = Some t -> heap s !! a = Some n -> c ∈ refs n -> c ∈ dom (seen m t) \/ D c;
    vi_held_new : forall a t, locks s !! a = Some t -> exists y, seen m t !! a = Some y /\ newest m a y;
    vi_free : forall a n c, locks s !! a = None -> heap s !! a = Some n -> c ∈ refs n ->
      c ∈ dom (handed m a) \/ D c \/ is_Some (h !! c);
    vi_free_new : forall a, is_Some (heap s !! a) -> locks s !! a = None ->
      (exists y, handed m a !! a = Some y /\ newest m a y) \/ newest m a 0;
    vi_seen : forall t a y, seen m t !! a = Some y -> is_Some (writes m a !! y);
    vi_handed : forall b a y, handed m b !! a = Some y -> is_Some (writes m a !! y);
    vi_fresh : forall a y, is_Some (writes m a !! y) -> a < vnxt m;
  }.

  Lemma newest_fun (m : vm T) a y z : newest m a y -> newest m a z -> y = z.
  Proof. intros [H1 H2] [H3 H4]. specialize (H2 z H3). specialize (H4 y H1). lia. Qed.
  Lemma shows_newest (m : vm T) (s : sh T) a y n : shows m s -> newest m a y -> writes m a !! y = Some n -> heap s !! a = Some n.
  Proof. intros Hs H1 H2. apply (sw_heap _ _ Hs). eauto. Qed.
  Lemma written_alive (m : vm T) (s : sh T) a y : shows m s -> is_Some (writes m a !! y) -> is_Some (heap s !! a).
  Proof.
    intros Hs Hy.
    assert (Hm : exists z, newest m a z).
    { assert (G : forall l : list (nat * node T), l <> [] -> exists z n, (z, n) ∈ l /\ forall z' n', (z', n') ∈ l -> z' <= z).
      { induction l as [|[z n] l IH]; [congruence|intros _]. destruct l as [|p l].
        - exists z, n. split; [left|]. intros z' n' Hin. apply elem_of_list_singleton in Hin. injection Hin as -> ->. lia.
        - destruct IH as (z1 & n1 & Hin & Hmax); [congruence|]. destruct (decide (z <= z1)).
          + exists z1, n1. split; [right; assumption|]. intros z' n' Hi. apply elem_of_cons in Hi as [Hi|Hi]; [injection Hi as -> ->; lia|eauto].
          + exists z, n. split; [left|]. intros z' n' Hi. apply elem_of_cons in Hi as [Hi|Hi]; [injection Hi as -> ->; lia|].
            specialize (Hmax _ _ Hi). lia. }
      destruct Hy as [n Hn]. destruct (G (map_to_list (writes m a))) as (z & n1 & Hin & Hmax).
      - intros E. apply elem_of_map_to_list in Hn. rewrite E in Hn. apply elem_of_nil in Hn. exact Hn.
      - exists z. split; [apply elem_of_map_to_list in Hin; eauto|]. intros z' [n' Hz]. eapply Hmax. apply elem_of_map_to_list. exact Hz. }
    destruct Hm as [z Hz]. pose proof (proj1 Hz) as [n Hn]. exists n. eapply shows_newest; eauto.
  Qed.
  Lemma alive_newest (m : vm T) (s : sh T) a n : shows m s -> heap s !! a = Some n -> exists y, newest m a y /\ writes m a !! y = Some n.
  Proof. intros Hs Hn. apply (sw_heap _ _ Hs). assumption. Qed.

  (** when a free mutex is locked, the joined view shows the newest write *)
  Lemma lock_newest m s t a x :
    vmem m s -> seen m t !! a = Some x -> locks s !! a = None ->
    exists y, join (seen m t) (handed m a) !! a = Some y /\ newest m a y.
  Proof.
    intros HV Hx Hl. pose proof (vi_seen _ _ HV _ _ _ Hx) as Hw.
    pose proof (written_alive _ _ _ _ (vi_shows _ _ HV) Hw) as Ha. rewrite join_lookup, Hx.
    destruct (vi_free_new _ _ HV a Ha Hl) as [(y & Hy & Hn)|Hn].
    - rewrite Hy. exists (max x y). split; [reflexivity|]. pose proof (proj2 Hn x Hw). replace (max x y) with y by lia. assumption.
    - pose proof (proj2 Hn x Hw). assert (x = 0) as -> by lia. exists 0. split; [|assumption].
      destruct (handed m a !! a) as [y|] eqn:E; [|reflexivity]. pose proof (proj2 Hn y (vi_handed _ _ HV _ _ _ E)).
      f_equal. lia.
  Qed.

  (** a step of the weak machine is a step of the machine with one memory *)
  Lemma vstep1_sim {A} t (p : prog T A) m s o :
    vmem m s -> vstep1 t p m o -> exec1 t p s <> RStuck ->
    (forall w, D w -> heap s !! w = None) ->
    match p with
    | Lock a _ => a ∈ dom (seen m t)
    | Upgrade a _ => a ∈ dom (seen m t) \/ D a
    | Put _ n _ => forall c, c ∈ refs n -> c ∈ dom (seen m t) \/ D c
    | New n _ => refs n = []
    | _ => True
    end ->
    match o with
    | Moves p' m' => exists s', exec1 t p s = RStep p' s' /\ vmem m' s' /\
        dom (seen m t) ∪ learns p s ⊆ dom (seen m' t) /\ forall u, u <> t -> seen m' u = seen m u
    | Dies msg m' => exec1 t p s = RPanic msg (unwind t s) /\ vmem m' (unwind t s) /\ seen m' = seen m
    | Undefined => False
    end.
  Proof.
    intros HV Hst Hns HD Hnames.
    pose proof (vi_shows _ _ HV) as Hsw. destruct Hsw as [Sh1 Sh2 Sh3 Sh4].
    assert (Hunw : vmem (vunwind t m) (unwind t s)).
    { destruct HV as [_ V2 V3 V4 V5 V6 V7 V8 V9]. unfold vunwind, unwind.
      assert (Hl : forall a u, filter (fun kv => kv.2 <> t) (locks s) !! a = Some u <-> locks s !! a = Some u /\ u <> t)
        by (intros a u; rewrite map_filter_lookup_Some; reflexivity).
      assert (Hl0 : forall a, filter (fun kv => kv.2 <> t) (locks s) !! a = None -> locks s !! a = None \/ locks s !! a = Some t).
      { intros a E. destruct (locks s !! a) as [u|] eqn:El; [|auto]. right. f_equal. destruct (decide (u = t)); [assumption|].
        assert (filter (fun kv => kv.2 <> t) (locks s) !! a = Some u) by (apply Hl; auto). congruence. }
      split; cbn [heap locks poison nxt writes vnxt vlocks vpoison seen handed].
      - split; cbn [heap locks poison nxt writes vnxt vlocks vpoison seen handed]; [exact Sh1|assumption|rewrite Sh3; reflexivity|rewrite Sh3, Sh4; reflexivity].
      - assumption.
      - intros a u n c Hu. apply Hl in Hu as [Hu _]. eauto.
      - intros a u Hu. apply Hl in Hu as [Hu _]. exact (V4 a u Hu).
      - intros a n c Hf Hn Hc. rewrite <- Sh3. destruct (Hl0 a Hf) as [E|E].
        + rewrite decide_False by congruence. eauto.
        + rewrite decide_True by assumption. destruct (V3 a t n c E Hn Hc); auto.
      - intros a Ha Hf. rewrite <- Sh3. destruct (Hl0 a Hf) as [E|E].
        + rewrite decide_False by congruence. exact (V6 a Ha E).
        + rewrite decide_True by assumption. left. exact (V4 a t E).
      - assumption.
      - intros b a y. destruct (decide _); eauto.
      - assumption. }
    destruct Hst as
      [a k m Hs Hl Hp|a k m Hs Hl Hp|a k m Hs|a k m Hl|a k m Hl|a k m x y n Hx Hxy Hy|a k m Hx|a n k m x y Hx Hxy Hy|a n k m Hx
      |n k m|a k m Hw Hs|a k m Hw|a k m Hw Hs|msg m].
    - (* lock *)
      destruct Hs as [x Hx]. pose proof (lock_newest m s t a x HV Hx ltac:(congruence)) as (y & Hy & Hny).
      pose proof (written_alive _ _ _ _ (vi_shows _ _ HV) (vi_seen _ _ HV _ _ _ Hx)) as [n Hn].
      exists (set_locks s (<[a := t]> (locks s))). cbn [exec1]. rewrite Hn, Sh3, Hl, Sh4, decide_False by assumption.
      split; [reflexivity|]. cbn [seen learns]. rewrite upd_eq. split; [|split; [rewrite join_dom; set_solver|intros; apply upd_ne; assumption]].
      destruct HV as [_ V2 V3 V4 V5 V6 V7 V8 V9].
      assert (Hgrow : forall u, dom (seen m u) ⊆ dom (upd (seen m) t (join (seen m t) (handed m a)) u)).
      { intros u. destruct (decide (u = t)) as [->|Hne]; [rewrite upd_eq, join_dom; set_solver|rewrite upd_ne by assumption; reflexivity]. }
      split; cbn [set_locks heap locks poison nxt writes vnxt vlocks vpoison seen handed].
      + split; cbn [set_locks heap locks poison nxt writes vnxt vlocks vpoison seen handed]; [exact Sh1|assumption|reflexivity|assumption].
      + intros u b Hb. apply Hgrow. auto.
      + intros b u nb c Hb Hnb Hc. destruct (decide (b = a)) as [->|Hne].
        * rewrite lookup_insert in Hb. injection Hb as <-. rewrite upd_eq, join_dom.
          destruct (V5 a nb c ltac:(congruence) Hnb Hc) as [H1|[H1|H1]]; [set_solver|auto|]. left. apply elem_of_union_l. auto.
        * rewrite lookup_insert_ne in Hb by congruence. rewrite <- Sh3 in Hb. destruct (V3 _ _ _ _ Hb Hnb Hc) as [H1|H1]; [left; apply Hgrow; assumption|auto].
      + intros b u Hb. destruct (decide (b = a)) as [->|Hne].
        * rewrite lookup_insert in Hb. injection Hb as <-. rewrite upd_eq. eauto.
        * rewrite lookup_insert_ne in Hb by congruence. rewrite <- Sh3 in Hb. destruct (V4 b u Hb) as (z & Hz & Hnz).
          destruct (decide (u = t)) as [->|Hut]; [|rewrite upd_ne by assumption; eauto]. rewrite upd_eq, join_lookup, Hz.
          destruct (handed m a !! b) as [w|] eqn:E; [|eauto]. exists z. split; [|assumption].
          pose proof (proj2 Hnz w (V8 _ _ _ E)). f_equal. lia.
      + intros b nb c Hb. destruct (decide (b = a)) as [->|Hne]; [rewrite lookup_insert in Hb; discriminate|].
        rewrite lookup_insert_ne in Hb by congruence. rewrite <- Sh3 in Hb. eauto.
      + intros b Ha Hb. destruct (decide (b = a)) as [->|Hne]; [rewrite lookup_insert in Hb; discriminate|].
        rewrite lookup_insert_ne in Hb by congruence. rewrite <- Sh3 in Hb. exact (V6 b Ha Hb).
      + intros u b z. destruct (decide (u = t)) as [->|Hut]; [|rewrite upd_ne by assumption; apply V7].
        rewrite upd_eq, join_lookup. destruct (seen m t !! b) as [w|] eqn:E1; destruct (handed m a !! b) as [w'|] eqn:E2; intros [= <-]; eauto.
        destruct (Nat.max_spec w w') as [[_ ->]|[_ ->]]; eauto.
      + assumption.
      + assumption.
    - (* lock, poisoned *)
      destruct Hs as [x Hx]. pose proof (written_alive _ _ _ _ (vi_shows _ _ HV) (vi_seen _ _ HV _ _ _ Hx)) as [n Hn].
      cbn [exec1]. rewrite Hn, Sh3, Hl, Sh4, decide_True by assumption. auto.
    - apply elem_of_dom in Hnames. rewrite Hs in Hnames. destruct Hnames. discriminate.
    - (* unlock *)
      exists (set_locks s (delete a (locks s))). cbn [exec1]. rewrite decide_True by congruence. split; [reflexivity|].
      cbn [seen learns]. split; [|split; [set_solver|reflexivity]].
      rewrite <- Sh3 in Hl. destruct HV as [_ V2 V3 V4 V5 V6 V7 V8 V9].
      split; cbn [set_locks heap locks poison nxt writes vnxt vlocks vpoison seen handed].
      + split; cbn [set_locks heap locks poison nxt writes vnxt vlocks vpoison seen handed]; [exact Sh1|assumption|rewrite Sh3; reflexivity|assumption].
      + assumption.
      + intros b u nb c Hb. apply lookup_delete_Some in Hb as [_ Hb]. eauto.
      + intros b u Hb. apply lookup_delete_Some in Hb as [_ Hb]. exact (V4 b u Hb).
      + intros b nb c Hb Hnb Hc. destruct (decide (b = a)) as [->|Hne].
        * rewrite upd_eq. destruct (V3 _ _ _ _ Hl Hnb Hc); auto.
        * rewrite lookup_delete_ne in Hb by congruence. rewrite upd_ne by assumption. eauto.
      + intros b Ha Hb. destruct (decide (b = a)) as [->|Hne].
        * rewrite upd_eq. left. exact (V4 _ _ Hl).
        * rewrite lookup_delete_ne in Hb by congruence. rewrite upd_ne by assumption. exact (V6 b Ha Hb).
      + assumption.
      + intros b c y. destruct (decide (b = a)) as [->|Hne]; [rewrite upd_eq; apply V7|rewrite upd_ne by assumption; apply V8].
      + assumption.
    - cbn in Hns. rewrite decide_False in Hns by congruence. congruence.
    - (* get *)
      cbn [exec1] in Hns |- *. destruct (decide (locks s !! a = Some t)) as [Hl|]; [|congruence].
      destruct (vi_held_new _ _ HV _ _ Hl) as (z & Hz & Hnz). rewrite Hz in Hx. injection Hx as ->.
      pose proof (proj2 Hnz y ltac:(eauto)) as Hle. assert (y = x) as -> by lia.
      rewrite (shows_newest _ _ _ _ _ (vi_shows _ _ HV) Hnz Hy).
      exists s. split; [reflexivity|]. cbn [seen learns]. rewrite insert_id by assumption. rewrite upd_eq.
      split; [|split; [set_solver|intros; apply upd_ne; assumption]].
      assert (Hs : forall u, upd (seen m) t (seen m t) u = seen m u).
      { intros u. destruct (decide (u = t)) as [->|Hne]; [apply upd_eq|apply upd_ne; assumption]. }
      destruct HV as [V1 V2 V3 V4 V5 V6 V7 V8 V9]. split; cbn [writes vnxt vlocks vpoison seen handed]; try assumption.
      + split; assumption.
      + intros u b. rewrite Hs. apply V2.
      + intros b u nb c. rewrite Hs. apply V3.
      + intros b u. rewrite Hs. apply V4.
      + intros u b c. rewrite Hs. apply V7.
    - cbn [exec1] in Hns. destruct (decide (locks s !! a = Some t)) as [Hl|]; [|congruence].
      destruct (vi_held_new _ _ HV _ _ Hl) as (z & Hz & _). congruence.
    - (* put *)
      cbn [exec1] in Hns |- *. destruct (decide (locks s !! a = Some t)) as [Hl|]; [|congruence].
      destruct (vi_held_new _ _ HV _ _ Hl) as (z & Hz & Hnz). rewrite Hz in Hx. injection Hx as ->.
      exists (set_heap s (<[a := n]> (heap s))). split; [reflexivity|]. cbn [seen learns]. rewrite upd_eq.
      split; [|split; [rewrite dom_insert_L; set_solver|intros; apply upd_ne; assumption]].
      destruct HV as [V1 V2 V3 V4 V5 V6 V7 V8 V9].
      set (w := upd (writes m) a (<[y := n]> (writes m a))).
      assert (Hwa : w a = <[y := n]> (writes m a)) by apply upd_eq.
      assert (Hwn : forall b, b <> a -> w b = writes m b) by (intros; apply upd_ne; assumption).
      assert (Hnew : forall b v, b <> a -> (newest (Vm w (vnxt m) (vlocks m) (vpoison m) (upd (seen m) t (<[a := y]> (seen m t))) (handed m)) b v <-> newest m b v)).
      { intros b v Hb. unfold newest. cbn [writes]. rewrite Hwn by assumption. reflexivity. }
      assert (Hny : newest (Vm w (vnxt m) (vlocks m) (vpoison m) (upd (seen m) t (<[a := y]> (seen m t))) (handed m)) a y).
      { unfold newest. cbn [writes]. rewrite Hwa. split; [rewrite lookup_insert; eauto|]. intros v Hv.
        destruct (decide (v = y)) as [->|Hne]; [lia|]. rewrite lookup_insert_ne in Hv by congruence. pose proof (proj2 Hnz v Hv). lia. }
      assert (Hsome : forall b v, is_Some (writes m b !! v) -> is_Some (w b !! v)).
      { intros b v Hv. destruct (decide (b = a)) as [->|Hb]; [|rewrite Hwn; assumption]. rewrite Hwa.
        destruct (decide (v = y)) as [->|Hne]; [rewrite lookup_insert; eauto|rewrite lookup_insert_ne by congruence; assumption]. }
      assert (Hgrow : forall u, dom (seen m u) ⊆ dom (upd (seen m) t (<[a := y]> (seen m t)) u)).
      { intros u. destruct (decide (u = t)) as [->|Hne]; [rewrite upd_eq, dom_insert_L; set_solver|rewrite upd_ne by assumption; reflexivity]. }
      split; cbn [set_heap heap locks poison nxt writes vnxt vlocks vpoison seen handed].
      + split; cbn [set_heap heap locks poison nxt writes vnxt vlocks vpoison seen handed]; try assumption.
        intros b nb. destruct (decide (b = a)) as [->|Hb].
        * rewrite lookup_insert, Hwa. split.
          -- intros [= <-]. exists y. split; [assumption|]. apply lookup_insert.
          -- intros (v & Hv & Hvn). pose proof (newest_fun _ _ _ _ Hv Hny) as ->. rewrite lookup_insert in Hvn. assumption.
        * rewrite lookup_insert_ne, Hwn by congruence. rewrite Sh1. split; intros (v & Hv & Hvn); exists v; (split; [|assumption]);
            [apply Hnew; assumption|apply (proj1 (Hnew b v Hb)); assumption].
      + intros u b Hb. apply Hgrow. auto.
      + intros b u nb c Hb Hnb Hc. destruct (decide (b = a)) as [->|Hne].
        * rewrite lookup_insert in Hnb. injection Hnb as <-. assert (u = t) as -> by congruence.
          destruct (Hnames c Hc) as [H1|H1]; [left; apply Hgrow; assumption|auto].
        * rewrite lookup_insert_ne in Hnb by congruence. destruct (V3 _ _ _ _ Hb Hnb Hc) as [H1|H1]; [left; apply Hgrow; assumption|auto].
      + intros b u Hb. destruct (decide (b = a)) as [->|Hne].
        * assert (u = t) as -> by congruence. rewrite upd_eq, lookup_insert. eauto.
        * destruct (V4 b u Hb) as (v & Hv & Hnv). exists v. split; [|apply Hnew; assumption].
          destruct (decide (u = t)) as [->|Hut]; [rewrite upd_eq, lookup_insert_ne by congruence; assumption|rewrite upd_ne; assumption].
      + intros b nb c Hb Hnb. assert (b <> a) by congruence. rewrite lookup_insert_ne in Hnb by congruence. eauto.
      + intros b Hb Hf. assert (b <> a) by congruence. rewrite lookup_insert_ne in Hb by congruence.
        destruct (V6 b Hb Hf) as [(v & Hv & Hnv)|Hnv]; [left; exists v; split; [assumption|]|right]; apply Hnew; assumption.
      + intros u b v. destruct (decide (u = t)) as [->|Hut]; [rewrite upd_eq|rewrite upd_ne by assumption; intros Hv; apply Hsome; eauto].
        destruct (decide (b = a)) as [->|Hb].
        * rewrite lookup_insert. intros [= <-]. rewrite Hwa, lookup_insert. eauto.
        * rewrite lookup_insert_ne by congruence. intros Hv. apply Hsome. eauto.
      + intros b c v Hv. apply Hsome. eauto.
      + intros b v Hv. destruct (decide (b = a)) as [->|Hb]; [|rewrite Hwn in Hv by assumption; eauto].
        apply (V9 a x). exact (proj1 Hnz).
    - cbn [exec1] in Hns. destruct (decide (locks s !! a = Some t)) as [Hl|]; [|congruence].
      destruct (vi_held_new _ _ HV _ _ Hl) as (z & Hz & _). congruence.
    - (* new *)
      exists (alloc s n). cbn [exec1]. rewrite Sh2. split; [reflexivity|]. cbn [seen learns]. rewrite upd_eq, Sh2.
      split; [|split; [rewrite dom_insert_L; set_solver|intros; apply upd_ne; assumption]].
      destruct HV as [V1 V2 V3 V4 V5 V6 V7 V8 V9].
      set (a := vnxt m). set (w := upd (writes m) a {[0 := n]}).
      assert (Hwa : w a = {[0 := n]}) by apply upd_eq.
      assert (Hwn : forall b, b <> a -> w b = writes m b) by (intros; apply upd_ne; assumption).
      assert (Hfr : forall y, writes m a !! y = None).
      { intros y. destruct (writes m a !! y) eqn:E; [|reflexivity]. pose proof (V9 a y ltac:(eauto)). subst a. lia. }
      assert (Hha : heap s !! a = None).
      { destruct (heap s !! a) as [na|] eqn:E; [|reflexivity]. apply Sh1 in E as (y & _ & Hy). rewrite Hfr in Hy. discriminate. }
      set (m' := Vm w (S a) (vlocks m) (vpoison m) (upd (seen m) t (<[a := 0]> (seen m t))) (handed m)).
      assert (Hnew : forall b v, b <> a -> (newest m' b v <-> newest m b v)).
      { intros b v Hb. unfold newest, m'. cbn [writes]. rewrite Hwn by assumption. reflexivity. }
      assert (Hny : newest m' a 0).
      { unfold newest, m'. cbn [writes]. rewrite Hwa. split; [rewrite lookup_singleton; eauto|]. intros v [x Hv].
        apply lookup_singleton_Some in Hv as [<- _]. lia. }
      assert (Hsome : forall b v, is_Some (writes m b !! v) -> is_Some (w b !! v)).
      { intros b v Hv. destruct (decide (b = a)) as [->|Hb]; [|rewrite Hwn; assumption]. rewrite Hfr in Hv. destruct Hv. discriminate. }
      assert (Hlk : forall u, locks s !! a = Some u -> False).
      { intros u Hu. destruct (V4 a u Hu) as (y & _ & [Hy _]). rewrite Hfr in Hy. destruct Hy. discriminate. }
      assert (Hgrow : forall u, dom (seen m u) ⊆ dom (upd (seen m) t (<[a := 0]> (seen m t)) u)).
      { intros u. destruct (decide (u = t)) as [->|Hne]; [rewrite upd_eq, dom_insert_L; set_solver|rewrite upd_ne by assumption; reflexivity]. }
      split; cbn [alloc m' heap locks poison nxt writes vnxt vlocks vpoison seen handed]; rewrite ?Sh2; fold a.
      + split; cbn [alloc m' heap locks poison nxt writes vnxt vlocks vpoison seen handed]; rewrite ?Sh2; fold a; try assumption; [|reflexivity].
        intros b nb. destruct (decide (b = a)) as [->|Hb].
        * rewrite lookup_insert, Hwa. split.
          -- intros [= <-]. exists 0. split; [assumption|]. apply lookup_singleton.
          -- intros (v & Hv & Hvn). apply lookup_singleton_Some in Hvn as [_ ->]. reflexivity.
        * rewrite lookup_insert_ne, Hwn by congruence. rewrite Sh1. split; intros (v & Hv & Hvn); exists v; (split; [|assumption]);
            [apply Hnew; assumption|apply (proj1 (Hnew b v Hb)); assumption].
      + intros u b Hb. apply Hgrow. auto.
      + intros b u nb c Hb Hnb Hc. destruct (decide (b = a)) as [->|Hne]; [exfalso; eauto|].
        rewrite lookup_insert_ne in Hnb by congruence. destruct (V3 _ _ _ _ Hb Hnb Hc) as [H1|H1]; [left; apply Hgrow; assumption|auto].
      + intros b u Hb. destruct (decide (b = a)) as [->|Hne]; [exfalso; eauto|].
        destruct (V4 b u Hb) as (v & Hv & Hnv). exists v. split; [|apply Hnew; assumption].
        destruct (decide (u = t)) as [->|Hut]; [rewrite upd_eq, lookup_insert_ne by congruence; assumption|rewrite upd_ne; assumption].
      + intros b nb c Hb Hnb Hc. destruct (decide (b = a)) as [->|Hne].
        * rewrite lookup_insert in Hnb. injection Hnb as <-. rewrite Hnames in Hc. apply elem_of_nil in Hc. contradiction.
        * rewrite lookup_insert_ne in Hnb by congruence. eauto.
      + intros b Hb Hf. destruct (decide (b = a)) as [->|Hne]; [right; assumption|].
        rewrite lookup_insert_ne in Hb by congruence.
        destruct (V6 b Hb Hf) as [(v & Hv & Hnv)|Hnv]; [left; exists v; split; [assumption|]|right]; apply Hnew; assumption.
      + intros u b v. destruct (decide (u = t)) as [->|Hut]; [rewrite upd_eq|rewrite upd_ne by assumption; intros Hv; apply Hsome; eauto].
        destruct (decide (b = a)) as [->|Hb].
        * rewrite lookup_insert. intros [= <-]. rewrite Hwa, lookup_singleton. eauto.
        * rewrite lookup_insert_ne by congruence. intros Hv. apply Hsome. eauto.
      + intros b c v Hv. apply Hsome. eauto.
      + intros b v Hv. destruct (decide (b = a)) as [->|Hb]; [lia|]. rewrite Hwn in Hv by assumption. pose proof (V9 _ _ Hv). subst a. lia.
    - (* upgrade *)
      exists s. cbn [exec1]. destruct Hs as [x Hx].
      pose proof (written_alive _ _ _ _ (vi_shows _ _ HV) (vi_seen _ _ HV _ _ _ Hx)) as Ha.
      rewrite bool_decide_eq_true_2 by assumption. split; [reflexivity|]. split; [assumption|]. cbn [learns]. split; [set_solver|reflexivity].
    - exists s. cbn [exec1]. rewrite bool_decide_eq_false_2.
      2:{ intros [n Hn]. apply Sh1 in Hn as (y & _ & Hy). rewrite Hw, lookup_empty in Hy. discriminate. }
      split; [reflexivity|]. split; [assumption|]. cbn [learns]. split; [set_solver|reflexivity].
    - destruct Hnames as [H1|H1]; [apply elem_of_dom in H1; rewrite Hs in H1; destruct H1; discriminate|].
      apply map_choose in Hw as (y & n & Hy). pose proof (written_alive _ _ _ _ (vi_shows _ _ HV) (ex_intro _ _ Hy)) as Ha.
      rewrite (HD a H1) in Ha. destruct Ha. discriminate.
    - cbn [exec1]. auto.
  Qed.

  (** ... and the other way round *)
  Lemma vstep1_has {A} t (p : prog T A) m s :
    vmem m s ->
    match p with
    | Lock a _ => a ∈ dom (seen m t)
    | Upgrade a _ => a ∈ dom (seen m t) \/ D a
    | _ => True
    end ->
    (forall w, D w -> heap s !! w = None) ->
    match exec1 t p s with
    | RStep p' s' => exists m', vstep1 t p m (Moves p' m')
    | RPanic msg s' => exists m', vstep1 t p m (Dies msg m')
    | _ => True
    end.
  Proof.
    intros HV Hn HD. pose proof (vi_shows _ _ HV) as [Sh1 Sh2 Sh3 Sh4].
    destruct p as [x|a k|a k|a k|a n k|n k|a k|msg|]; cbn [exec1]; try exact I.
    - destruct (heap s !! a); [|exact I]. destruct (locks s !! a) as [|] eqn:El; [exact I|]. rewrite Sh3 in El. apply elem_of_dom in Hn.
      destruct (decide _) as [Hp|Hp]; rewrite Sh4 in Hp.
      + eexists. apply v_lock_poisoned; assumption.
      + eexists. apply v_lock; assumption.
    - destruct (decide _) as [El|]; [|exact I]. rewrite Sh3 in El. eexists. apply v_unlock. assumption.
    - destruct (decide _) as [El|]; [|exact I]. destruct (heap s !! a) as [n|] eqn:Ea; [|exact I].
      destruct (vi_held_new _ _ HV _ _ El) as (y & Hy & Hny). apply Sh1 in Ea as (z & Hz & Hzn).
      pose proof (newest_fun _ _ _ _ Hny Hz) as ->. eexists. eapply v_get; [exact Hy|reflexivity|exact Hzn].
    - destruct (decide _) as [El|]; [|exact I]. destruct (vi_held_new _ _ HV _ _ El) as (y & Hy & Hny).
      eexists. eapply (v_put t a n k m y (S y)); [exact Hy|lia|].
      destruct (writes m a !! S y) eqn:E; [|reflexivity]. pose proof (proj2 Hny (S y) ltac:(eauto)). lia.
    - eexists. rewrite Sh2. apply v_new.
    - destruct (decide (writes m a = ∅)) as [E|E].
      + rewrite bool_decide_eq_false_2; [eexists; apply v_upgrade_gone; assumption|].
        intros [n Ha]. apply Sh1 in Ha as (y & _ & Hy). rewrite E, lookup_empty in Hy. discriminate.
      + apply map_choose in E as H0. destruct H0 as (y & n & Hy).
        pose proof (written_alive _ _ _ _ (vi_shows _ _ HV) (ex_intro _ _ Hy)) as Ha. rewrite bool_decide_eq_true_2 by assumption.
        destruct Hn as [Hn|Hn]; [|rewrite (HD a Hn) in Ha; destruct Ha; discriminate].
        eexists. apply v_upgrade_alive; [assumption|]. apply elem_of_dom. assumption.
    - eexists. apply v_panic.
  Qed.
End ViewMem.

Section ViewPool.
  Context {T : Type} (md : mode T) (h : gmap nat (node T)) (nx : nat) (pub0 : gmap nat bool).
  Hypothesis gua_refl : forall a n, gua md a n n.
  Hypothesis gua_trans : forall a n1 n2 n3, gua md a n1 n2 -> gua md a n2 n3 -> gua md a n1 n3.

  Record vpool {A} (Q : _ -> _ -> _ -> _ -> A -> Prop) (ths : list (thread T A)) (m : vm T) (s : sh T)
      (GP : gmap nat bool) (g : nat -> ghost) : Prop := {
    vp_pool : pool md h nx pub0 Q ths s GP g;
    vp_mem : vmem (dead md) h m s;
    vp_know : forall t p, ths !! t = Some (Running p) ->
      dom (g_pub (g t)) ⊆ (dom (seen m t) : gset nat) /\ dom (g_priv (g t)) ⊆ (dom (seen m t) : gset nat);
  }.
  Lemma vpool_facts {A} (Q : _ -> _ -> _ -> _ -> A -> Prop) ths m s GP g t p :
    vpool Q ths m s GP g -> ths !! t = Some (Running p) ->
    exec1 t p s <> RStuck /\ (forall w, dead md w -> heap s !! w = None) /\
    match p with
    | Lock a _ => a ∈ (dom (seen m t) : gset nat)
    | Upgrade a _ => a ∈ (dom (seen m t) : gset nat) \/ dead md a
    | Put _ n _ => forall c, c ∈ strong_refs n ++ weak_refs n -> c ∈ (dom (seen m t) : gset nat) \/ dead md c
    | New n _ => strong_refs n ++ weak_refs n = []
    | _ => True
    end.
  Proof.
    intros [HP HM HK] Ht. split; [eapply pool_not_stuck; eauto|]. split.
    - intros w Hw. apply (gc_dead _ _ _ _ _ _ (po_g _ _ _ _ _ _ _ _ _ HP) w Hw).
    - destruct (po_t _ _ _ _ _ _ _ _ _ HP t p Ht) as [Hs HT]. destruct (HK t p Ht) as [K1 K2].
      exact (names_sound md Q _ _ _ _ p Hs _ K1 K2 (tc_hp _ _ _ _ _ _ _ _ HT)).
  Qed.
  Lemma vpool_moves {A} (Q : _ -> _ -> _ -> _ -> A -> Prop) ths m s GP g t p p' m' :
    vpool Q ths m s GP g -> ths !! t = Some (Running p) -> vstep1 t p m (Moves p' m') ->
    exists s' GP' g', exec1 t p s = RStep p' s' /\ vpool Q (<[t := Running p']> ths) m' s' GP' g'.
  Proof.
    intros HV Ht Hst. destruct (vpool_facts Q ths m s GP g t p HV Ht) as (F1 & F2 & F3). destruct HV as [HP HM HK].
    destruct (vstep1_sim _ _ t p m s _ HM Hst F1 F2 F3) as (s' & E & HM' & Hd & Ho).
    destruct (po_t _ _ _ _ _ _ _ _ _ HP t p Ht) as [Hs HT]. destruct (HK t p Ht) as [K1 K2].
    pose proof (step_know md h nx pub0 gua_refl gua_trans t Q _ _ _ _ p Hs GP s (dom (seen m t)) (po_g _ _ _ _ _ _ _ _ _ HP) HT K1 K2) as Hstep.
    rewrite E in Hstep. destruct Hstep as (GP' & pub' & priv' & hp' & hv' & [N1 N2] & H1 & H2 & H3 & H4).
    { intros a n c. apply (vi_held _ _ _ _ HM). }
    exists s', GP', (fun u => if decide (u = t) then Ghost pub' priv' hp' hv' else g u). split; [exact E|]. split.
    - eapply pool_update; eauto.
    - assumption.
    - intros u q Hu. destruct (decide (u = t)) as [->|Hne]; cbn [g_pub g_priv]; [split; (etrans; [|exact Hd]); assumption|].
      rewrite list_lookup_insert_ne in Hu by congruence. rewrite Ho by assumption. eauto.
  Qed.
  Lemma vpool_dies {A} (Q : _ -> _ -> _ -> _ -> A -> Prop) ths m s GP g t p msg m' :
    vpool Q ths m s GP g -> ths !! t = Some (Running p) -> vstep1 t p m (Dies msg m') ->
    exec1 t p s = RPanic msg (unwind t s) /\ vpool Q (<[t := Dead msg]> ths) m' (unwind t s) GP g.
  Proof.
    intros HV Ht Hst. destruct (vpool_facts Q ths m s GP g t p HV Ht) as (F1 & F2 & F3). destruct HV as [HP HM HK].
    destruct (vstep1_sim _ _ t p m s _ HM Hst F1 F2 F3) as (E & HM' & Ho). split; [exact E|]. split.
    - eapply pool_panic; eauto.
    - assumption.
    - intros u q Hu. destruct (decide (u = t)) as [->|Hne].
      + rewrite list_lookup_insert in Hu by (eapply lookup_lt_Some; eauto). discriminate.
      + rewrite list_lookup_insert_ne in Hu by congruence. rewrite Ho. eauto.
  Qed.
  Lemma vpool_defined {A} (Q : _ -> _ -> _ -> _ -> A -> Prop) ths m s GP g :
    vpool Q ths m s GP g -> ~ undefined (ths, m).
  Proof.
    intros HV (t & p & Ht & Hst). destruct (vpool_facts Q ths m s GP g t p HV Ht) as (F1 & F2 & F3).
    exact (vstep1_sim _ _ t p m s _ (vp_mem _ _ _ _ _ _ HV) Hst F1 F2 F3).
  Qed.
  Lemma vpool_steps {A} (Q : _ -> _ -> _ -> _ -> A -> Prop) c c' :
    vsteps c c' -> forall s GP g, vpool Q c.1 c.2 s GP g ->
    exists s' GP' g', tsteps (c.1, s) (c'.1, s') /\ vpool Q c'.1 c'.2 s' GP' g'.
  Proof.
    induction 1 as [c|c c1 c2 Hs _ IH]; intros s GP g HV; [exists s, GP, g; split; [reflexivity|assumption]|].
    destruct Hs as [t ths m p p' m' Ht Hst|t ths m p msg m' Ht Hst]; cbn [fst snd] in *.
    - destruct (vpool_moves Q _ _ _ _ _ _ _ _ _ HV Ht Hst) as (s1 & GP1 & g1 & E & HV1).
      destruct (IH _ _ _ HV1) as (s2 & GP2 & g2 & Hts & HV2). exists s2, GP2, g2. split; [|assumption].
      eapply rtc_l; [|exact Hts]. eapply tstep_step; eauto.
    - destruct (vpool_dies Q _ _ _ _ _ _ _ _ _ HV Ht Hst) as (E & HV1).
      destruct (IH _ _ _ HV1) as (s2 & GP2 & g2 & Hts & HV2). exists s2, GP2, g2. split; [|assumption].
      eapply rtc_l; [|exact Hts]. eapply tstep_panic; eauto.
  Qed.
  Lemma vpool_tsteps {A} (Q : _ -> _ -> _ -> _ -> A -> Prop) c c' :
    tsteps c c' -> forall m GP g, vpool Q c.1 m c.2 GP g ->
    exists m' GP' g', vsteps (c.1, m) (c'.1, m') /\ vpool Q c'.1 m' c'.2 GP' g'.
  Proof.
    induction 1 as [c|c c1 c2 Hs _ IH]; intros m GP g HV; [exists m, GP, g; split; [reflexivity|assumption]|].
    destruct Hs as [t ths s p p' s' Ht Ee|t ths s p msg s' Ht Ee]; cbn [fst snd] in *;
      destruct (vpool_facts Q ths m s GP g t p HV Ht) as (F1 & F2 & F3);
      pose proof (vstep1_has (dead md) h t p m s (vp_mem _ _ _ _ _ _ HV) ltac:(destruct p; assumption || exact I) F2) as Hm; rewrite Ee in Hm;
      destruct Hm as [m1 Hm].
    - destruct (vpool_moves Q _ _ _ _ _ _ _ _ _ HV Ht Hm) as (s1 & GP1 & g1 & E & HV1). rewrite Ee in E. injection E as <-.
      destruct (IH _ _ _ HV1) as (m2 & GP2 & g2 & Hts & HV2). exists m2, GP2, g2. split; [|assumption].
      eapply rtc_l; [|exact Hts]. eapply vstep_moves; eauto.
    - destruct (vpool_dies Q _ _ _ _ _ _ _ _ _ HV Ht Hm) as (E & HV1). rewrite Ee in E. injection E as ->.
      destruct (IH _ _ _ HV1) as (m2 & GP2 & g2 & Hts & HV2). exists m2, GP2, g2. split; [|assumption].
      eapply rtc_l; [|exact Hts]. eapply vstep_dies; eauto.
  Qed.

  Lemma vmem_start po :
    started md h nx pub0 -> (forall a, shared pub0 a <-> is_Some (h !! a)) -> vmem (dead md) h (vstart h nx po) (Sh h nx ∅ po).
  Proof.
    intros [S1 S2 S3] Hp.
    assert (Hw : forall a y n, writes (vstart h nx po) a !! y = Some n <-> h !! a = Some n /\ y = 0).
    { intros a y n. cbn [vstart writes]. destruct (h !! a) as [na|].
      - rewrite lookup_singleton_Some. naive_solver.
      - rewrite lookup_empty. naive_solver. }
    assert (Hn : forall a, is_Some (h !! a) -> newest (vstart h nx po) a 0).
    { intros a [n Ha]. split; [exists n; apply Hw; auto|]. intros z [nz Hz]. apply Hw in Hz as [_ ->]. lia. }
    split; cbn [vstart vnxt vlocks vpoison seen handed heap locks poison nxt].
    - split; cbn [vstart vnxt vlocks vpoison seen handed heap locks poison nxt]; try reflexivity.
      intros a n. split.
      + intros Ha. exists 0. split; [apply Hn; eauto|apply Hw; auto].
      + intros (y & _ & Hy). apply Hw in Hy as [Hy _]. exact Hy.
    - intros t a Ha. rewrite dom_fmap. apply elem_of_dom. assumption.
    - intros a t n c Hl. rewrite lookup_empty in Hl. discriminate.
    - intros a t Hl. rewrite lookup_empty in Hl. discriminate.
    - intros a n c _ Ha Hc. right. destruct (S1 a) as (n' & Hn' & Hok); [apply Hp; eauto|]. assert (n' = n) as -> by congruence.
      assert (Hr : forall o w, ref_ok md pub0 o -> o = Some w -> dead md w \/ is_Some (h !! w)).
      { intros o w Ho ->. destruct Ho as [Ho|Ho]; [right; apply Hp|left]; assumption. }
      apply elem_of_app in Hc as [Hc|Hc].
      + right. apply Hp. apply elem_of_app in Hc as [Hc|Hc];
          [apply (ok_children _ _ _ _ Hok)|apply (ok_mimic_children _ _ _ _ Hok)]; assumption.
      + unfold weak_refs in Hc. apply elem_of_app in Hc as [Hc|Hc].
        * destruct (n_parent n) as [w'|] eqn:E; [|apply elem_of_nil in Hc; contradiction].
          apply elem_of_list_singleton in Hc as ->. exact (Hr _ _ (ok_parent _ _ _ _ Hok) E).
        * destruct (n_mimic_parent n) as [w'|] eqn:E; [|apply elem_of_nil in Hc; contradiction].
          apply elem_of_list_singleton in Hc as ->. exact (Hr _ _ (ok_mimic_parent _ _ _ _ Hok) E).
    - intros a Ha _. right. auto.
    - intros t a y Hy. rewrite lookup_fmap in Hy. destruct (h !! a) as [n|] eqn:E; [|discriminate]. injection Hy as <-.
      exists n. apply Hw. auto.
    - intros b a y Hy. rewrite lookup_empty in Hy. discriminate.
    - intros a y [n Hy]. apply Hw in Hy as [Hy _]. eauto.
  Qed.
End ViewPool.

Section ViewApi.
  Context {T : Type} `{Sc : Scalar T}.
  Lemma clients_vpool {A} h nx po (cls : list (client T A)) :
    heap_ok h nx -> (forall cl, cl ∈ cls -> obeys any_call (fun _ => []) (alive h) cl) ->
    vpool (types_mode h nx) h nx (everything h)
      (fun pub' priv hp hv _ => everything h ⊆ pub' /\ priv = ∅ /\ hp = ∅ /\ hv = ∅ /\ True)
      (spawn cls) (vstart h nx po) (Sh h nx ∅ po) (everything h) (fun _ => Ghost (everything h) ∅ ∅ ∅).
  Proof.
    intros Hok Ho. assert (Hst : started (types_mode h nx) h nx (everything h)) by exact (lax_started h nx _ _ _ Hok (fun _ _ _ => I)).
    split.
    - split.
      + apply started_gcons; [exact (fun _ => keeps_refl)|exact Hst].
      + intros t p Ht. cbn. unfold spawn in Ht. rewrite list_lookup_fmap in Ht. destruct (cls !! t) as [cl|] eqn:E; [|discriminate].
        injection Ht as <-. split; [|apply (started_tcons (types_mode h nx)); [exact (fun _ => keeps_refl)|exact (fun _ => keeps_trans)]].
        eapply safe_mono; [|apply (client_tri (types_mode h nx) any_call (fun _ => []) (fun R k _ => types_permitted h nx R k) cl (alive h) (everything h));
          [apply Ho; eapply elem_of_list_lookup_2; eauto|intros a Ha; apply everything_shared; exact Ha]].
        cbn. intros. naive_solver.
      + cbn. intros t u p q _ _ _ a [n Hn]. rewrite lookup_empty in Hn. discriminate.
      + cbn. intros a t Ht. rewrite lookup_empty in Ht. discriminate.
    - apply (vmem_start (types_mode h nx) h nx (everything h) po); [exact Hst|apply everything_shared].
    - intros t p _. cbn [g_pub g_priv vstart seen]. unfold everything. rewrite !dom_fmap_L. set_solver.
  Qed.
  Theorem clients_views {A} h nx po (cls : list (client T A)) c :
    heap_ok h nx -> (forall cl, cl ∈ cls -> obeys any_call (fun _ => []) (alive h) cl) ->
    vsteps (spawn cls, vstart h nx po) c ->
    ~ undefined c /\ exists s, tsteps (spawn cls, Sh h nx ∅ po) (c.1, s) /\ shows c.2 s.
  Proof.
    intros Hok Ho Hst.
    destruct (vpool_steps (types_mode h nx) h nx (everything h) (fun _ => keeps_refl) (fun _ => keeps_trans) _ _ _ Hst _ _ _
      (clients_vpool h nx po cls Hok Ho)) as (s & GP & g & Hts & HV). destruct c as [ths m].
    split; [exact (vpool_defined (types_mode h nx) _ _ _ (fun _ => keeps_refl) (fun _ => keeps_trans) _ _ _ _ _ _ HV)|].
    exists s. split; [exact Hts|exact (vi_shows _ _ _ _ (vp_mem _ _ _ _ _ _ _ _ _ _ HV))].
  Qed.
  Theorem clients_views_all {A} h nx po (cls : list (client T A)) ths s :
    heap_ok h nx -> (forall cl, cl ∈ cls -> obeys any_call (fun _ => []) (alive h) cl) ->
    tsteps (spawn cls, Sh h nx ∅ po) (ths, s) -> exists m, vsteps (spawn cls, vstart h nx po) (ths, m) /\ shows m s.
  Proof.
    intros Hok Ho Hst.
    destruct (vpool_tsteps (types_mode h nx) h nx (everything h) (fun _ => keeps_refl) (fun _ => keeps_trans) _ _ _ Hst _ _ _
      (clients_vpool h nx po cls Hok Ho)) as (m & GP & g & Hts & HV).
    exists m. split; [exact Hts|exact (vi_shows _ _ _ _ (vp_mem _ _ _ _ _ _ _ _ _ _ HV))].
  Qed.
  (** who is about to read a node sees the newest write, and only that *)
  Theorem clients_views_newest {A} h nx po (cls : list (client T A)) c t a k :
    heap_ok h nx -> (forall cl, cl ∈ cls -> obeys any_call (fun _ => []) (alive h) cl) ->
    vsteps (spawn cls, vstart h nx po) c -> c.1 !! t = Some (Running (Get a k)) ->
    exists x, seen c.2 t !! a = Some x /\ newest c.2 a x.
  Proof.
    intros Hok Ho Hst Ht.
    destruct (vpool_steps (types_mode h nx) h nx (everything h) (fun _ => keeps_refl) (fun _ => keeps_trans) _ _ _ Hst _ _ _
      (clients_vpool h nx po cls Hok Ho)) as (s & GP & g & Hts & HV).
    destruct (vpool_facts (types_mode h nx) _ _ _ (fun _ => keeps_refl) (fun _ => keeps_trans) _ _ _ _ _ _ _ _ HV Ht) as (F1 & _ & _). cbn in F1.
    destruct (decide (locks s !! a = Some t)) as [El|]; [|congruence].
    exact (vi_held_new _ _ _ _ (vp_mem _ _ _ _ _ _ _ _ _ _ HV) a t El).
  Qed.
End ViewApi.
