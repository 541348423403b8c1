(** * Calls on a single node are atomic: proofs *)
From Coq Require Import String.
From stdpp Require Import gmap.
From Verif Require Import Scalar Geometry Joint Link Prog NodeM ChainM FuncsM IkM Api SpecHist SpecAtomic.

Section Atomic.
  Context {T : Type} `{Sc : Scalar T} {A : Type}.
  Implicit Types (h : gmap nat (node T)) (s : sh T) (cl : client T A).
  (** the heap at the beginning *)
  Variables (h0 : gmap nat (node T)) (nx0 : nat).
  Hypothesis Hok : heap_ok h0 nx0.

  Definition live0 (w : nat) : bool := bool_decide (is_Some (h0 !! w)).
  (** what the rest [q] of a critical section on [a] does to its contents, and what it returns *)
  Fixpoint finish {R} (a : nat) (n : node T) (q : prog T R) : option (node T * R) :=
    match q with
    | Unlock b (Ret r) => if decide (b = a) then Some (n, r) else None
    | Get b k => if decide (b = a) then finish a n (k n) else None
    | Put b n' k => if decide (b = a) then finish a n' k else None
    | Upgrade w k => if decide (w < nx0) then finish a n (k (live0 w)) else None
    | _ => None
    end.
  (** the fields one-node calls do not change *)
  Definition same_links (n n' : node T) : Prop :=
    n_parent n' = n_parent n /\ n_children n' = n_children n /\
    n_mimic_parent n' = n_mimic_parent n /\ n_mimic_children n' = n_mimic_children n.
  Definition good_node (a : nat) (n : node T) : Prop :=
    match h0 !! a with
    | Some n0 => same_links n0 n
    | None => n_parent n = None /\ n_children n = [] /\ n_mimic_parent n = None /\ n_mimic_children n = []
    end.
  Definition good_heap h nx : Prop :=
    nx0 <= nx /\ (forall a, is_Some (h0 !! a) -> is_Some (h !! a)) /\
    (forall a, is_Some (h !! a) -> a < nx /\ (a < nx0 -> is_Some (h0 !! a))) /\
    forall a n, h !! a = Some n -> good_node a n.

  Lemma good_node_put a n n' : good_node a n -> same_links n n' -> good_node a n'.
  Proof.
    unfold good_node, same_links. destruct (h0 !! a); intros (? & ? & ? & ?) (? & ? & ? & ?); repeat split; congruence.
  Qed.
  Lemma good_put h nx a n n' : good_heap h nx -> h !! a = Some n -> same_links n n' -> good_heap (<[a := n']> h) nx.
  Proof.
    intros (Hx & H1 & H2 & H3) Ha Hs. split; [exact Hx|]. split; [|split].
    - intros b Hb. destruct (decide (a = b)) as [<-|Hn]; [rewrite lookup_insert; eauto|rewrite lookup_insert_ne by done; auto].
    - intros b Hb. apply H2. destruct (decide (a = b)) as [<-|Hn]; [rewrite Ha; eauto|rewrite lookup_insert_ne in Hb by done; auto].
    - intros b m Hb. destruct (decide (a = b)) as [<-|Hn].
      + rewrite lookup_insert in Hb. injection Hb as <-. eapply good_node_put; [apply H3; exact Ha|exact Hs].
      + rewrite lookup_insert_ne in Hb by done. apply H3. exact Hb.
  Qed.
  Lemma good_live h nx w : good_heap h nx -> w < nx0 -> bool_decide (is_Some (h !! w)) = live0 w.
  Proof.
    intros (Hx & H1 & H2 & H3) Hw. unfold live0. apply bool_decide_ext. split; [|apply H1].
    intros Hs. apply H2; assumption.
  Qed.
  Lemma good_init : good_heap h0 nx0.
  Proof.
    split; [lia|]. split; [auto|]. split.
    - intros a Ha. split; [apply (hk_bound _ _ Hok a Ha)|auto].
    - intros a n Ha. unfold good_node. rewrite Ha. repeat split.
  Qed.
  Lemma good_new h nx j : good_heap h nx -> good_heap (<[nx := fresh_node j]> h) (S nx).
  Proof.
    intros (Hx & H1 & H2 & H3). split; [lia|]. split; [|split].
    - intros b Hb. destruct (decide (nx = b)) as [<-|Hn]; [rewrite lookup_insert; eauto|rewrite lookup_insert_ne by done; auto].
    - intros b Hb. destruct (decide (nx = b)) as [<-|Hn]; [split; [lia|intros; lia]|].
      rewrite lookup_insert_ne in Hb by done. destruct (H2 b Hb). split; [lia|auto].
    - intros b m Hb. destruct (decide (nx = b)) as [<-|Hn].
      + rewrite lookup_insert in Hb. injection Hb as <-. unfold good_node.
        destruct (h0 !! nx) eqn:E; [|repeat split].
        assert (nx < nx0) by (apply (hk_bound _ _ Hok); eauto). lia.
      + rewrite lookup_insert_ne in Hb by done. apply H3. exact Hb.
  Qed.

  (** ** The shape of the one-node calls *)
  Definition handles_ok h (l : list nat) : Prop := forall b, b ∈ l -> is_Some (h !! b).
  Definition sect {R} (k : api T R) : Prop :=
    exists a kk, In a (args k) /\ interp k = Lock a (Get a kk) /\
      forall n, good_node a n -> (one_node_call h0 R k) ->
        exists n' r, finish a n (kk n) = Some (n', r) /\ same_links n n' /\
          forall b, b ∈ rets k r -> is_Some (h0 !! b).

  Lemma good_parent a n w : good_node a n -> n_parent n = Some w -> w < nx0.
  Proof.
    unfold good_node. destruct (h0 !! a) as [n0|] eqn:E.
    - intros (Hp & _) Hn. rewrite Hp in Hn. eapply (hk_parent _ _ Hok); eauto.
    - intros (Hp & _) Hn. congruence.
  Qed.
  Lemma good_mimic_parent a n w : good_node a n -> n_mimic_parent n = Some w -> w < nx0.
  Proof.
    unfold good_node. destruct (h0 !! a) as [n0|] eqn:E.
    - intros (_ & _ & Hp & _) Hn. rewrite Hp in Hn. eapply (hk_mimic_parent _ _ Hok); eauto.
    - intros (_ & _ & Hp & _) Hn. congruence.
  Qed.
  Lemma good_children a n b : good_node a n -> b ∈ n_children n -> is_Some (h0 !! b).
  Proof.
    unfold good_node. destruct (h0 !! a) as [n0|] eqn:E.
    - intros (_ & Hp & _) Hn. rewrite Hp in Hn. eapply (hk_children _ _ Hok); eauto.
    - intros (_ & Hp & _) Hn. rewrite Hp in Hn. set_solver.
  Qed.
  Lemma no_mimic_children a n : good_node a n -> (forall n, h0 !! a = Some n -> n_mimic_children n = []) -> n_mimic_children n = [].
  Proof.
    unfold good_node. destruct (h0 !! a) as [n0|] eqn:E.
    - intros (_ & _ & _ & Hp) Hm. rewrite Hp. apply Hm. reflexivity.
    - intros (_ & _ & _ & Hp) _. exact Hp.
  Qed.

  Definition allocates {R} (k : api T R) : Prop :=
    exists j (g : nat -> R), interp k = New (fresh_node j) (fun a => Ret (g a)) /\
      forall a b, b ∈ rets k (g a) -> b = a.
  Lemma one_node_sect {R} (k : api T R) : one_node_call h0 R k -> allocates k \/ sect k.
  Proof.
    assert (Hr : forall {R'} (k : api T R') a (F : node T -> R'),
      interp k = read a F -> In a (args k) -> (forall n b, good_node a n -> b ∈ rets k (F n) -> is_Some (h0 !! b)) -> sect k).
    { intros R' k' a F E Ha Hb. exists a. eexists. split; [exact Ha|]. split; [exact E|].
      intros n Hg _. cbn. destruct (decide _); [|congruence]. do 2 eexists. split; [reflexivity|].
      split; [repeat split|]. intros b. apply Hb. exact Hg. }
    assert (Hm : forall (k : api T unit) a (F : node T -> node T),
      interp k = modify a F -> In a (args k) -> (forall n, same_links n (F n)) -> (forall b, b ∈ rets k tt -> False) -> sect k).
    { intros k' a F E Ha HF Hb. exists a. eexists. split; [exact Ha|]. split; [exact E|].
      intros n Hg _. cbn. destruct (decide _); [|congruence]. do 2 eexists. split; [reflexivity|].
      split; [apply HF|]. intros b Hbb. destruct (Hb b Hbb). }
    destruct k; cbn; intros Hk; try contradiction;
      try (left; eexists _, (fun a => a); split; [reflexivity|cbn; set_solver]); right;
      try (eapply Hr; [reflexivity|left; reflexivity|cbn; intros n b Hg Hb; set_solver]);
      try (eapply Hm; [reflexivity|left; reflexivity|intros n; repeat split|cbn; set_solver]).
    - (* parent *)
      exists a. eexists. split; [left; reflexivity|]. split; [reflexivity|].
      intros n Hg _. cbn. destruct (n_parent n) as [w|] eqn:Ep; cbn.
      + rewrite decide_True by (eapply good_parent; eauto). cbn. rewrite decide_True by reflexivity.
        do 2 eexists. split; [reflexivity|]. split; [repeat split|]. unfold live0.
        destruct (bool_decide _) eqn:E; cbn; [apply bool_decide_eq_true in E|]; set_solver.
      + rewrite decide_True by reflexivity. do 2 eexists. split; [reflexivity|]. split; [repeat split|]. set_solver.
    - (* children *)
      eapply Hr; [reflexivity|left; reflexivity|cbn; intros n b Hg Hb]. eapply good_children; eauto.
    - (* set_joint_position *)
      exists a. eexists. split; [left; reflexivity|]. split; [reflexivity|].
      intros n Hg _. cbn. destruct (n_mimic_parent n) as [w|] eqn:Ep; cbn.
      + rewrite decide_True by reflexivity. do 2 eexists. split; [reflexivity|]. split; [repeat split|]. set_solver.
      + rewrite decide_True by reflexivity. destruct (joint_set (n_joint n) p) as [j' [u|e]]; cbn.
        * rewrite (no_mimic_children a n Hg Hk). cbn. rewrite decide_True by reflexivity.
          do 2 eexists. split; [reflexivity|]. split; [repeat split|]. set_solver.
        * rewrite decide_True by reflexivity. do 2 eexists. split; [reflexivity|]. split; [repeat split|]. set_solver.
    - (* mimic_parent *)
      exists a. eexists. split; [left; reflexivity|]. split; [reflexivity|].
      intros n Hg _. cbn. destruct (n_mimic_parent n) as [w|] eqn:Ep; cbn.
      + rewrite decide_True by (eapply good_mimic_parent; eauto). cbn. rewrite decide_True by reflexivity.
        do 2 eexists. split; [reflexivity|]. split; [repeat split|]. unfold live0.
        destruct (bool_decide _) eqn:E; cbn; [apply bool_decide_eq_true in E|]; set_solver.
      + rewrite decide_True by reflexivity. do 2 eexists. split; [reflexivity|]. split; [repeat split|]. set_solver.
  Qed.

  (** running the rest of a section alone *)
  Lemma run_finish {R} t a (q : prog T R) : forall n n' r h nx L,
    finish a n q = Some (n', r) -> (forall w, w < nx0 -> bool_decide (is_Some (h !! w)) = live0 w) ->
    h !! a = Some n -> L !! a = Some t ->
    run t q (Sh h nx L ∅) = Done r (Sh (<[a := n']> h) nx (delete a L) ∅).
  Proof.
    induction q as [x|b k IH|b k IH|b k IH|b m k IH|m k IH|w k IH|m|]; cbn; intros n n' r h nx L Hf Hd Hh Hl; try discriminate.
    - destruct k; try discriminate. destruct (decide (b = a)) as [->|]; [|discriminate]. injection Hf as <- <-.
      rewrite decide_True by exact Hl. cbn. unfold set_locks. cbn. rewrite insert_id by exact Hh. reflexivity.
    - destruct (decide (b = a)) as [->|]; [|discriminate]. rewrite decide_True by exact Hl. rewrite Hh. eapply IH; eauto.
    - destruct (decide (b = a)) as [->|]; [|discriminate]. rewrite decide_True by exact Hl.
      unfold set_heap. cbn. erewrite IH; [rewrite insert_insert; reflexivity|exact Hf| |apply lookup_insert|exact Hl].
      intros w Hw. rewrite <- (Hd w Hw). apply bool_decide_ext. destruct (decide (a = w)) as [<-|Hn].
      + rewrite lookup_insert, Hh. split; eauto.
      + rewrite lookup_insert_ne by done. reflexivity.
    - destruct (decide (w < nx0)) as [Hw|]; [|discriminate]. rewrite (Hd w Hw). eapply IH; eauto.
  Qed.

  (** ** The invariant *)
  Definition idle (t : nat) (st : standing T A) cl s : Prop :=
    st = Between cl /\ forall a, locks s !! a <> Some t.
  Definition inside_call (t : nat) (st : standing T A) cl s h : Prop :=
    exists (R : Type) (q : prog T R) (next : R -> client T A) r a n n',
      st = Within q next /\ cl = next r /\
      locks s !! a = Some t /\ (forall b, locks s !! b = Some t -> b = a) /\
      heap s !! a = Some n /\ finish a n q = Some (n', r) /\ good_node a n' /\ h !! a = Some n'.
  Definition knows s cl : Prop :=
    exists K : nat -> Prop, obeys (one_node_call h0) (fun _ => []) K cl /\ forall a, K a -> is_Some (heap s !! a).
  Definition tinv (t : nat) (st : standing T A) cl s h : Prop :=
    (idle t st cl s \/ inside_call t st cl s h) /\ knows s cl.
  Record inv (P : list (standing T A)) s (c : calm T A) : Prop := {
    i_len : length P = length (c_clients c);
    i_thr : forall t st, P !! t = Some st -> exists cl, c_clients c !! t = Some cl /\ tinv t st cl s (c_heap c);
    i_owner : forall a t, locks s !! a = Some t -> t < length P;
    i_free : forall a, locks s !! a = None -> c_heap c !! a = heap s !! a;
    i_dom : forall a, is_Some (c_heap c !! a) <-> is_Some (heap s !! a);
    i_next : c_next c = nxt s;
    i_poison : poison s = ∅;
    i_dead : forall w, w < nx0 -> bool_decide (is_Some (heap s !! w)) = live0 w;
    i_bound : forall a, is_Some (heap s !! a) -> a < nxt s;
    i_nx : nx0 <= nxt s;
    i_good : forall a n, c_heap c !! a = Some n -> good_node a n;
  }.

  Lemma inv_init (cls : list (client T A)) :
    (forall cl, cl ∈ cls -> obeys (one_node_call h0) (fun _ => []) (alive h0) cl) ->
    inv (map Between cls) (quiet h0 nx0) (Calm cls h0 nx0).
  Proof.
    intros Ho. split; cbn; auto.
    - rewrite map_length. reflexivity.
    - intros t st Ht. change (map ?f cls) with (f <$> cls) in Ht. rewrite list_lookup_fmap in Ht.
      destruct (cls !! t) as [cl|] eqn:E; [|discriminate]. injection Ht as <-. exists cl. split; [reflexivity|].
      split; [left; split; [reflexivity|intros a; cbn; rewrite lookup_empty; discriminate]|].
      exists (alive h0). split; [apply Ho; eapply elem_of_list_lookup_2; eauto|auto].
    - intros a t. rewrite lookup_empty. discriminate.
    - intros a. apply (hk_bound _ _ Hok).
    - intros a n Ha. unfold good_node. rewrite Ha. repeat split.
  Qed.

  (** other threads do not notice *)
  Lemma tinv_frame t st cl s h s' h' a0 :
    tinv t st cl s h ->
    (forall a, a <> a0 -> locks s' !! a = Some t <-> locks s !! a = Some t) ->
    locks s !! a0 <> Some t -> locks s' !! a0 <> Some t ->
    (forall a, is_Some (heap s !! a) -> a <> a0 -> heap s' !! a = heap s !! a) ->
    (forall a, is_Some (heap s !! a) -> is_Some (heap s' !! a)) ->
    (forall a, is_Some (heap s !! a) -> a <> a0 -> h' !! a = h !! a) ->
    tinv t st cl s' h'.
  Proof.
    intros (Hp & K & Hob & HK) Hl Hn Hn' Hh Hd Hh'. split.
    2:{ exists K. split; [exact Hob|]. intros a Ha. apply Hd, HK, Ha. }
    destruct Hp as [[-> Hi]|(R & q & next & r & a & n & n' & -> & -> & Hla & Hu & Hna & Hf & Hg & Hha)].
    - left. split; [reflexivity|]. intros a. destruct (decide (a = a0)) as [->|Hne]; [exact Hn'|].
      rewrite Hl by exact Hne. apply Hi.
    - right. assert (Hne : a <> a0) by (intros ->; contradiction). exists R, q, next, r, a, n, n'.
      assert (Hs : is_Some (heap s !! a)) by eauto.
      split; [reflexivity|]. split; [reflexivity|]. split; [apply Hl; assumption|].
      split; [intros b Hb; destruct (decide (b = a0)) as [->|Hnb]; [contradiction|]; apply Hu; apply Hl; assumption|].
      split; [rewrite Hh; assumption|]. split; [exact Hf|]. split; [exact Hg|]. rewrite Hh'; assumption.
  Qed.
  Lemma knows_next {R} s s' (k : api T R) next r :
    knows s (Call k next) -> (forall a, is_Some (heap s !! a) -> is_Some (heap s' !! a)) ->
    (forall b, b ∈ rets k r -> is_Some (heap s' !! b)) -> knows s' (next r).
  Proof.
    intros (K & (_ & _ & Ho) & HK) Hd Hr. exists (fun a => K a \/ a ∈ rets k r). split; [apply Ho|].
    intros a [Ha|Ha]; auto.
  Qed.

  (** a step of a thread is no call, or one call *)
  Lemma inv_step P s c ths' s' :
    inv P s c -> tstep (map thread_of P, s) (ths', s') ->
    exists P' order c', ths' = map thread_of P' /\ cstep (P, s) (P', s') /\ serial order c = Some c' /\ inv P' s' c'.
  Proof.
    intros Hinv Hst.
    assert (Hthr : forall t st, P !! t = Some st -> exists cl, c_clients c !! t = Some cl /\ tinv t st cl s (c_heap c)) by apply Hinv.
    assert (Hcase : exists t st p, P !! t = Some st /\ thread_of st = Running p /\
      ((exists p', exec1 t p s = RStep p' s' /\ ths' = <[t := Running p']> (map thread_of P)) \/
       (exists m, exec1 t p s = RPanic m s' /\ ths' = <[t := Dead m]> (map thread_of P)))).
    { change (map thread_of P) with (thread_of <$> P) in Hst. inversion Hst; subst;
        match goal with H : (_ <$> _) !! _ = Some _ |- _ => rewrite list_lookup_fmap in H; destruct (P !! t) as [st|] eqn:E; [|discriminate]; cbn in H; injection H as H end;
        exists t, st, p; eauto 10. }
    clear Hst. destruct Hcase as (t & st & p & Ht & Hst & Hex).
    destruct (Hthr t _ Ht) as (cl & Hcl & Hp & Hkn).
    assert (Htl : t < length P) by (apply lookup_lt_Some in Ht; exact Ht).
    assert (Hcl' : t < length (c_clients c)) by (rewrite <- (i_len _ _ _ Hinv); exact Htl).
    assert (Hmap : forall st, <[t := thread_of st]> (map thread_of P) = map thread_of (<[t := st]> P)).
    { intros st'. change (map thread_of ?l) with (thread_of <$> l). rewrite list_fmap_insert. reflexivity. }
    destruct Hp as [[-> Hnone]|(R & q & next & r & a & n & n' & -> & -> & Hla & Hu & Hna & Hf & Hg & Hha)].
    - cbn in Hst. injection Hst as <-. destruct cl as [x|R k next]; cbn [denote] in Hex.
      { destruct Hex as [(p' & E & _)|(m & E & _)]; discriminate. }
      assert (Hkn0 := Hkn). destruct Hkn0 as (K & (Hk1 & Hka & Hko) & HK).
      destruct (one_node_sect k Hk1) as [(j & g & Ek & Hret)|(a & kk & Harg & Ek & Hsec)].
      + (* new node *)
        rewrite Ek in Hex. cbn in Hex. destruct Hex as [(p' & E & ->)|(m & E & _)]; [|discriminate].
        injection E as <- <-.
        set (c' := Calm (<[t := next (g (nxt s))]> (c_clients c)) (<[nxt s := fresh_node j]> (c_heap c)) (S (nxt s)) : calm T A).
        exists (<[t := Between (next (g (nxt s)))]> P), [t], c'.
        split; [rewrite <- Hmap; reflexivity|]. split.
        { change (Between (next (g (nxt s)))) with (settle (Ret (g (nxt s))) next). eapply cstep_begin; [exact Ht|]. rewrite Ek. reflexivity. }
        split.
        { cbn. unfold serial1. rewrite Hcl, Ek. cbn. rewrite (i_next _ _ _ Hinv). reflexivity. }
        assert (Hfresh : heap s !! nxt s = None).
        { destruct (heap s !! nxt s) eqn:E; [|reflexivity]. assert (nxt s < nxt s) by (apply (i_bound _ _ _ Hinv); eauto). lia. }
        assert (Hmono : forall a, is_Some (heap s !! a) -> is_Some (heap (alloc s (fresh_node j)) !! a)).
        { intros a Ha. cbn. destruct (decide (nxt s = a)) as [<-|Hn]; [rewrite lookup_insert; eauto|rewrite lookup_insert_ne by done; exact Ha]. }
        split; cbn.
        * rewrite !insert_length. apply Hinv.
        * intros u st Hu. destruct (decide (t = u)) as [<-|Hne].
          -- rewrite list_lookup_insert in Hu by exact Htl. injection Hu as <-.
             exists (next (g (nxt s))). split; [apply list_lookup_insert; exact Hcl'|].
             split; [left; split; [reflexivity|exact Hnone]|].
             eapply knows_next; [exact Hkn|exact Hmono|]. intros b Hb. rewrite (Hret _ _ Hb). cbn. rewrite lookup_insert. eauto.
          -- rewrite list_lookup_insert_ne in Hu by exact Hne. destruct (Hthr u st Hu) as (cl & Hc & Hti).
             exists cl. split; [rewrite list_lookup_insert_ne by exact Hne; exact Hc|].
             destruct Hti as (Hpp & K' & Hob & HK').
             split; [|exists K'; split; [exact Hob|]; intros a Ha; apply Hmono, HK', Ha].
             destruct Hpp as [Hi|(R' & q' & next' & r' & a' & m & m' & E1 & E2 & H1 & H2 & H3 & H4 & H5 & H6)]; [left; exact Hi|right].
             exists R', q', next', r', a', m, m'. repeat (split; [assumption|]).
             assert (nxt s <> a') by (intros <-; congruence).
             cbn. rewrite !lookup_insert_ne by done. auto.
        * intros a u Ha. rewrite insert_length. eapply (i_owner _ _ _ Hinv); eauto.
        * intros a Ha. destruct (decide (nxt s = a)) as [<-|Hn]; [rewrite !lookup_insert; reflexivity|].
          rewrite !lookup_insert_ne by done. apply (i_free _ _ _ Hinv). exact Ha.
        * intros a. destruct (decide (nxt s = a)) as [<-|Hn]; [rewrite !lookup_insert; split; eauto|].
          rewrite !lookup_insert_ne by done. apply (i_dom _ _ _ Hinv).
        * reflexivity.
        * apply Hinv.
        * intros w Hw. assert (Hx := i_nx _ _ _ Hinv). rewrite lookup_insert_ne by lia. apply (i_dead _ _ _ Hinv). exact Hw.
        * intros a Ha. destruct (decide (nxt s = a)) as [<-|Hn]; [lia|]. rewrite lookup_insert_ne in Ha by done.
          assert (a < nxt s) by (apply (i_bound _ _ _ Hinv); exact Ha). lia.
        * assert (Hx := i_nx _ _ _ Hinv). lia.
        * intros a n Ha. destruct (decide (nxt s = a)) as [<-|Hn].
          -- rewrite lookup_insert in Ha. injection Ha as <-. unfold good_node.
             destruct (h0 !! nxt s) eqn:E; [|repeat split].
             assert (nxt s < nx0) by (apply (hk_bound _ _ Hok); eauto). assert (Hx := i_nx _ _ _ Hinv). lia.
          -- rewrite lookup_insert_ne in Ha by done. eapply (i_good _ _ _ Hinv); eauto.
      + (* lock *)
        assert (Hex2 : exec1 t (interp k) s = match exec1 t (Lock a (Get a kk)) s with x => x end) by (rewrite Ek; reflexivity).
        rewrite Ek in Hex. cbn in Hex.
        assert (Ha : is_Some (heap s !! a)) by (apply HK, Hka, elem_of_list_In, Harg).
        destruct Ha as [n Hn]. rewrite Hn in Hex.
        destruct (locks s !! a) as [u|] eqn:Hl.
        { destruct Hex as [(p' & E & _)|(m & E & _)]; discriminate. }
        cbn in Hex2. rewrite Hn, Hl in Hex2.
        rewrite (i_poison _ _ _ Hinv) in Hex. rewrite decide_False in Hex by set_solver.
        rewrite (i_poison _ _ _ Hinv) in Hex2. rewrite decide_False in Hex2 by set_solver.
        destruct Hex as [(p' & E & ->)|(m & E & _)]; [|discriminate]. injection E as <- <-.
        assert (Hhn : c_heap c !! a = Some n) by (rewrite (i_free _ _ _ Hinv) by exact Hl; exact Hn).
        destruct (Hsec n (i_good _ _ _ Hinv _ _ Hhn) Hk1) as (n' & r & Hf & Hsl & Hr).
        assert (Hg' : good_node a n') by (eapply good_node_put; [apply (i_good _ _ _ Hinv _ _ Hhn)|exact Hsl]).
        set (s' := set_locks s (<[a := t]> (locks s))).
        set (c' := Calm (<[t := next r]> (c_clients c)) (<[a := n']> (c_heap c)) (c_next c) : calm T A).
        exists (<[t := Within (Get a kk) next]> P), [t], c'.
        split; [rewrite <- Hmap; reflexivity|]. split.
        { change (Within (Get a kk) next) with (settle (Get a kk) next). eapply cstep_begin; [exact Ht|exact Hex2]. }
        split.
        { cbn. unfold serial1. rewrite Hcl, Ek. cbn [run heap quiet]. rewrite Hhn. cbn [locks quiet poison]. rewrite lookup_empty.
          rewrite decide_False by set_solver. unfold set_locks. cbn [heap nxt locks poison quiet].
          cbn [run locks heap]. rewrite decide_True by (apply lookup_insert). rewrite Hhn.
          erewrite run_finish; [reflexivity|exact Hf| |exact Hhn|apply lookup_insert].
          intros w Hw. rewrite <- (i_dead _ _ _ Hinv w Hw). apply bool_decide_ext. apply (i_dom _ _ _ Hinv). }
        split; cbn.
        * rewrite !insert_length. apply Hinv.
        * intros u st Hu. destruct (decide (t = u)) as [<-|Hne].
          -- rewrite list_lookup_insert in Hu by exact Htl. injection Hu as <-.
             exists (next r). split; [apply list_lookup_insert; exact Hcl'|]. split.
             ++ right. exists R, (Get a kk), next, r, a, n, n'. split; [reflexivity|]. split; [reflexivity|].
                cbn. rewrite lookup_insert. split; [reflexivity|].
                split; [intros b Hb; destruct (decide (a = b)) as [->|Hnb]; [reflexivity|]; rewrite lookup_insert_ne in Hb by done; destruct (Hnone b Hb)|].
                split; [exact Hn|]. rewrite decide_True by reflexivity. split; [exact Hf|]. split; [exact Hg'|apply lookup_insert].
             ++ eapply knows_next; [exact Hkn|auto|]. intros b Hb. cbn. specialize (Hr b Hb). destruct Hr as [nb Hnb].
                assert (Hb0 : b < nx0) by (apply (hk_bound _ _ Hok); eauto).
                assert (Hd := i_dead _ _ _ Hinv b Hb0). unfold live0 in Hd. rewrite (bool_decide_true (is_Some (h0 !! b))) in Hd by eauto.
                apply bool_decide_eq_true in Hd. exact Hd.
          -- rewrite list_lookup_insert_ne in Hu by exact Hne. destruct (Hthr u st Hu) as (cl & Hc & Hti).
             exists cl. split; [rewrite list_lookup_insert_ne by exact Hne; exact Hc|].
             eapply (tinv_frame u st cl s (c_heap c) s' _ a); [exact Hti|..]; cbn.
             ++ intros b Hb. rewrite lookup_insert_ne by done. reflexivity.
             ++ rewrite Hl. discriminate.
             ++ rewrite lookup_insert. congruence.
             ++ auto.
             ++ auto.
             ++ intros b _ Hb. rewrite lookup_insert_ne by done. reflexivity.
        * intros b u Hb. rewrite insert_length. destruct (decide (a = b)) as [<-|Hnb].
          -- rewrite lookup_insert in Hb. injection Hb as <-. exact Htl.
          -- rewrite lookup_insert_ne in Hb by done. eapply (i_owner _ _ _ Hinv); eauto.
        * intros b Hb. destruct (decide (a = b)) as [<-|Hnb]; [rewrite lookup_insert in Hb; discriminate|].
          rewrite lookup_insert_ne in Hb by done. rewrite lookup_insert_ne by done. apply (i_free _ _ _ Hinv). exact Hb.
        * intros b. destruct (decide (a = b)) as [<-|Hnb]; [rewrite lookup_insert, Hn; split; eauto|].
          rewrite lookup_insert_ne by done. apply (i_dom _ _ _ Hinv).
        * apply Hinv.
        * apply Hinv.
        * apply Hinv.
        * apply Hinv.
        * apply Hinv.
        * intros b m Hb. destruct (decide (a = b)) as [<-|Hnb].
          -- rewrite lookup_insert in Hb. injection Hb as <-. exact Hg'.
          -- rewrite lookup_insert_ne in Hb by done. eapply (i_good _ _ _ Hinv); eauto.
    - (* inside a call *)
      cbn in Hst. injection Hst as <-.
      assert (Hother : forall u st s1, u <> t -> P !! u = Some st ->
        (forall b, b <> a -> locks s1 !! b = locks s !! b) -> locks s1 !! a <> Some u ->
        (forall b, b <> a -> heap s1 !! b = heap s !! b) -> is_Some (heap s1 !! a) ->
        exists cl, c_clients c !! u = Some cl /\ tinv u st cl s1 (c_heap c)).
      { intros u st s1 Hne Hut H1 H2 H3 H4. destruct (Hthr u st Hut) as (cl & Hc & Hti). exists cl. split; [exact Hc|].
        eapply (tinv_frame u st cl s (c_heap c) s1 _ a); [exact Hti|..].
        - intros b Hb. rewrite H1 by exact Hb. reflexivity.
        - rewrite Hla. congruence.
        - exact H2.
        - intros b _ Hb. apply H3. exact Hb.
        - intros b Hb. destruct (decide (b = a)) as [->|Hnb]; [exact H4|rewrite H3 by exact Hnb; exact Hb].
        - auto. }
      assert (Hfin : forall s1 (q1 : prog T R) n1,
        nxt s1 = nxt s -> poison s1 = ∅ -> locks s1 = locks s -> (forall b, b <> a -> heap s1 !! b = heap s !! b) ->
        heap s1 !! a = Some n1 -> finish a n1 q1 = Some (n', r) -> exec1 t q s = RStep q1 s1 ->
        exists P' order c', <[t := Running (bind q1 (fun r => denote (next r)))]> (map thread_of P) = map thread_of P' /\
          cstep (P, s) (P', s1) /\ serial order c = Some c' /\ inv P' s1 c').
      { intros s1 q1 n1 E1 E2 E3 E4 E5 E6 E7.
        assert (Eset : settle q1 next = Within q1 next) by (destruct q1; [discriminate|reflexivity..]).
        exists (<[t := Within q1 next]> P), [], c. split; [rewrite <- Hmap; reflexivity|].
        split; [rewrite <- Eset; eapply cstep_continue; eauto|]. split; [reflexivity|].
        assert (Edom : forall b, is_Some (heap s1 !! b) <-> is_Some (heap s !! b)).
        { intros b. destruct (decide (b = a)) as [->|Hnb]; [rewrite E5, Hna; split; eauto|rewrite E4 by exact Hnb; reflexivity]. }
        split.
        - rewrite insert_length. apply Hinv.
        - intros u st Hut. destruct (decide (t = u)) as [<-|Hne].
          + rewrite list_lookup_insert in Hut by exact Htl. injection Hut as <-. exists (next r). split; [exact Hcl|].
            split.
            * right. exists R, q1, next, r, a, n1, n'. rewrite E3. repeat (split; [first [assumption|reflexivity]|]). assumption.
            * destruct Hkn as (K & Ho & HK). exists K. split; [exact Ho|]. intros b Hb. apply Edom, HK, Hb.
          + rewrite list_lookup_insert_ne in Hut by exact Hne.
            apply (Hother u st s1 (not_eq_sym Hne) Hut); rewrite ?E3, ?E5, ?Hla; eauto; congruence.
        - intros b u. rewrite E3, insert_length. apply (i_owner _ _ _ Hinv).
        - intros b. rewrite E3. intros Hb. rewrite E4 by congruence. apply (i_free _ _ _ Hinv). exact Hb.
        - intros b. rewrite Edom. apply (i_dom _ _ _ Hinv).
        - rewrite E1. apply Hinv.
        - exact E2.
        - intros w Hw. rewrite <- (i_dead _ _ _ Hinv w Hw). apply bool_decide_ext. apply Edom.
        - intros b. rewrite Edom, E1. apply (i_bound _ _ _ Hinv).
        - rewrite E1. apply Hinv.
        - apply Hinv. }
      destruct q as [x|b k|b k|b k|b m k|m k|w k|m|]; cbn in Hf; try discriminate.
      + (* unlock *)
        destruct k as [x|b' k'|b' k'|b' k'|b' m' k'|m' k'|w' k'|m'|]; try discriminate.
        destruct (decide (b = a)) as [->|]; [|discriminate]. injection Hf as <- <-.
        cbn in Hex. rewrite decide_True in Hex by exact Hla. destruct Hex as [(p' & E & ->)|(m & E & _)]; [|discriminate].
        injection E as <- <-. exists (<[t := Between (next x)]> P), [], c. split; [rewrite <- Hmap; reflexivity|].
        split.
        { change (Between (next x)) with (settle (Ret x) next). eapply cstep_continue; [exact Ht|]. cbn. rewrite decide_True by exact Hla. reflexivity. }
        split; [reflexivity|]. split; cbn.
        * rewrite insert_length. apply Hinv.
        * intros u st Hut. destruct (decide (t = u)) as [<-|Hne].
          -- rewrite list_lookup_insert in Hut by exact Htl. injection Hut as <-. exists (next x). split; [exact Hcl|].
             split.
             ++ left. split; [reflexivity|]. intros b Hb. cbn in Hb. destruct (decide (a = b)) as [<-|Hnb].
                ** rewrite lookup_delete in Hb. discriminate.
                ** rewrite lookup_delete_ne in Hb by done. apply Hnb. symmetry. apply Hu. exact Hb.
             ++ destruct Hkn as (K & Ho & HK). exists K. split; [exact Ho|]. exact HK.
          -- rewrite list_lookup_insert_ne in Hut by exact Hne.
             apply (Hother u st _ (not_eq_sym Hne) Hut); cbn; rewrite ?lookup_delete; eauto; try congruence.
             intros b Hb. apply lookup_delete_ne. congruence.
        * intros b u Hb. rewrite insert_length. destruct (decide (a = b)) as [<-|Hnb]; [rewrite lookup_delete in Hb; discriminate|].
          rewrite lookup_delete_ne in Hb by done. eapply (i_owner _ _ _ Hinv); eauto.
        * intros b Hb. destruct (decide (a = b)) as [<-|Hnb]; [rewrite Hna; exact Hha|].
          rewrite lookup_delete_ne in Hb by done. apply (i_free _ _ _ Hinv). exact Hb.
        * apply Hinv.
        * apply Hinv.
        * apply Hinv.
        * apply Hinv.
        * apply Hinv.
        * apply Hinv.
        * apply Hinv.
      + (* get *)
        destruct (decide (b = a)) as [->|]; [|discriminate]. cbn in Hex. rewrite decide_True in Hex by exact Hla.
        rewrite Hna in Hex. destruct Hex as [(p' & E & ->)|(m & E & _)]; [|discriminate]. injection E as <- <-.
        apply (Hfin s (k n) n); auto; [apply Hinv|]. cbn. rewrite decide_True by exact Hla. rewrite Hna. reflexivity.
      + (* put *)
        destruct (decide (b = a)) as [->|]; [|discriminate]. cbn in Hex. rewrite decide_True in Hex by exact Hla.
        destruct Hex as [(p' & E & ->)|(m' & E & _)]; [|discriminate]. injection E as <- <-.
        apply (Hfin _ k m); auto; cbn.
        * apply Hinv.
        * intros b Hb. apply lookup_insert_ne. congruence.
        * apply lookup_insert.
        * rewrite decide_True by exact Hla. reflexivity.
      + (* upgrade *)
        destruct (decide (w < nx0)) as [Hw|]; [|discriminate]. cbn in Hex. rewrite (i_dead _ _ _ Hinv w Hw) in Hex.
        destruct Hex as [(p' & E & ->)|(m & E & _)]; [|discriminate]. injection E as <- <-.
        apply (Hfin s (k (live0 w)) n); auto; [apply Hinv|]. cbn. rewrite (i_dead _ _ _ Hinv w Hw). reflexivity.
  Qed.

  Lemma serial_app o1 o2 (c : calm T A) : serial (o1 ++ o2) c = match serial o1 c with Some c => serial o2 c | None => None end.
  Proof. revert c. induction o1 as [|t o1 IH]; intros c; cbn; [reflexivity|]. destruct (serial1 t c); [apply IH|reflexivity]. Qed.
  Lemma inv_steps cf cf' : tsteps cf cf' -> forall P c, cf.1 = map thread_of P -> inv P cf.2 c ->
    exists P' order c', cf'.1 = map thread_of P' /\ rtc cstep (P, cf.2) (P', cf'.2) /\ serial order c = Some c' /\ inv P' cf'.2 c'.
  Proof.
    induction 1 as [[ths s]|[ths s] [ths1 s1] cf2 Hst _ IH]; intros P c EP Hi; cbn in EP; subst.
    { exists P, [], c. split; [reflexivity|]. split; [apply rtc_refl|]. auto. }
    destruct (inv_step P s c ths1 s1 Hi Hst) as (P1 & o1 & c1 & -> & Hs1 & Ho1 & Hi1).
    destruct (IH P1 c1 eq_refl Hi1) as (P2 & o2 & c2 & E2 & Hs2 & Ho2 & Hi2). exists P2, (o1 ++ o2), c2. split; [exact E2|].
    split; [eapply rtc_l; eauto|]. split; [|exact Hi2]. rewrite serial_app, Ho1. exact Ho2.
  Qed.

  Lemma inv_stands P s c t st : inv P s c -> P !! t = Some st -> exists cl, c_clients c !! t = Some cl /\ stands_before st cl.
  Proof.
    intros Hi Ht. destruct (i_thr _ _ _ Hi t _ Ht) as (cl & Hc & Hp & _).
    exists cl. split; [exact Hc|]. destruct Hp as [[-> _]|(R & q & next & r & a & n & n' & -> & -> & _)]; cbn; eauto.
  Qed.
  (** nobody inside a call *)
  Lemma inv_calm P s c : inv P s c -> (forall t st, P !! t = Some st -> exists cl, st = Between cl) -> s = quiet (c_heap c) (c_next c).
  Proof.
    intros Hi Hb. assert (Hl : locks s = ∅).
    { apply map_eq. intros a. rewrite lookup_empty. destruct (locks s !! a) as [t|] eqn:E; [|reflexivity]. exfalso.
      assert (Ht := i_owner _ _ _ Hi a t E). apply lookup_lt_is_Some in Ht as [st Ht].
      destruct (Hb t st Ht) as [cl0 ->]. destruct (i_thr _ _ _ Hi t _ Ht) as (cl & Hc & Hp & _).
      destruct Hp as [[_ Hn]|(R & q & next & r & a' & n & n' & E' & _)]; [apply (Hn a E)|discriminate]. }
    assert (Hh : heap s = c_heap c).
    { apply map_eq. intros a. symmetry. apply (i_free _ _ _ Hi). rewrite Hl. apply lookup_empty. }
    assert (Hn := i_next _ _ _ Hi). assert (Hpo := i_poison _ _ _ Hi). clear Hi Hb.
    destruct s as [hh nn L Po]. cbn in *. subst. reflexivity.
  Qed.
  Lemma bind_ret {R} (q : prog T R) (f : R -> prog T A) x : bind q f = Ret x -> exists r, q = Ret r.
  Proof. destruct q; cbn; intros E; try discriminate. eauto. Qed.
  Lemma inv_returned P s c t x : inv P s c -> map thread_of P !! t = Some (Running (Ret x)) -> P !! t = Some (Between (Finish x)).
  Proof.
    intros Hi Ht. change (map thread_of P) with (thread_of <$> P) in Ht. rewrite list_lookup_fmap in Ht.
    destruct (P !! t) as [st|] eqn:E; [|discriminate]. cbn in Ht. injection Ht as Ht. f_equal.
    destruct (i_thr _ _ _ Hi t _ E) as (cl & Hc & Hp & Hk).
    destruct Hp as [[-> _]|(R & q & next & r & a & n & n' & -> & _ & _ & _ & _ & Hf & _)]; cbn in Ht; injection Ht as Ht.
    - destruct cl as [y|R k next]; cbn in Ht; [congruence|]. destruct Hk as (K & (Hk & _) & _).
      destruct (one_node_sect k Hk) as [(j & g & Ek & _)|(a & kk & _ & Ek & _)]; rewrite Ek in Ht; discriminate.
    - apply bind_ret in Ht as [y ->]. discriminate.
  Qed.
  (** a thread inside a call can move *)
  Lemma inv_mid_moves P s c a u : inv P s c -> locks s !! a = Some u -> can_move (map thread_of P) s u.
  Proof.
    intros Hi E. assert (Ht := i_owner _ _ _ Hi a u E). apply lookup_lt_is_Some in Ht as [st Ht].
    destruct (i_thr _ _ _ Hi u _ Ht) as (cl & Hc & Hp & Hk).
    destruct Hp as [[_ Hn]|(R & q & next & r & a' & n & n' & -> & _ & Hl & _ & Hna & Hf & _)]; [destruct (Hn a E)|].
    eexists. split; [change (map thread_of P) with (thread_of <$> P); rewrite list_lookup_fmap, Ht; reflexivity|]. left.
    destruct q as [x|b k|b k|b k|b m k|m k|w k|m|]; cbn in Hf; try discriminate; cbn.
    - destruct k; try discriminate. destruct (decide (b = a')) as [->|]; [|discriminate]. rewrite decide_True by exact Hl. eauto.
    - destruct (decide (b = a')) as [->|]; [|discriminate]. rewrite decide_True by exact Hl. rewrite Hna. eauto.
    - destruct (decide (b = a')) as [->|]; [|discriminate]. rewrite decide_True by exact Hl. eauto.
    - eauto.
  Qed.
End Atomic.

Section Main.
  Context {T : Type} `{Sc : Scalar T} {A : Type}.
  Lemma linearizable (h : gmap nat (node T)) nx (cls : list (client T A)) c1 c2 :
    heap_ok h nx -> (forall cl, cl ∈ cls -> obeys (one_node_call h) (fun _ => []) (alive h) cl) ->
    tsteps (spawn cls, quiet h nx) c1 -> tsteps c1 c2 ->
    exists P1 P2 o1 k1 o2 k2,
      c1.1 = map thread_of P1 /\ c2.1 = map thread_of P2 /\
      rtc cstep (map Between cls, quiet h nx) (P1, c1.2) /\ rtc cstep (P1, c1.2) (P2, c2.2) /\
      serial o1 (Calm cls h nx) = Some k1 /\ serial o2 k1 = Some k2 /\
      (forall t st, P1 !! t = Some st -> exists cl, c_clients k1 !! t = Some cl /\ stands_before st cl) /\
      (forall t st, P2 !! t = Some st -> exists cl, c_clients k2 !! t = Some cl /\ stands_before st cl) /\
      ((forall t st, P1 !! t = Some st -> exists cl, st = Between cl) -> c1.2 = quiet (c_heap k1) (c_next k1)) /\
      ((forall t st, P2 !! t = Some st -> exists cl, st = Between cl) -> c2.2 = quiet (c_heap k2) (c_next k2)) /\
      (forall t x, c2.1 !! t = Some (Running (Ret x)) -> P2 !! t = Some (Between (Finish x))) /\
      length P2 = length (c_clients k2).
  Proof.
    intros Hok Ho H1 H2.
    assert (Hsp : spawn cls = map thread_of (map Between cls)).
    { unfold spawn. rewrite map_map. reflexivity. }
    destruct (inv_steps h nx Hok _ _ H1 (map Between cls) _ Hsp (inv_init h nx Hok cls Ho)) as (P1 & o1 & k1 & E1 & Hc1 & Hs1 & Hi1).
    destruct (inv_steps h nx Hok _ _ H2 P1 k1 E1 Hi1) as (P2 & o2 & k2 & E2 & Hc2 & Hs2 & Hi2).
    exists P1, P2, o1, k1, o2, k2. repeat (split; [assumption|]).
    split; [intros t st; apply (inv_stands h nx _ _ _ _ _ Hi1)|]. split; [intros t st; apply (inv_stands h nx _ _ _ _ _ Hi2)|].
    split; [apply (inv_calm h nx _ _ _ Hi1)|]. split; [apply (inv_calm h nx _ _ _ Hi2)|].
    split; [|apply (i_len h nx _ _ _ Hi2)].
    intros t x Ht. rewrite E2 in Ht. eapply (inv_returned h nx Hok); eauto.
  Qed.
  Lemma all_returned_serial (h : gmap nat (node T)) nx (cls : list (client T A)) xs s :
    heap_ok h nx -> (forall cl, cl ∈ cls -> obeys (one_node_call h) (fun _ => []) (alive h) cl) ->
    tsteps (spawn cls, quiet h nx) (map (fun x => Running (Ret x)) xs, s) ->
    exists order, serial order (Calm cls h nx) = Some (Calm (map Finish xs) (heap s) (nxt s)).
  Proof.
    intros Hok Ho H1. destruct (linearizable h nx cls _ _ Hok Ho H1 (rtc_refl _ _))
      as (P1 & P2 & o1 & k1 & o2 & k2 & E1 & E2 & _ & _ & Hs1 & Hs2 & _ & Hst & _ & Hq & Hr & Hlen).
    exists (o1 ++ o2). rewrite serial_app, Hs1, Hs2. f_equal. cbn [fst snd] in *.
    assert (HP : P2 = map Between (map Finish xs)).
    { apply list_eq. intros t. change (map Between (map Finish xs)) with (Between <$> (@Finish T A <$> xs)). rewrite !list_lookup_fmap.
      destruct (xs !! t) as [x|] eqn:E; cbn.
      - apply Hr. change (map (fun x => Running (Ret x)) xs) with ((fun x : A => Running (Ret x) : thread T A) <$> xs).
        rewrite list_lookup_fmap, E. reflexivity.
      - apply lookup_ge_None. apply lookup_ge_None in E. apply (f_equal length) in E2. rewrite !map_length in E2. lia. }
    rewrite Hq.
    2:{ intros t st Hst'. rewrite HP in Hst'. change (map Between (map Finish xs)) with (Between <$> (@Finish T A <$> xs)) in Hst'.
        rewrite !list_lookup_fmap in Hst'. destruct (xs !! t); [injection Hst' as <-; eauto|discriminate]. }
    destruct k2 as [cl2 h2 n2]. cbn in *. f_equal. apply list_eq. intros t.
    destruct (cl2 !! t) as [cl|] eqn:E.
    - assert (Ht : t < length P2) by (rewrite Hlen; eapply lookup_lt_Some; eauto). apply lookup_lt_is_Some in Ht as [st Ht].
      destruct (Hst t st Ht) as (cl' & Hcl' & Hb). assert (cl' = cl) by congruence. subst cl'.
      rewrite HP in Ht. change (map Between (map Finish xs)) with (Between <$> (@Finish T A <$> xs)) in Ht. rewrite list_lookup_fmap in Ht.
      change (map Finish xs) with (@Finish T A <$> xs). destruct ((Finish <$> xs) !! t) as [y|]; [|discriminate].
      injection Ht as <-. cbn in Hb. congruence.
    - symmetry. apply lookup_ge_None. apply lookup_ge_None in E. rewrite HP in Hlen. rewrite map_length in Hlen. lia.
  Qed.

  (** exploring all serial executions *)
  Fixpoint explore (n m : nat) (c : calm T A) : list (calm T A) :=
    c :: match n with
         | 0 => []
         | S n => flat_map (fun t => match serial1 t c with Some c' => explore n m c' | None => [] end) (seq 0 m)
         end.
  Fixpoint exhausted (n m : nat) (c : calm T A) : bool :=
    match n with
    | 0 => forallb (fun t => match serial1 t c with Some _ => false | None => true end) (seq 0 m)
    | S n => forallb (fun t => match serial1 t c with Some c' => exhausted n m c' | None => true end) (seq 0 m)
    end.
  Lemma serial1_length t (c c' : calm T A) : serial1 t c = Some c' -> t < length (c_clients c) /\ length (c_clients c') = length (c_clients c).
  Proof.
    unfold serial1. destruct (c_clients c !! t) as [[x|R k next]|] eqn:E; try discriminate.
    destruct (run _ _ _); try discriminate. intros H. injection H as <-. cbn. rewrite insert_length. split; [|reflexivity].
    eapply lookup_lt_Some; eauto.
  Qed.
  Lemma explore_all n m : forall c order k, length (c_clients c) = m -> exhausted n m c = true ->
    serial order c = Some k -> In k (explore n m c).
  Proof.
    induction n as [|n IH]; intros c [|t order] k Hm He Hs; cbn in Hs; try (injection Hs as <-; left; reflexivity).
    - destruct (serial1 t c) as [c'|] eqn:E; [|discriminate]. destruct (serial1_length _ _ _ E) as [Ht _].
      cbn in He. rewrite forallb_forall in He. specialize (He t ltac:(apply in_seq; lia)). rewrite E in He. discriminate.
    - destruct (serial1 t c) as [c'|] eqn:E; [|discriminate]. destruct (serial1_length _ _ _ E) as [Ht Hl].
      cbn in He. rewrite forallb_forall in He. specialize (He t ltac:(apply in_seq; lia)). rewrite E in He.
      right. apply in_flat_map. exists t. split; [apply in_seq; lia|]. rewrite E. eapply IH; eauto. congruence.
  Qed.
  (** no serial execution ends with client [t] having returned [x] *)
  Lemma never_serially n t (x : A) (test : A -> bool) (c : calm T A) :
    test x = true -> exhausted n (length (c_clients c)) c = true ->
    forallb (fun k => match c_clients k !! t with Some (Finish y) => negb (test y) | _ => true end) (explore n (length (c_clients c)) c) = true ->
    forall order k, serial order c = Some k -> c_clients k !! t <> Some (Finish x).
  Proof.
    intros Ht He Hf order k Hs Hk. rewrite forallb_forall in Hf. specialize (Hf k (explore_all _ _ _ _ _ eq_refl He Hs)).
    rewrite Hk, Ht in Hf. discriminate.
  Qed.
End Main.
