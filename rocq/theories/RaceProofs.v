(** * Data races and termination of schedules: proofs *)
From Coq Require Import String.
From stdpp Require Import gmap.
From Verif Require Import Scalar Geometry Joint Link Prog NodeM ChainM FuncsM IkM Api SpecHist SpecRace Safe SafeSound
  ApiProofs ApiSound HistProofs FrameProofs SpecNode SpecGraph.

Section RaceProofs.
  Context {T : Type}.

  Lemma exec1_event {A} t (p : prog T A) s : 
    match exec1 t p s with RStep _ _ | RPanic _ _ => exists e, event_of t p s = Some e | _ => True end.
  Proof.
    destruct p as [x|a k|a k|a k|a n k|n k|a k|msg|]; cbn; eauto.
    - destruct (heap s !! a); [|exact I]. destruct (locks s !! a); [exact I|]. destruct (decide _); eauto.
    - destruct (decide _); eauto.
    - destruct (decide _); [|exact I]. destruct (heap s !! a); eauto.
    - destruct (decide _); eauto.
  Qed.
  Lemma tsteps_traced {A} (c c' : list (thread T A) * sh T) : tsteps c c' -> exists tr, traced exec1 c tr c'.
  Proof.
    induction 1 as [c|c c1 c2 H _ [tr IH]]; [exists []; constructor|].
    destruct H as [t ths s p p' s' H1 H2|t ths s p m s' H1 H2];
      pose proof (exec1_event t p s) as He; rewrite H2 in He; destruct He as [e He]; exists ((t, e) :: tr).
    - eapply traced_step; eauto.
    - eapply traced_panic; eauto.
  Qed.
  Lemma traced_tsteps {A} (c c' : list (thread T A) * sh T) tr : traced exec1 c tr c' -> tsteps c c'.
  Proof.
    induction 1; [constructor| |].
    - eapply rtc_l; [|eassumption]. eapply tstep_step; eauto.
    - eapply rtc_l; [|eassumption]. eapply tstep_panic; eauto.
  Qed.

  (** what a step does to the owner of a mutex *)
  Definition next_owner (t : nat) (e : event) (a : nat) (o : option nat) : option nat :=
    match e with
    | Acquire b => if decide (b = a) then Some t else o
    | Release b => if decide (b = a) then None else o
    | Unwinds l => if decide (a ∈ l) then None else o
    | _ => o
    end.
  Lemma step_owner {A} t (p : prog T A) s e :
    event_of t p s = Some e ->
    match exec1 t p s with
    | RStep _ s' | RPanic _ s' =>
        (forall a, locks s' !! a = next_owner t e a (locks s !! a)) /\
        (forall a, touches e a -> locks s !! a = Some t) /\
        (forall a, e = Acquire a -> locks s !! a = None) /\
        (forall a, gives_up e a -> locks s !! a = Some t)
    | _ => True
    end.
  Proof.
    assert (Hu : forall s : sh T, (forall a, locks (unwind t s) !! a =
      next_owner t (Unwinds (dom (filter (fun kv => kv.2 = t) (locks s)))) a (locks s !! a)) /\
      (forall a, touches (Unwinds (dom (filter (fun kv => kv.2 = t) (locks s)))) a -> locks s !! a = Some t) /\
      (forall a, Unwinds (dom (filter (fun kv => kv.2 = t) (locks s))) = Acquire a -> locks s !! a = None) /\
      (forall a, gives_up (Unwinds (dom (filter (fun kv => kv.2 = t) (locks s)))) a -> locks s !! a = Some t)).
    { clear. intros s. split; [|split; [|split]].
      - intros a. cbn. destruct (decide _) as [Hd|Hd].
        + apply elem_of_dom in Hd as [u Hd]. apply map_filter_lookup_Some in Hd as [H1 H2]. cbn in H2. subst u.
          apply map_filter_lookup_None. right. intros u Hu Hc. cbn in Hc. congruence.
        + destruct (locks s !! a) as [u|] eqn:E.
          * apply map_filter_lookup_Some. split; [assumption|]. cbn. intros ->. apply Hd. apply elem_of_dom.
            exists t. apply map_filter_lookup_Some. split; [assumption|reflexivity].
          * apply map_filter_lookup_None. left. assumption.
      - intros a [Hc|Hc]; discriminate.
      - intros a Hc. discriminate.
      - intros a [Hc|(l & Hc & Hin)]; [discriminate|]. injection Hc as <-. apply elem_of_dom in Hin as [u Hd].
        apply map_filter_lookup_Some in Hd as [H1 H2]. cbn in H2. subst u. assumption. }
    destruct p as [x|a k|a k|a k|a n k|n k|a k|msg|]; cbn [event_of exec1]; intros He; injection He as <- || discriminate.
    - destruct (heap s !! a); [|exact I]. destruct (locks s !! a) eqn:El; [exact I|]. destruct (decide _) as [Hp|Hp].
      + apply Hu.
      + split; [|split; [|split]].
        * intros b. cbn. destruct (decide (a = b)) as [->|Hn]; [apply lookup_insert|apply lookup_insert_ne; assumption].
        * intros b [Hc|Hc]; discriminate.
        * intros b [= <-]. assumption.
        * intros b [Hc|(l & Hc & _)]; discriminate.
    - destruct (decide _) as [E|E]; [|exact I]. split; [|split; [|split]].
      + intros b. cbn. destruct (decide (a = b)) as [->|Hn]; [apply lookup_delete|apply lookup_delete_ne; assumption].
      + intros b [Hc|Hc]; discriminate.
      + intros b Hc. discriminate.
      + intros b [Hc|(l & Hc & _)]; [|discriminate]. injection Hc as <-. assumption.
    - destruct (decide _) as [E|E]; [|exact I]. destruct (heap s !! a); [|exact I]. split; [reflexivity|]. split; [|split].
      + intros b [Hc|Hc]; [|discriminate]. injection Hc as <-. assumption.
      + intros b Hc. discriminate.
      + intros b [Hc|(l & Hc & _)]; discriminate.
    - destruct (decide _) as [E|E]; [|exact I]. split; [reflexivity|]. split; [|split].
      + intros b [Hc|Hc]; [discriminate|]. injection Hc as <-. assumption.
      + intros b Hc. discriminate.
      + intros b [Hc|(l & Hc & _)]; discriminate.
    - split; [reflexivity|]. split; [|split].
      + intros b [Hc|Hc]; discriminate.
      + intros b Hc. discriminate.
      + intros b [Hc|(l & Hc & _)]; discriminate.
    - split; [reflexivity|]. split; [|split].
      + intros b [Hc|Hc]; discriminate.
      + intros b Hc. discriminate.
      + intros b [Hc|(l & Hc & _)]; discriminate.
    - apply Hu.
  Qed.
  (** one step of a trace *)
  Lemma traced_cons {A} (c c' : list (thread T A) * sh T) t e tr : traced exec1 c ((t, e) :: tr) c' ->
    exists c1, traced exec1 c1 tr c' /\
      (forall a, locks c1.2 !! a = next_owner t e a (locks c.2 !! a)) /\
      (forall a, touches e a -> locks c.2 !! a = Some t) /\
      (forall a, e = Acquire a -> locks c.2 !! a = None) /\
      (forall a, gives_up e a -> locks c.2 !! a = Some t).
  Proof.
    intros H. inversion H as [|? ths s p p' s' ? ? ? H1 H2 H3 H4|? ths s p m s' ? ? ? H1 H2 H3 H4]; subst;
      pose proof (step_owner t p s e H3) as Ho; rewrite H2 in Ho; eexists; (split; [eassumption|]); exact Ho.
  Qed.
  (** who owns a mutex at a touch must have acquired it, if another owned it (or
      nobody) before *)
  Lemma must_acquire {A} tr : forall (c c' : list (thread T A) * sh T) u a j e,
    traced exec1 c tr c' -> locks c.2 !! a <> Some u -> tr !! j = Some (u, e) -> touches e a ->
    exists l, l < j /\ tr !! l = Some (u, Acquire a).
  Proof.
    induction tr as [|[t e0] tr IH]; intros c c' u a j e Htr Hne Hj Ht; [discriminate|].
    apply traced_cons in Htr as (c1 & Htr & Hown & Htch & _ & _).
    destruct j as [|j]; cbn in Hj.
    - injection Hj as -> ->. destruct (Hne (Htch a Ht)).
    - destruct (decide (locks c1.2 !! a = Some u)) as [Hy|Hn].
      + rewrite Hown in Hy. exists 0. split; [lia|]. cbn.
        destruct e0 as [b|b|b|b|b|b|l]; cbn in Hy; try congruence; destruct (decide _) as [E|E]; congruence.
      + destruct (IH c1 c' u a j e Htr Hn Hj Ht) as (l & Hl & Hl'). exists (S l). split; [lia|assumption].
  Qed.
  Lemma handed_over {A} tr : forall (c c' : list (thread T A) * sh T) t u a j e,
    traced exec1 c tr c' -> t <> u -> locks c.2 !! a = Some t -> tr !! j = Some (u, e) -> touches e a ->
    exists k l e', k < l /\ l < j /\ tr !! k = Some (t, e') /\ gives_up e' a /\ tr !! l = Some (u, Acquire a).
  Proof.
    induction tr as [|[w e0] tr IH]; intros c c' t u a j e Htr Htu Hl Hj Ht; [discriminate|].
    apply traced_cons in Htr as (c1 & Htr & Hown & Htch & Hacq & Hgive).
    destruct j as [|j]; cbn in Hj.
    - injection Hj as -> ->. specialize (Htch a Ht). congruence.
    - destruct (decide (locks c1.2 !! a = Some t)) as [Hy|Hn].
      + destruct (IH c1 c' t u a j e Htr Htu Hy Hj Ht) as (k & l & e' & H1 & H2 & H3).
        exists (S k), (S l), e'. split; [lia|]. split; [lia|assumption].
      + assert (Hg : gives_up e0 a /\ locks c1.2 !! a = None).
        { rewrite Hown in Hn |- *. destruct e0 as [b|b|b|b|b|b|ls]; cbn in Hn |- *; try congruence.
          - destruct (decide _) as [->|E]; [|congruence]. rewrite (Hacq a eq_refl) in Hl. discriminate.
          - destruct (decide _) as [->|E]; [|congruence]. split; [left|]; reflexivity.
          - destruct (decide _) as [E|E]; [|congruence]. split; [right; eauto|reflexivity]. }
        destruct Hg as [Hg Hnone]. pose proof (Hgive a Hg) as Hw. assert (w = t) as -> by congruence.
        destruct (must_acquire tr c1 c' u a j e Htr) as (l & Hl1 & Hl2); [rewrite Hnone; discriminate|assumption|assumption|].
        exists 0, (S l), e0. split; [lia|]. split; [lia|]. split; [reflexivity|]. split; [assumption|]. assumption.
  Qed.
  (** between two touches of a node by different threads, its mutex is handed
      over *)
  Lemma touches_handed_over {A} tr : forall (c c' : list (thread T A) * sh T) t u a i j e e',
    traced exec1 c tr c' -> t <> u -> i < j -> tr !! i = Some (t, e) -> touches e a ->
    tr !! j = Some (u, e') -> touches e' a ->
    exists k l e'', i < k /\ k < l /\ l < j /\ tr !! k = Some (t, e'') /\ gives_up e'' a /\ tr !! l = Some (u, Acquire a).
  Proof.
    induction tr as [|[w e0] tr IH]; intros c c' t u a i j e e' Htr Htu Hij Hi Ht Hj Ht'; [discriminate|].
    apply traced_cons in Htr as (c1 & Htr & Hown & Htch & Hacq & Hgive).
    destruct j as [|j]; [lia|]. cbn in Hj. destruct i as [|i]; cbn in Hi.
    - injection Hi as -> ->. pose proof (Htch a Ht) as Hl.
      assert (Hl1 : locks c1.2 !! a = Some t) by (rewrite Hown; destruct Ht as [-> | ->]; exact Hl).
      destruct (handed_over tr c1 c' t u a j e' Htr Htu Hl1 Hj Ht') as (k & l & e'' & H1 & H2 & H3).
      exists (S k), (S l), e''. split; [lia|]. split; [lia|]. split; [lia|assumption].
    - destruct (IH c1 c' t u a i j e e' Htr Htu ltac:(lia) Hi Ht Hj Ht') as (k & l & e'' & H1 & H2 & H3 & H4).
      exists (S k), (S l), e''. split; [lia|]. split; [lia|]. split; [lia|assumption].
  Qed.
  Lemma traced_ordered {A} (c c' : list (thread T A) * sh T) tr t u a i j e e' :
    traced exec1 c tr c' -> i < j -> tr !! i = Some (t, e) -> touches e a ->
    tr !! j = Some (u, e') -> touches e' a -> before tr i j.
  Proof.
    intros Htr Hij Hi Ht Hj Ht'. destruct (decide (t = u)) as [->|Htu].
    - eapply before_own; eauto.
    - destruct (touches_handed_over tr c c' t u a i j e e' Htr Htu Hij Hi Ht Hj Ht')
        as (k & l & e'' & H1 & H2 & H3 & H4 & H5 & H6).
      eapply before_trans; [eapply before_own; [exact H1|exact Hi|exact H4]|].
      eapply before_trans; [eapply before_mutex; [exact H2|exact H4|exact H5|exact H6]|].
      eapply before_own; [exact H3|exact H6|exact Hj].
  Qed.
  Lemma traced_no_race {A} (c c' : list (thread T A) * sh T) tr : traced exec1 c tr c' -> ~ data_race tr.
  Proof.
    intros Htr (i & j & t & u & e & e' & a & Htu & Hi & Hj & Ht & Ht' & _ & Hb & Hb').
    destruct (Nat.lt_trichotomy i j) as [Hij|[->|Hij]].
    - apply Hb. eapply traced_ordered; eauto.
    - congruence.
    - apply Hb'. eapply traced_ordered; eauto.
  Qed.
  (** [before] is an order: nothing is before itself *)
  Lemma before_lt tr i j : before tr i j -> i < j.
  Proof. induction 1; lia. Qed.

  (** ** every schedule ends *)
  Definition lstep {A} (l' l : list (thread T A)) : Prop := exists s s', tstep (l, s) (l', s').
  Definition pstep {A} (th' th : thread T A) : Prop :=
    exists t s p, th = Running p /\
      ((exists p' s', exec1 t p s = RStep p' s' /\ th' = Running p') \/
       exists m s', exec1 t p s = RPanic m s' /\ th' = Dead m).
  Lemma pstep_acc {A} (th : thread T A) : Acc pstep th.
  Proof.
    assert (Hd : forall m, Acc pstep (Dead m : thread T A)).
    { intros m. constructor. intros th' (t & s & p & Hp & _). discriminate. }
    destruct th as [p|m]; [|apply Hd]. induction p as [p IH] using (prog_step_ind (T := T)).
    constructor. intros th' (t & s & q & Hq & [(p' & s' & H1 & ->)|(m & s' & H1 & ->)]); injection Hq as <-.
    - eapply IH. exact H1.
    - apply Hd.
  Qed.
  Inductive one_less {A} : list (thread T A) -> list (thread T A) -> Prop :=
  | one_here th th' l : pstep th' th -> one_less (th' :: l) (th :: l)
  | one_later th l l' : one_less l' l -> one_less (th :: l') (th :: l).
  Lemma one_less_acc {A} (l : list (thread T A)) : Acc one_less l.
  Proof.
    induction l as [|th l IH].
    - constructor. intros l' H. inversion H.
    - revert l IH. induction (pstep_acc th) as [th _ IHt]. intros l IHl.
      induction IHl as [l Hl IH2]. constructor. intros l' H. inversion H; subst.
      + apply IHt; [assumption|]. constructor. assumption.
      + apply IH2. assumption.
  Qed.
  Lemma insert_less {A} (ths : list (thread T A)) : forall t th th',
    ths !! t = Some th -> pstep th' th -> one_less (<[t := th']> ths) ths.
  Proof.
    induction ths as [|x ths IH]; intros t th th' Ht Hp; [discriminate|]. destruct t as [|t]; cbn in Ht |- *.
    - injection Ht as ->. constructor. assumption.
    - apply one_later. eapply IH; eauto.
  Qed.
  Lemma tstep_less {A} (c c' : list (thread T A) * sh T) : tstep c c' -> one_less c'.1 c.1.
  Proof.
    intros [t ths s p p' s' H1 H2|t ths s p m s' H1 H2]; cbn; eapply insert_less; eauto; exists t, s, p; split; eauto 10.
  Qed.
  Lemma no_infinite_schedule {A} (f : nat -> list (thread T A) * sh T) : ~ forall n, tstep (f n) (f (S n)).
  Proof.
    intros Hf. assert (H : forall l, Acc one_less l -> forall n, (f n).1 = l -> False); [|exact (H _ (one_less_acc _) 0 eq_refl)].
    induction 1 as [l _ IH]. intros n <-. eapply IH; [apply tstep_less, Hf|reflexivity].
  Qed.
  Lemma can_step_dec {A} (c : list (thread T A) * sh T) : forall t p, c.1 !! t = Some (Running p) ->
    match exec1 t p c.2 with RStep _ _ | RPanic _ _ => exists c', tstep c c' | _ => True end.
  Proof.
    destruct c as [ths s]. cbn. intros t p Ht. destruct (exec1 t p s) eqn:E; try exact I; eexists.
    - eapply tstep_step; eauto.
    - eapply tstep_panic; eauto.
  Qed.
  (** every execution can be continued to one that cannot be continued, within
      the executions that cannot be infinite *)
  Lemma runs_out {A} (c : list (thread T A) * sh T) : exists c', tsteps c c' /\ forall c'', ~ tstep c' c''.
  Proof.
    assert (H : forall l, Acc one_less l -> forall c : list (thread T A) * sh T, c.1 = l -> 
      exists c', tsteps c c' /\ forall c'', ~ tstep c' c''); [|eapply H; [apply one_less_acc|reflexivity]].
    clear c. induction 1 as [l _ IH]. intros c <-.
    assert (Hd : (exists t, exists p, c.1 !! t = Some (Running p) /\ match exec1 t p c.2 with RStep _ _ | RPanic _ _ => True | _ => False end) \/
      ~ exists t, exists p, c.1 !! t = Some (Running p) /\ match exec1 t p c.2 with RStep _ _ | RPanic _ _ => True | _ => False end).
    { assert (Hn : forall n, (exists t, t < n /\ exists p, c.1 !! t = Some (Running p) /\ match exec1 t p c.2 with RStep _ _ | RPanic _ _ => True | _ => False end) \/
        ~ exists t, t < n /\ exists p, c.1 !! t = Some (Running p) /\ match exec1 t p c.2 with RStep _ _ | RPanic _ _ => True | _ => False end).
      { induction n as [|n IHn]; [right; intros (t & Ht & _); lia|].
        destruct IHn as [(t & Ht & H)|Hno]; [left; exists t; split; [lia|assumption]|].
        destruct (c.1 !! n) as [[p|m]|] eqn:En.
        - destruct (exec1 n p c.2) eqn:Ee; try (right; intros (t & Ht & q & Hq & Hm); destruct (decide (t = n)) as [->|];
            [rewrite En in Hq; injection Hq as <-; rewrite Ee in Hm; contradiction|apply Hno; exists t; split; [lia|eauto]]).
          + left. exists n. split; [lia|]. exists p. rewrite Ee. auto.
          + left. exists n. split; [lia|]. exists p. rewrite Ee. auto.
        - right. intros (t & Ht & q & Hq & Hm). destruct (decide (t = n)) as [->|]; [congruence|apply Hno; exists t; split; [lia|eauto]].
        - right. intros (t & Ht & q & Hq & Hm). destruct (decide (t = n)) as [->|]; [congruence|apply Hno; exists t; split; [lia|eauto]]. }
      destruct (Hn (length c.1)) as [(t & _ & H)|Hno]; [left; eauto|]. right. intros (t & p & Hp & H). apply Hno.
      exists t. split; [eapply lookup_lt_Some; exact Hp|eauto]. }
    destruct Hd as [(t & p & Hp & Hm)|Hno].
    - pose proof (can_step_dec c t p Hp) as Hs. destruct (exec1 t p c.2); try contradiction;
        destruct Hs as [c1 Hc1]; destruct (IH c1.1 (tstep_less _ _ Hc1) c1 eq_refl) as (c' & H1 & H2);
        exists c'; (split; [eapply rtc_l; eauto|assumption]).
    - exists c. split; [reflexivity|]. intros c'' Hs. apply Hno.
      destruct Hs as [t ths s p p' s' H1 H2|t ths s p m s' H1 H2]; exists t, p; (split; [exact H1|]); cbn; rewrite H2; exact I.
  Qed.
  Lemma traced_raw {A} (c c' : list (thread T A) * sh T) tr : traced exec1 c tr c' -> traced raw1 c tr c'.
  Proof.
    assert (H : forall t (p : prog T A) s, match exec1 t p s with RStep _ _ | RPanic _ _ => raw1 t p s = exec1 t p s | _ => True end).
    { clear. intros t p s. destruct p as [x|a k|a k|a k|a n k|n k|a k|msg|]; cbn; try exact I; try reflexivity.
      - destruct (heap s !! a); [|exact I]. destruct (locks s !! a); [exact I|]. destruct (decide _); reflexivity.
      - destruct (decide _); [reflexivity|exact I].
      - destruct (decide _); [|exact I]. destruct (heap s !! a); [reflexivity|exact I].
      - destruct (decide _); [reflexivity|exact I]. }
    induction 1 as [c|t ths s p p' s' e tr c H1 H2 H3 _ IH|t ths s p m s' e tr c H1 H2 H3 _ IH]; [constructor| |].
    - specialize (H t p s). rewrite H2 in H. eapply traced_step; eauto.
    - specialize (H t p s). rewrite H2 in H. eapply traced_panic; eauto.
  Qed.
  (** a trace by a given schedule, computed *)
  Fixpoint trace_by {A} (l : list nat) (c : list (thread T A) * sh T) : option (list (nat * event) * (list (thread T A) * sh T)) :=
    match l with
    | [] => Some ([], c)
    | t :: l =>
        match c.1 !! t with
        | Some (Running p) =>
            match exec1 t p c.2, event_of t p c.2 with
            | RStep p' s', Some e => match trace_by l (<[t := Running p']> c.1, s') with Some (tr, c') => Some ((t, e) :: tr, c') | None => None end
            | RPanic m s', Some e => match trace_by l (<[t := Dead m]> c.1, s') with Some (tr, c') => Some ((t, e) :: tr, c') | None => None end
            | _, _ => None
            end
        | _ => None
        end
    end.
  Lemma trace_by_sound {A} l : forall (c : list (thread T A) * sh T) tr c', trace_by l c = Some (tr, c') -> traced exec1 c tr c'.
  Proof.
    induction l as [|t l IH]; intros c tr c'; cbn; [intros [= <- <-]; constructor|].
    destruct c as [ths s]. cbn. destruct (ths !! t) as [[p|m]|] eqn:Et; try discriminate.
    destruct (exec1 t p s) as [x|p' s'|a|msg s'| |] eqn:Ee; try discriminate; (destruct (event_of t p s) as [e|] eqn:Ev; [|discriminate]).
    - destruct (trace_by l _) as [[tr1 c1]|] eqn:E1; [|discriminate]. intros [= <- <-]. eapply traced_step; eauto.
    - destruct (trace_by l _) as [[tr1 c1]|] eqn:E1; [|discriminate]. intros [= <- <-]. eapply traced_panic; eauto.
  Qed.
  Lemma trace_reached {A} l (c : list (thread T A) * sh T) tr (done : list (thread T A) -> bool) :
    match trace_by l c with Some (tr', c') => bool_decide (length tr' = length tr) && done c'.1 | None => false end = true ->
    fst <$> trace_by l c = Some tr ->
    exists c', traced exec1 c tr c' /\ done c'.1 = true.
  Proof.
    destruct (trace_by l c) as [[tr' c']|] eqn:E; [|discriminate]. cbn. rewrite andb_true_iff. intros [_ H] [= <-].
    exists c'. split; [|assumption]. eapply trace_by_sound. exact E.
  Qed.
End RaceProofs.

(** ** Programs that run out of fuel nowhere *)
Section Loopless.
  Context {T : Type}.

  Fixpoint loopless {A} (p : prog T A) : Prop :=
    match p with
    | Ret _ | Panic _ => True
    | Lock _ k | Unlock _ k | Put _ _ k => loopless k
    | Get _ k => forall n, loopless (k n)
    | Upgrade _ k => forall b, loopless (k b)
    | New _ k => forall a, loopless (k a)
    | NoFuel => False
    end.
  Lemma ll_bind {A B} (p : prog T A) (f : A -> prog T B) : loopless p -> (forall x, loopless (f x)) -> loopless (bind p f).
  Proof. intros Hp Hf. induction p; cbn in *; auto. Qed.
  Lemma ll_read {A} a (f : node T -> A) : loopless (read a f).
  Proof. cbn. auto. Qed.
  Lemma ll_modify a (f : node T -> node T) : loopless (modify a f).
  Proof. cbn. auto. Qed.
  Lemma ll_expect {A} (o : option A) m : loopless (expect o m : prog T A).
  Proof. destruct o; exact I. Qed.
  Lemma ll_assert b m : loopless (assert_ b m : prog T unit).
  Proof. destruct b; exact I. Qed.
  Lemma ll_mapM {A B} (f : A -> prog T B) l : (forall x, loopless (f x)) -> loopless (mapM f l).
  Proof. intros Hf. induction l; cbn; [exact I|]. apply ll_bind; [auto|]. intros y. apply ll_bind; [auto|]. intros ys. exact I. Qed.
  Lemma ll_filterM {A} (f : A -> prog T bool) l : (forall x, loopless (f x)) -> loopless (filterM f l).
  Proof. intros Hf. induction l; cbn; [exact I|]. apply ll_bind; [auto|]. intros y. apply ll_bind; [auto|]. intros ys. exact I. Qed.
  Lemma ll_forM {A} (f : A -> prog T unit) l : (forall x, loopless (f x)) -> loopless (forM_ f l).
  Proof. intros Hf. induction l; cbn; [exact I|]. apply ll_bind; auto. Qed.
  Lemma ll_forM_try {A} (f : A -> prog T (result T unit)) l : (forall x, loopless (f x)) -> loopless (forM_try f l).
  Proof. intros Hf. induction l; cbn; [exact I|]. apply ll_bind; [auto|]. intros [|]; [auto|exact I]. Qed.
  Lemma ll_findM {A} (f : A -> prog T bool) l : (forall x, loopless (f x)) -> loopless (findM f l).
  Proof. intros Hf. induction l; cbn; [exact I|]. apply ll_bind; [auto|]. intros [|]; [exact I|auto]. Qed.
  Lemma ll_positionM {A} (f : A -> prog T bool) l : (forall x, loopless (f x)) -> loopless (positionM f l).
  Proof.
    intros Hf. induction l; cbn; [exact I|]. apply ll_bind; [auto|]. intros [|]; [exact I|].
    apply ll_bind; [auto|]. intros x. exact I.
  Qed.
  Lemma ll_lock a : loopless (lock a : prog T unit). Proof. exact I. Qed.
  Lemma ll_unlock a : loopless (unlock a : prog T unit). Proof. exact I. Qed.
  Lemma ll_get a : loopless (get a : prog T _). Proof. intros n. exact I. Qed.
  Lemma ll_put a n : loopless (put a n : prog T _). Proof. exact I. Qed.
  Lemma ll_upgrade a : loopless (upgrade a : prog T _). Proof. intros n. exact I. Qed.
  Lemma ll_new n : loopless (new n : prog T _). Proof. intros a. exact I. Qed.
End Loopless.

Ltac ll :=
  repeat first
    [ exact I | assumption | solve [eauto]
    | apply ll_read | apply ll_modify | apply ll_expect | apply ll_assert | apply ll_lock | apply ll_unlock | apply ll_get
    | apply ll_put | apply ll_upgrade | apply ll_new
    | apply ll_mapM; intros ? | apply ll_filterM; intros ? | apply ll_forM; intros ? | apply ll_forM_try; intros ?
    | apply ll_findM; intros ? | apply ll_positionM; intros ?
    | apply ll_bind; [|intros ?]
    | match goal with |- loopless (match ?x with _ => _ end) => destruct x end ].

Section LooplessCalls.
  Context {T : Type} `{Sc : Scalar T}.

  Lemma ll_parent a : loopless (node_parent a : prog T _). Proof. unfold node_parent. ll. Qed.
  Lemma ll_mimic_parent a : loopless (node_mimic_parent a : prog T _). Proof. unfold node_mimic_parent. ll. Qed.
  Hint Resolve ll_parent ll_mimic_parent : core.
  Lemma ll_mimic_loop self p cs : loopless (mimic_loop self p cs : prog T _).
  Proof. induction cs as [|c cs IH]; [exact I|]. cbn -[bind lock get read put unlock joint_set]. ll. Qed.
  Hint Resolve ll_mimic_loop : core.
  Lemma ll_set_position a p : loopless (node_set_joint_position a p : prog T _).
  Proof. unfold node_set_joint_position. ll. Qed.
  Lemma ll_anc_next it : loopless (ancestors_next it : prog T _). Proof. unfold ancestors_next. ll. Qed.
  Hint Resolve ll_set_position ll_anc_next : core.
  Lemma ll_desc_next it : loopless (descendants_next it : prog T _). Proof. unfold descendants_next, node_children. ll. Qed.
  Hint Resolve ll_desc_next : core.
  Lemma ll_from_nodes l : loopless (from_nodes l : prog T _). Proof. unfold from_nodes. ll. Qed.
  Hint Resolve ll_from_nodes : core.
  Lemma ll_iter_joints {A} c (f : joint T -> prog T A) : (forall j, loopless (f j)) -> loopless (iter_joints c f).
  Proof. intros Hf. unfold iter_joints. ll. Qed.
  Lemma ll_links l : loopless (links_loop l : prog T _).
  Proof. induction l as [|a l IH]; [exact I|]. cbn -[bind lock get read expect unlock]. ll. Qed.
  Lemma ll_pwt a : loopless (parent_world_transform a : prog T _).
  Proof. unfold parent_world_transform, node_world_transform. ll. Qed.
  Lemma ll_pwv a : loopless (parent_world_velocity a : prog T _).
  Proof. unfold parent_world_velocity, node_world_velocity. ll. Qed.
  Hint Resolve ll_links ll_pwt ll_pwv : core.
  Lemma ll_update_transforms c : loopless (update_transforms c : prog T _).
  Proof. unfold update_transforms, update_transform. ll. Qed.
  Hint Resolve ll_update_transforms : core.
  Lemma ll_velocity a j x y : loopless (velocity_in_match a j x y : prog T _).
  Proof. unfold velocity_in_match, node_world_transform. ll. Qed.
  Hint Resolve ll_velocity : core.
  Lemma ll_update_velocities c : loopless (update_velocities c : prog T _).
  Proof. unfold update_velocities, update_velocity. ll. Qed.
  Lemma ll_update_links c : loopless (update_link_transforms c : prog T _).
  Proof. unfold update_link_transforms, update_link_transform. ll. Qed.
  Lemma ll_usize ovf a b : loopless (usize_sub ovf a b : prog T _). Proof. unfold usize_sub. ll. Qed.
  Hint Resolve ll_usize : core.
  Lemma ll_all_one l : loopless (all_one_child l : prog T _).
  Proof. induction l as [|a l IH]; [exact I|]. cbn -[bind node_children]. unfold node_children. ll. Qed.
  Lemma ll_end_fold acc l : loopless (end_fold acc l : prog T _).
  Proof. revert acc. induction l as [|a l IH]; intros acc; [exact I|]. cbn -[bind read]. ll. Qed.
  Lemma ll_end c : loopless (end_transform c : prog T _). Proof. apply ll_end_fold. Qed.
  Hint Resolve ll_all_one ll_end : core.
  Lemma ll_jacobian c : loopless (jacobian c : prog T _).
  Proof.
    unfold jacobian. ll. unfold jacobian_column. ll.
  Qed.
  Lemma ll_com_loop acc l : loopless (com_loop acc l : prog T _).
  Proof. revert acc. induction l as [|a l IH]; intros acc; [exact I|]. cbn -[bind com_step]. unfold com_step, node_world_transform. ll. Qed.
  Hint Resolve ll_jacobian ll_com_loop : core.
  Lemma ll_positions c : loopless (joint_positions c : prog T _).
  Proof. apply ll_iter_joints. intros. apply ll_expect. Qed.
  Lemma ll_set_positions c ps : loopless (set_joint_positions c ps : prog T _).
  Proof. unfold set_joint_positions. ll. Qed.
  Lemma ll_set_clamped c ps : loopless (set_joint_positions_clamped c ps : prog T _).
  Proof. unfold set_joint_positions_clamped, node_set_joint_position_clamped. ll. Qed.
  Hint Resolve ll_positions ll_set_positions ll_set_clamped : core.
  Lemma ll_remove_rows ovf i r ops m : loopless (remove_rows ovf i r ops m : prog T _).
  Proof. revert i r m. induction ops as [|[|] ops IH]; intros; cbn -[bind usize_sub]; ll. Qed.
  Lemma ll_remove_columns {A} ovf i idx (l : list A) : loopless (remove_columns ovf i idx l : prog T _).
  Proof. revert i l. induction idx as [|j idx IH]; intros; [exact I|]. cbn -[bind usize_sub remove_nth]. unfold remove_nth. ll. Qed.
  Lemma ll_insert_rows idx (l : list T) : loopless (insert_rows idx l : prog T _).
  Proof. revert l. induction idx as [|j idx IH]; intros; [exact I|]. cbn -[bind insert_nth]. unfold insert_nth. ll. Qed.
  Hint Resolve ll_remove_rows ll_remove_columns ll_insert_rows : core.
  Lemma ll_new_positions ovf la s o e j av rq idx : loopless (new_positions ovf la s o e j av rq idx : prog T _).
  Proof. unfold new_positions. ll. Qed.
  Hint Resolve ll_new_positions : core.
  Lemma ll_one_loop ovf la s c tg ops idx : loopless (solve_one_loop_with_constraints ovf la s c tg ops idx : prog T _).
  Proof. unfold solve_one_loop_with_constraints. ll. Qed.
  Hint Resolve ll_one_loop : core.
  Lemma ll_ik_loop ovf la s c tg ops idx orig n last : loopless (ik_loop ovf la s c tg ops idx orig n last : prog T _).
  Proof.
    revert last. induction n as [|n IH]; intros last; cbn -[bind set_joint_positions solve_one_loop_with_constraints expect
      joint_positions set_joint_positions_clamped]; ll.
  Qed.
  Lemma ll_ignored c l : loopless (ignored_indices c l : prog T _).
  Proof. induction l as [|x l IH]; [exact I|]. cbn -[bind positionM read]. ll. Qed.
  Hint Resolve ll_ik_loop ll_ignored : core.
  Lemma ll_solve ovf la s c tg cs : loopless (solve_with_constraints ovf la s c tg cs : prog T _).
  Proof. unfold solve_with_constraints, solve_with_constraints_internal. ll. Qed.
  Hint Resolve ll_solve : core.
  Lemma ll_interp {R} (k : api T R) : no_search R k -> loopless (interp k).
  Proof.
    destruct k; cbn [interp no_search]; intros Hk; try contradiction; clear Hk;
      try (cbv beta delta [node_joint_position node_children node_set_parent node_remove_parent node_is_root node_is_end
        node_set_origin node_origin node_set_joint_position_clamped node_set_joint_position_unchecked node_world_transform
        node_world_velocity node_set_mimic_parent node_set_link node_link node_fmt from_root from_end from_end_to_root
        iter_ancestors iter_descendants first_node iter_links chain_find set_joint_positions_unchecked chain_fmt try_new
        center_of_mass solve chain_set_origin chain_origin node_new]; ll).
  Qed.
  Lemma ll_denote {A} hs K (cl : client T A) : obeys no_search hs K cl -> loopless (denote cl).
  Proof.
    revert K. induction cl as [x|R k next IH]; intros K Ho; cbn -[interp] in *; [exact I|].
    destruct Ho as (H1 & _ & H3). apply ll_bind; [apply ll_interp; assumption|]. intros r. eapply IH. apply H3.
  Qed.
End LooplessCalls.


Section RaceApi.
  Context {T : Type} `{Sc : Scalar T}.

  (** any calls: whoever is about to touch a node has its mutex, and the node is
      alive *)
  Theorem clients_touch_locked {A} h nx po (cls : list (client T A)) c :
    heap_ok h nx -> (forall cl, cl ∈ cls -> obeys any_call (fun _ => []) (alive h) cl) ->
    tsteps (spawn cls, Sh h nx ∅ po) c ->
    forall t p, c.1 !! t = Some (Running p) -> exec1 t p c.2 <> RStuck.
  Proof.
    intros Hok Ho Hst t p Ht.
    destruct (client_pool (types_mode h nx) h nx (everything h) (fun _ => keeps_refl) (fun _ => keeps_trans)
      any_call (alive h) cls po c (lax_started _ _ _ _ _ Hok (fun _ _ _ => I)) (fun R k _ => types_permitted h nx R k) Ho
      (fun a Ha => proj2 (everything_shared h a) Ha) Hst) as (GP & g & HP).
    exact (pool_not_stuck (types_mode h nx) _ _ _ (fun _ => keeps_refl) (fun _ => keeps_trans) _ _ _ _ _ _ _ HP Ht).
  Qed.
  Theorem clients_touch_live {A} h nx po (cls : list (client T A)) c :
    heap_ok h nx -> (forall cl, cl ∈ cls -> obeys any_call (fun _ => []) (alive h) cl) ->
    tsteps (spawn cls, Sh h nx ∅ po) c ->
    forall t p, c.1 !! t = Some (Running p) ->
    match p with
    | Get a _ | Put a _ _ => locks c.2 !! a = Some t /\ is_Some (heap c.2 !! a)
    | Unlock a _ => locks c.2 !! a = Some t
    | Lock a _ => is_Some (heap c.2 !! a)
    | _ => True
    end.
  Proof.
    intros Hok Ho Hst t p Ht. pose proof (clients_touch_locked h nx po cls c Hok Ho Hst t p Ht) as Hn.
    destruct p as [x|a k|a k|a k|a n k|n k|a k|msg|]; cbn in Hn; try exact I.
    - destruct (heap c.2 !! a); [eauto|congruence].
    - destruct (decide _); [assumption|congruence].
    - destruct (decide _); [|congruence]. destruct (heap c.2 !! a); [eauto|congruence].
    - destruct (decide _) as [E|E]; [|congruence]. split; [assumption|].
      destruct (client_pool (types_mode h nx) h nx (everything h) (fun _ => keeps_refl) (fun _ => keeps_trans)
        any_call (alive h) cls po c (lax_started _ _ _ _ _ Hok (fun _ _ _ => I)) (fun R k _ => types_permitted h nx R k) Ho
        (fun a Ha => proj2 (everything_shared h a) Ha) Hst) as (GP & g & HP).
      exact (gc_locks _ _ _ _ _ _ (po_g _ _ _ _ _ _ _ _ _ HP) a t E).
  Qed.
  (** on the machine without checks the clients do the same *)
  Lemma raw1_exec1 {A} t (p : prog T A) s : exec1 t p s <> RStuck -> raw1 t p s = exec1 t p s.
  Proof.
    destruct p as [x|a k|a k|a k|a n k|n k|a k|msg|]; cbn; try reflexivity; destruct (decide _); congruence.
  Qed.
  Theorem clients_raw {A} h nx po (cls : list (client T A)) tr c :
    heap_ok h nx -> (forall cl, cl ∈ cls -> obeys any_call (fun _ => []) (alive h) cl) ->
    traced raw1 (spawn cls, Sh h nx ∅ po) tr c -> traced exec1 (spawn cls, Sh h nx ∅ po) tr c.
  Proof.
    intros Hok Ho Htr. pose proof (fun c => clients_touch_locked h nx po cls c Hok Ho) as Hns.
    assert (G : forall c0 tr c, traced raw1 c0 tr c -> tsteps (spawn cls, Sh h nx ∅ po) c0 -> traced exec1 c0 tr c);
      [|apply G; [assumption|reflexivity]].
    clear Htr tr c. intros c0 tr c.
    induction 1 as [c|t ths s p p' s' e tr c H1 H2 H3 _ IH|t ths s p m s' e tr c H1 H2 H3 _ IH]; intros Hr.
    - constructor.
    - pose proof (Hns _ Hr t p H1) as Hn. cbn in Hn. rewrite (raw1_exec1 t p s Hn) in H2. eapply traced_step; eauto.
      apply IH. eapply rtc_r; [exact Hr|]. eapply tstep_step; eauto.
    - pose proof (Hns _ Hr t p H1) as Hn. cbn in Hn. rewrite (raw1_exec1 t p s Hn) in H2. eapply traced_panic; eauto.
      apply IH. eapply rtc_r; [exact Hr|]. eapply tstep_panic; eauto.
  Qed.
  Theorem clients_finish {A} h nx po (cls : list (client T A)) c :
    heap_ok h nx -> mimic_wf h -> (forall cl, cl ∈ cls -> obeys parallel_call (fun _ => []) (alive h) cl) ->
    tsteps (spawn cls, Sh h nx ∅ po) c -> (forall c', ~ tstep c c') ->
    forall t th, c.1 !! t = Some th -> finished th.
  Proof.
    intros Hok Hm Ho Hst Hend t [p|m] Ht; [|exact I].
    assert (Hns : exec1 t p c.2 <> RStuck).
    { eapply clients_touch_locked; eauto. intros cl Hcl. specialize (Ho cl Hcl). clear -Ho.
      revert Ho. generalize (alive h). induction cl as [x|R k next IH]; intros K; cbn; [auto|].
      intros (_ & H2 & H3). split; [exact I|]. split; [assumption|]. intros r. apply IH. apply H3. }
    destruct (exec1 t p c.2) as [x|p' s'|a|msg s'| |] eqn:Ee.
    - destruct p as [y|a k|a k|a k|a n k|n k|a k|msg|]; try exact I; exfalso; clear -Ee; cbn in Ee.
      + destruct (heap c.2 !! a); [|discriminate]. destruct (locks c.2 !! a); [discriminate|]. destruct (decide _); discriminate.
      + destruct (decide _); discriminate.
      + destruct (decide _); [|discriminate]. destruct (heap c.2 !! a); discriminate.
      + destruct (decide _); discriminate.
      + discriminate.
      + discriminate.
      + discriminate.
    - exfalso. destruct c as [ths s]. eapply Hend, tstep_step; eauto.
    - exfalso. assert (Hlk : exists k, p = Lock a k /\ is_Some (locks c.2 !! a)).
      { clear -Ee. destruct p as [y|b k|b k|b k|b n k|n k|b k|msg|]; cbn in Ee; try discriminate.
        - destruct (heap c.2 !! b); [|discriminate]. destruct (locks c.2 !! b) eqn:E; [|destruct (decide _); discriminate].
          injection Ee as ->. exists k. rewrite E. eauto.
        - destruct (decide _); discriminate.
        - destruct (decide _); [|discriminate]. destruct (heap c.2 !! b); discriminate.
        - destruct (decide _); discriminate. }
      destruct Hlk as (k & -> & Hlk).
      destruct (threads_progress h nx po cls c Hok Hm Ho Hst t a k Ht Hlk) as (u & _ & Hmv).
      assert (Hno : forall v, ~ can_move c.1 c.2 v).
      { intros v (q & Hq & [(p' & s' & He)|(m & s' & He)]); destruct c as [ths s]; eapply Hend.
        - eapply tstep_step; eauto.
        - eapply tstep_panic; eauto. }
      destruct Hmv as [Hmv|(v & _ & Hmv)]; eapply Hno; exact Hmv.
    - exfalso. destruct c as [ths s]. eapply Hend, tstep_panic; eauto.
    - destruct p as [y|b k|b k|b k|b n k|n k|b k|msg|]; try exact I; exfalso; clear -Ee; cbn in Ee.
      + destruct (heap c.2 !! b); [|discriminate]. destruct (locks c.2 !! b); [discriminate|]. destruct (decide _); discriminate.
      + destruct (decide _); discriminate.
      + destruct (decide _); [|discriminate]. destruct (heap c.2 !! b); discriminate.
      + destruct (decide _); discriminate.
      + discriminate.
      + discriminate.
      + discriminate.
    - congruence.
  Qed.
  (** no thread of clients that make only loopless calls is ever out of fuel *)
  Theorem clients_never_out {A} (s : sh T) (cls : list (client T A)) c K :
    (forall cl, cl ∈ cls -> obeys no_search (fun _ => []) K cl) ->
    tsteps (spawn cls, s) c -> forall t, c.1 !! t <> Some (Running NoFuel).
  Proof.
    intros Ho Hst.
    assert (H : forall t p, c.1 !! t = Some (Running p) -> loopless p); [|intros t Ht; exact (H t _ Ht)].
    remember (spawn cls, s) as c0 eqn:E0.
    assert (H0 : forall t p, c0.1 !! t = Some (Running p) -> loopless p).
    { subst c0. cbn. intros t p Ht. unfold spawn in Ht. rewrite list_lookup_fmap in Ht.
      destruct (cls !! t) as [cl|] eqn:E; [|discriminate]. injection Ht as <-.
      eapply ll_denote. apply Ho. eapply elem_of_list_lookup_2. exact E. }
    clear E0. induction Hst as [c|c c1 c2 Hs _ IH]; [assumption|]. apply IH. clear IH c2.
    intros t p Ht. destruct Hs as [u ths s0 q q' s' H1 H2|u ths s0 q m s' H1 H2]; cbn in *.
    - destruct (decide (t = u)) as [->|Hn].
      + rewrite list_lookup_insert in Ht by (eapply lookup_lt_Some; exact H1). injection Ht as <-.
        specialize (H0 u q H1). clear -H0 H2.
        destruct q as [x|a k|a k|a k|a n k|n k|a k|msg|]; cbn in H0, H2; try discriminate.
        * destruct (heap s0 !! a); [|discriminate]. destruct (locks s0 !! a); [discriminate|].
          destruct (decide _); [discriminate|]. injection H2 as <- <-. assumption.
        * destruct (decide _); [|discriminate]. injection H2 as <- <-. assumption.
        * destruct (decide _); [|discriminate]. destruct (heap s0 !! a); [|discriminate]. injection H2 as <- <-. apply H0.
        * destruct (decide _); [|discriminate]. injection H2 as <- <-. assumption.
        * injection H2 as <- <-. apply H0.
        * injection H2 as <- <-. apply H0.
      + rewrite list_lookup_insert_ne in Ht by congruence. eauto.
    - destruct (decide (t = u)) as [->|Hn].
      + rewrite list_lookup_insert in Ht by (eapply lookup_lt_Some; exact H1). discriminate.
      + rewrite list_lookup_insert_ne in Ht by congruence. eauto.
  Qed.
End RaceApi.
