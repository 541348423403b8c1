(** * The methods of [Node] in the logic of Safe.v *)
From Coq Require Import String.
From stdpp Require Import gmap.
From Verif Require Import Scalar Geometry Joint Link Prog NodeM Safe.

Section SafeNode.
  Context {T : Type} `{Sc : Scalar T} (m : mode T).
  Implicit Types (pub : gmap nat bool).

  (** the update [F] of shared node [a] is permitted *)
  Definition can (a : nat) (F : node T -> node T) : Prop :=
    forall n, extra m a n -> extra m a (F n) /\ gua m a n (F n).
  Definition can_set a := forall q, can a (fun n => set_n_joint n (fst (joint_set (n_joint n) q))).
  Definition can_clamp a q := can a (fun n => set_n_joint n (joint_set_clamped (n_joint n) q)).
  Definition can_unchecked a q := can a (fun n => set_n_joint n (joint_set_unchecked (n_joint n) q)).
  Definition can_origin a := forall o, can a (fun n => set_n_joint n (joint_set_origin (n_joint n) o)).
  Definition can_wt a := forall w, can a (fun n => set_n_joint n (joint_set_wt (n_joint n) w)).
  Definition can_wv a := forall w, can a (fun n => set_n_joint n (joint_set_wv (n_joint n) w)).
  Definition can_link a := forall f, can a (fun n => set_n_link n (f (n_link n))).
  Definition can_parent a := forall w, can a (fun n => set_n_parent n w).
  Definition can_add_child a c := can a (fun n => set_n_children n (n_children n ++ [c])).
  Definition can_drop_child a c := can a (fun n => set_n_children n (filter (fun x => x <> c) (n_children n))).
  Definition can_mimic a := (forall w, can a (fun n => set_n_mimic_parent n (Some w))) /\
    (forall c, can a (fun n => set_n_mimic_children n (n_mimic_children n ++ [c]))) /\
    (forall mi, can a (fun n => set_n_mimic n (Some mi))).

  Lemma ok_joint pub a n j : extra m a (set_n_joint n j) -> node_ok m pub a n -> node_ok m pub a (set_n_joint n j).
  Proof. intros He [? ? ? ? ? ?]. split; assumption. Qed.
  Lemma ok_link pub a n l : extra m a (set_n_link n l) -> node_ok m pub a n -> node_ok m pub a (set_n_link n l).
  Proof. intros He [? ? ? ? ? ?]. split; assumption. Qed.

  Lemma tri_joint pub a (f : node T -> joint T) :
    shared pub a -> can a (fun n => set_n_joint n (f n)) ->
    tri m pub (modify a (fun n => set_n_joint n (f n))) (fun _ _ => True).
  Proof.
    intros Ha Hc. apply tri_modify; [assumption|]. intros pub' n _ Hok.
    destruct (Hc n (ok_extra _ _ _ _ Hok)) as [He Hg]. split; [apply ok_joint; assumption|assumption].
  Qed.
  Lemma tri_link pub a (f : option (link T) -> option (link T)) :
    shared pub a -> can_link a ->
    tri m pub (modify a (fun n => set_n_link n (f (n_link n)))) (fun _ _ => True).
  Proof.
    intros Ha Hc. apply tri_modify; [assumption|]. intros pub' n _ Hok.
    destruct (Hc f n (ok_extra _ _ _ _ Hok)) as [He Hg]. split; [apply ok_link; assumption|assumption].
  Qed.

  Definition opt_shared pub (o : option nat) : Prop := match o with Some w => shared pub w | None => True end.

  (** reading a weak reference and upgrading it under the guard *)
  Lemma tri_weak pub a (f : node T -> option nat) :
    shared pub a -> (forall pub' n, node_ok m pub' a n -> ref_ok m pub' (f n)) ->
    tri m pub (lock a ;;; n <- get a ;;
               match f n with
               | Some w => b <- upgrade w ;; unlock a ;;; Ret (if b : bool then Some w else None)
               | None => unlock a ;;; Ret None
               end) opt_shared.
  Proof.
    intros Ha Hf. cbn [bind lock get]. apply safe_section; [assumption|intros; apply may_lock_empty|].
    intros pub' n Hs Hok _. rewrite insert_empty. specialize (Hf _ _ Hok).
    destruct (f n) as [w|]; cbn [bind unlock upgrade].
    - destruct Hf as [Hw|Hw].
      + apply s_upgrade_pub; [assumption|].
        apply s_unlock_pub; [rewrite lookup_singleton; eauto|]. rewrite delete_singleton. apply s_ret. auto.
      + apply s_upgrade_dead; [assumption|].
        apply s_unlock_pub; [rewrite lookup_singleton; eauto|]. rewrite delete_singleton. apply s_ret. cbn. auto.
    - apply s_unlock_pub; [rewrite lookup_singleton; eauto|]. rewrite delete_singleton. apply s_ret. cbn. auto.
  Qed.
  Lemma tri_parent pub a : shared pub a -> tri m pub (node_parent a) opt_shared.
  Proof. intros Ha. apply (tri_weak pub a n_parent Ha). intros. apply ok_parent with (a := a). assumption. Qed.
  Lemma tri_mimic_parent pub a : shared pub a -> tri m pub (node_mimic_parent a) opt_shared.
  Proof. intros Ha. apply (tri_weak pub a n_mimic_parent Ha). intros. eapply ok_mimic_parent; eassumption. Qed.

  Lemma tri_any {A} pub a (f : node T -> A) : shared pub a -> tri m pub (read a f) (fun _ _ => True).
  Proof. intros Ha. apply tri_read; auto. Qed.
  Lemma tri_children pub a : shared pub a -> tri m pub (node_children a) (fun pub' l => Forall (shared pub') l).
  Proof.
    intros Ha. apply tri_read; [assumption|]. intros pub' n _ Hok. apply Forall_forall.
    apply (ok_children _ _ _ _ Hok).
  Qed.
  Lemma Forall_shared_mono pub pub' l : pub ⊆ pub' -> Forall (shared pub) l -> Forall (shared pub') l.
  Proof. intros Hs H. eapply Forall_impl; [exact H|]. intros x. apply shared_mono. assumption. Qed.

  Lemma tri_ancestors_next pub it : opt_shared pub it ->
    tri m pub (ancestors_next it)
      (fun pub' o => match o with Some (a, it') => it = Some a /\ shared pub' a /\ opt_shared pub' it' | None => True end).
  Proof.
    intros Hit. destruct it as [a|]; cbn [ancestors_next]; [|apply tri_ret; exact I].
    eapply tri_bind; [apply tri_parent; exact Hit|]. intros pub' o Hs Ho. apply tri_ret.
    split; [reflexivity|]. split; [eapply shared_mono; eauto|assumption].
  Qed.
  Lemma tri_ancestors fuel : forall pub it, opt_shared pub it ->
    tri m pub (ancestors_collect fuel it) (fun pub' l => Forall (shared pub') l).
  Proof.
    induction fuel as [|fuel IH]; intros pub it Hit; cbn [ancestors_collect]; [apply tri_nofuel|].
    eapply tri_bind; [apply tri_ancestors_next; assumption|]. intros pub' [[a it']|] Hs Ho; [|apply tri_ret; constructor].
    destruct Ho as (_ & Ha & Hit'). eapply tri_bind; [apply IH; exact Hit'|].
    intros pub'' l Hs' Hl. apply tri_ret. constructor; [eapply shared_mono; eauto|assumption].
  Qed.
  Lemma tri_descendants fuel : forall pub st, Forall (shared pub) st ->
    tri m pub (descendants_collect fuel st) (fun pub' l => Forall (shared pub') l).
  Proof.
    induction fuel as [|fuel IH]; intros pub st Hst; cbn [descendants_collect]; [apply tri_nofuel|].
    destruct st as [|a st]; cbn [descendants_next bind]; [apply tri_ret; constructor|].
    apply Forall_cons in Hst as [Ha Hst].
    unfold node_children. eapply tri_bind.
    { eapply tri_bind; [apply tri_children; exact Ha|]. intros pub' ch Hs Hch.
      apply (tri_ret m pub' (Some (a, rev ch ++ st))
        (fun pub' o => match o with Some (b, st') => shared pub' b /\ Forall (shared pub') st' | None => True end)).
      split; [eapply shared_mono; eauto|]. apply Forall_app. split.
      - apply Forall_forall. intros x Hx. rewrite elem_of_list_In, <- in_rev, <- elem_of_list_In in Hx.
        exact (proj1 (Forall_forall _ _) Hch x Hx).
      - eapply Forall_shared_mono; eauto. }
    intros pub' [[b st']|] Hs Ho; [|apply tri_ret; constructor]. destruct Ho as [Hb Hst'].
    eapply tri_bind; [apply IH; exact Hst'|]. intros pub'' l Hs' Hl. apply tri_ret.
    constructor; [eapply shared_mono; eauto|assumption].
  Qed.

  Lemma tri_set_parent pub self parent :
    shared pub self -> shared pub parent -> can_parent self -> can_add_child parent self ->
    tri m pub (node_set_parent self parent) (fun _ _ => True).
  Proof.
    intros Hs Hp Hc1 Hc2. eapply tri_bind.
    { apply tri_modify; [assumption|]. intros pub' n Hsub Hok.
      destruct (Hc1 (Some parent) n (ok_extra _ _ _ _ Hok)) as [He Hg]. split; [|assumption].
      destruct Hok as [O1 O2 O3 O4 O5 O6]. split; try assumption. left. eapply shared_mono; eauto. }
    intros pub' _ Hsub _. apply tri_modify; [eapply shared_mono; eauto|]. intros pub'' n Hsub' Hok.
    destruct (Hc2 n (ok_extra _ _ _ _ Hok)) as [He Hg]. split; [|assumption].
    destruct Hok as [O1 O2 O3 O4 O5 O6]. split; try assumption. cbn. intros c Hc.
    apply elem_of_app in Hc as [Hc|Hc]; [auto|]. apply elem_of_list_singleton in Hc as ->.
    eapply shared_mono; [|exact Hs]. etrans; eauto.
  Qed.
  Lemma tri_remove_parent pub self parent :
    shared pub self -> shared pub parent -> can_parent self -> can_drop_child parent self ->
    tri m pub (node_remove_parent self parent) (fun _ _ => True).
  Proof.
    intros Hs Hp Hc1 Hc2. eapply tri_bind.
    { apply tri_modify; [assumption|]. intros pub' n Hsub Hok.
      destruct (Hc1 None n (ok_extra _ _ _ _ Hok)) as [He Hg]. split; [|assumption].
      destruct Hok as [O1 O2 O3 O4 O5 O6]. split; try assumption. exact I. }
    intros pub' _ Hsub _. apply tri_modify; [eapply shared_mono; eauto|]. intros pub'' n Hsub' Hok.
    destruct (Hc2 n (ok_extra _ _ _ _ Hok)) as [He Hg]. split; [|assumption].
    destruct Hok as [O1 O2 O3 O4 O5 O6]. split; try assumption. cbn. intros c Hc.
    apply elem_of_list_filter in Hc as [_ Hc]. auto.
  Qed.
  (** not part of the lock discipline: it makes a node a mimic child *)
  Lemma tri_set_mimic_parent pub self parent mi :
    strict m = false -> shared pub self -> shared pub parent -> can_mimic self -> can_mimic parent ->
    tri m pub (node_set_mimic_parent self parent mi) (fun _ _ => True).
  Proof.
    intros Es Hs Hp (Hc1 & _ & Hc3) (_ & Hc2 & _). eapply tri_bind.
    { apply tri_modify; [assumption|]. intros pub' n Hsub Hok.
      destruct (Hc1 parent n (ok_extra _ _ _ _ Hok)) as [He Hg]. split; [|assumption].
      destruct Hok as [O1 O2 O3 O4 O5 O6]. split; try assumption; [|congruence]. left. eapply shared_mono; eauto. }
    intros pub' _ Hsub _. eapply tri_bind.
    { apply tri_modify; [eapply shared_mono; eauto|]. intros pub'' n Hsub' Hok.
      destruct (Hc2 self n (ok_extra _ _ _ _ Hok)) as [He Hg]. split; [|assumption].
      destruct Hok as [O1 O2 O3 O4 O5 O6]. split; try assumption. cbn. intros c Hc.
      apply elem_of_app in Hc as [Hc|Hc]; [auto|]. apply elem_of_list_singleton in Hc as ->.
      split; [|congruence]. eapply shared_mono; [|exact Hs]. etrans; eauto. }
    intros pub'' _ Hsub' _. apply tri_modify; [eapply shared_mono; [|exact Hs]; etrans; eauto|]. intros pub3 n Hsub3 Hok.
    destruct (Hc3 mi n (ok_extra _ _ _ _ Hok)) as [He Hg]. split; [|assumption].
    destruct Hok as [O1 O2 O3 O4 O5 O6]. split; try assumption. congruence.
  Qed.

  (** [set_joint_position]: its own lock and, below it, those of the mimic children *)
  Lemma safe_mimic_loop {A} (Q : _ -> _ -> _ -> _ -> A -> Prop) a na p (k : result T unit -> prog T A) :
    forall cs pub, shared pub a ->
      (strict m = true -> pub !! a = Some false) ->
      (forall c, c ∈ cs -> shared pub c /\ (strict m = true -> pub !! c = Some true)) ->
      (forall c, c ∈ cs -> can_set c) ->
      (forall pub' r, pub ⊆ pub' -> safe m Q pub' ∅ {[a := Some na]} ∅ (k r)) ->
      safe m Q pub ∅ {[a := Some na]} ∅ (bind (mimic_loop a p cs) k).
  Proof.
    induction cs as [|c cs IH]; intros pub Ha Hfa Hcs Hcan Hk; cbn [mimic_loop bind]; [apply Hk; reflexivity|].
    destruct (Hcs c ltac:(left)) as [Hc Hfc].
    destruct (decide (c = a)) as [->|Hne].
    { destruct (strict m) eqn:Es; [specialize (Hfa eq_refl); specialize (Hfc eq_refl); congruence|].
      cbn [lock bind]. apply s_relock; [assumption|]. rewrite lookup_singleton. eauto. }
    cbn [lock get bind]. apply safe_section; [assumption| |].
    { intros Es. right. split; [auto|]. intros b [x Hb]. apply lookup_singleton_Some in Hb as [<- _]. auto. }
    intros pub' cn Hs Hok _.
    assert (Hnc : ({[a := Some na]} : gmap nat (option (node T))) !! c = None) by (apply lookup_singleton_ne; congruence).
    destruct (n_mimic cn) as [mi|] eqn:Emi.
    - cbn [bind put].
      destruct (Hcan c ltac:(left) (mimic_position mi p) cn (ok_extra _ _ _ _ Hok)) as [He Hg].
      eapply s_put_pub; [apply lookup_insert|apply ok_joint; assumption|assumption|]. rewrite insert_insert.
      destruct (snd (joint_set (n_joint cn) (mimic_position mi p))) as [[]|e] eqn:Er; cbn [bind unlock].
      + apply s_unlock_pub; [rewrite lookup_insert; eauto|]. rewrite delete_insert by assumption.
        apply IH.
        * eapply shared_mono; eauto.
        * intros Es. eapply lookup_weaken; eauto.
        * intros d Hd. destruct (Hcs d ltac:(right; assumption)) as [Hd1 Hd2].
          split; [eapply shared_mono; eauto|]. intros Es. eapply lookup_weaken; eauto.
        * intros d Hd. apply Hcan. right. assumption.
        * intros pub'' r Hs'. apply Hk. etrans; eauto.
      + apply s_unlock_pub; [rewrite lookup_insert; eauto|]. rewrite delete_insert by assumption. auto.
    - cbn [bind read]. destruct (strict m) eqn:Es.
      { exfalso. destruct (ok_mimic _ _ _ _ Hok Es) as [_ [x Hx]]; [|congruence].
        eapply lookup_weaken; [apply Hfc; reflexivity|assumption]. }
      apply s_relock; [assumption|]. rewrite lookup_insert_ne by congruence. rewrite lookup_singleton. eauto.
  Qed.
  Lemma tri_set_joint_position pub a p :
    shared pub a -> can_set a ->
    (forall pub' n c, pub ⊆ pub' -> node_ok m pub' a n -> c ∈ n_mimic_children n -> can_set c) ->
    tri m pub (node_set_joint_position a p) (fun _ _ => True).
  Proof.
    intros Ha Hc Hcs. unfold node_set_joint_position. cbn [bind lock get].
    apply safe_section; [assumption|intros; apply may_lock_empty|].
    intros pub' n Hs Hok _. rewrite insert_empty.
    destruct (n_mimic_parent n) as [w|] eqn:Emp; cbn [bind unlock put].
    { apply s_unlock_pub; [rewrite lookup_singleton; eauto|]. rewrite delete_singleton. apply s_ret. cbn. auto. }
    destruct (Hc p n (ok_extra _ _ _ _ Hok)) as [He Hg].
    eapply s_put_pub; [apply lookup_singleton|apply ok_joint; assumption|assumption|]. rewrite insert_singleton.
    destruct (snd (joint_set (n_joint n) p)) as [[]|e]; cbn [bind unlock].
    - apply safe_mimic_loop.
      + eapply shared_mono; eauto.
      + intros Es. destruct Ha as [fa Hfa]. pose proof (lookup_weaken _ _ _ _ Hfa Hs) as Hfa'.
        destruct fa; [|assumption]. destruct (ok_mimic _ _ _ _ Hok Es Hfa') as [[x Hx] _]. congruence.
      + apply (ok_mimic_children _ _ _ _ Hok).
      + intros c Hc'. eapply Hcs; eauto.
      + intros pub'' r Hs'. cbn [bind unlock]. apply s_unlock_pub; [rewrite lookup_singleton; eauto|].
        rewrite delete_singleton. apply s_ret. split; [etrans; eauto|]. auto.
    - apply s_unlock_pub; [rewrite lookup_singleton; eauto|]. rewrite delete_singleton. apply s_ret. cbn. auto.
  Qed.

  Lemma tri_parent_wt pub a : shared pub a -> tri m pub (parent_world_transform a) (fun _ _ => True).
  Proof.
    intros Ha. eapply tri_bind; [apply tri_parent; assumption|]. intros pub' [w|] Hs Hw; [|apply tri_ret; exact I].
    apply tri_any. assumption.
  Qed.
  Lemma tri_parent_wv pub a : shared pub a -> tri m pub (parent_world_velocity a) (fun _ _ => True).
  Proof.
    intros Ha. eapply tri_bind; [apply tri_parent; assumption|]. intros pub' [w|] Hs Hw; [|apply tri_ret; exact I].
    apply tri_any. assumption.
  Qed.
End SafeNode.
