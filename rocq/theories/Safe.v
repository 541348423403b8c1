(** * A program logic for calls on shared nodes

    [safe m Q pub priv hp hv p]: the thread may run [p] when it knows the nodes
    [pub] to be shared and alive (the flag tells whether a node is a mimic
    child), owns the nodes [priv] it created (with their contents), holds the
    locks of the shared nodes [hp] (with their contents once read) and of its
    own nodes [hv]; [Q] holds when it returns.  The logic is used to prove facts
    about every interleaving and every history at once; its soundness is proved
    against [run] and [tstep] in SafeSound.v. *)
From Coq Require Import String.
From stdpp Require Import gmap.
From Verif Require Import Scalar Geometry Joint Link Prog.

Record mode (T : Type) := Mode {
  strict : bool;                                (* check the lock discipline *)
  dead : nat -> Prop;                           (* addresses of dropped nodes *)
  extra : nat -> node T -> Prop;                (* additional invariant of shared nodes *)
  gua : nat -> node T -> node T -> Prop;        (* how shared nodes may change *)
  fresh_ok : node T -> Prop;                    (* nodes that may become shared *)
}.
Arguments strict {T}. Arguments dead {T}. Arguments extra {T}. Arguments gua {T}. Arguments fresh_ok {T}.

Section Safe.
  Context {T : Type} (m : mode T).
  Implicit Types (pub : gmap nat bool) (priv : gmap nat (node T)) (hp : gmap nat (option (node T))) (hv : gset nat).

  Definition shared pub (a : nat) : Prop := is_Some (pub !! a).
  Definition ref_ok pub (o : option nat) : Prop :=
    match o with Some w => shared pub w \/ dead m w | None => True end.
  (** invariant of a shared node *)
  Record node_ok pub (a : nat) (n : node T) : Prop := {
    ok_children : forall c, c ∈ n_children n -> shared pub c;
    ok_mimic_children : forall c, c ∈ n_mimic_children n ->
      shared pub c /\ (strict m = true -> pub !! c = Some true);
    ok_parent : ref_ok pub (n_parent n);
    ok_mimic_parent : ref_ok pub (n_mimic_parent n);
    ok_mimic : strict m = true -> pub !! a = Some true -> is_Some (n_mimic_parent n) /\ is_Some (n_mimic n);
    ok_extra : extra m a n;
  }.
  (** a thread holding shared locks may only ask for a mimic child's lock, and
      only if it holds no mimic child's lock *)
  Definition may_lock pub hp (a : nat) : Prop :=
    hp = ∅ \/ (pub !! a = Some true /\ forall b, is_Some (hp !! b) -> pub !! b = Some false).

  (** a node of its own gets references to nodes the thread knows, and loses none *)
  Definition priv_refs pub priv (a : nat) (n : node T) : Prop :=
    (forall c, c ∈ strong_refs n ++ weak_refs n -> shared pub c \/ is_Some (priv !! c)) /\
    (forall n0 c, priv !! a = Some n0 -> c ∈ strong_refs n0 -> c ∈ strong_refs n).

  Inductive safe {A} (Q : gmap nat bool -> gmap nat (node T) -> gmap nat (option (node T)) -> gset nat -> A -> Prop)
      : gmap nat bool -> gmap nat (node T) -> gmap nat (option (node T)) -> gset nat -> prog T A -> Prop :=
  | s_ret pub priv hp hv x : Q pub priv hp hv x -> safe Q pub priv hp hv (Ret x)
  | s_lock_pub pub priv hp hv a k :
      shared pub a -> (strict m = true -> may_lock pub hp a) ->
      safe Q pub priv (<[a := None]> hp) hv k -> safe Q pub priv hp hv (Lock a k)
  | s_relock pub priv hp hv a k :             (* hangs; only without the lock discipline *)
      strict m = false -> is_Some (hp !! a) -> safe Q pub priv hp hv (Lock a k)
  | s_lock_priv pub priv hp hv a k :
      is_Some (priv !! a) -> a ∉ hv ->
      safe Q pub priv hp ({[a]} ∪ hv) k -> safe Q pub priv hp hv (Lock a k)
  | s_unlock_pub pub priv hp hv a k :
      is_Some (hp !! a) -> safe Q pub priv (delete a hp) hv k -> safe Q pub priv hp hv (Unlock a k)
  | s_unlock_priv pub priv hp hv a k :
      a ∈ hv -> safe Q pub priv hp (hv ∖ {[a]}) k -> safe Q pub priv hp hv (Unlock a k)
  | s_get_pub pub priv hp hv a k :
      is_Some (hp !! a) ->
      (forall pub' n, pub ⊆ pub' -> node_ok pub' a n ->
         (forall b, is_Some (priv !! b) -> pub' !! b = None) ->
         (forall n0, hp !! a = Some (Some n0) -> n = n0) ->
         safe Q pub' priv (<[a := Some n]> hp) hv (k n)) ->
      safe Q pub priv hp hv (Get a k)
  | s_get_priv pub priv hp hv a n k :
      a ∈ hv -> priv !! a = Some n -> safe Q pub priv hp hv (k n) -> safe Q pub priv hp hv (Get a k)
  | s_put_pub pub priv hp hv a n0 n k :
      hp !! a = Some (Some n0) -> node_ok pub a n -> gua m a n0 n ->
      safe Q pub priv (<[a := Some n]> hp) hv k -> safe Q pub priv hp hv (Put a n k)
  | s_put_priv pub priv hp hv a n k :
      a ∈ hv -> is_Some (priv !! a) -> priv_refs pub priv a n ->
      safe Q pub (<[a := n]> priv) hp hv k -> safe Q pub priv hp hv (Put a n k)
  | s_new pub priv hp hv n k :
      strong_refs n ++ weak_refs n = [] ->
      (forall a, pub !! a = None -> priv !! a = None -> ~ dead m a -> safe Q pub (<[a := n]> priv) hp hv (k a)) ->
      safe Q pub priv hp hv (New n k)
  | s_upgrade_pub pub priv hp hv a k :
      shared pub a -> safe Q pub priv hp hv (k true) -> safe Q pub priv hp hv (Upgrade a k)
  | s_upgrade_priv pub priv hp hv a k :
      is_Some (priv !! a) -> safe Q pub priv hp hv (k true) -> safe Q pub priv hp hv (Upgrade a k)
  | s_upgrade_dead pub priv hp hv a k :
      dead m a -> safe Q pub priv hp hv (k false) -> safe Q pub priv hp hv (Upgrade a k)
  | s_panic pub priv hp hv msg : safe Q pub priv hp hv (Panic msg)
  | s_nofuel pub priv hp hv :
      (strict m = true -> hp = ∅ /\ hv = ∅) -> safe Q pub priv hp hv NoFuel
  | s_publish pub priv hp hv flags p :        (* ghost: the created nodes become shared *)
      hv = ∅ -> dom flags = dom priv ->
      (forall a n, priv !! a = Some n -> node_ok (pub ∪ flags) a n /\ fresh_ok m n) ->
      safe Q (pub ∪ flags) ∅ hp ∅ p -> safe Q pub priv hp hv p.

  Lemma safe_mono {A} (Q Q' : _ -> _ -> _ -> _ -> A -> Prop) :
    (forall pub priv hp hv x, Q pub priv hp hv x -> Q' pub priv hp hv x) ->
    forall pub priv hp hv p, safe Q pub priv hp hv p -> safe Q' pub priv hp hv p.
  Proof.
    intros HQ pub priv hp hv p. induction 1; [apply s_ret; auto|eapply s_lock_pub; eauto|apply s_relock; assumption|eapply s_lock_priv; eauto
      |eapply s_unlock_pub; eauto|eapply s_unlock_priv; eauto|eapply s_get_pub; eauto|eapply s_get_priv; eauto
      |eapply s_put_pub; eauto|eapply s_put_priv; eauto|eapply s_new; eauto|eapply s_upgrade_pub; eauto
      |eapply s_upgrade_priv; eauto|eapply s_upgrade_dead; eauto|apply s_panic|eapply s_nofuel; eauto
      |eapply s_publish; eauto].
  Qed.
  Lemma safe_bind {A B} (p : prog T A) (k : A -> prog T B) Q :
    forall pub priv hp hv,
    safe (fun pub priv hp hv x => safe Q pub priv hp hv (k x)) pub priv hp hv p ->
    safe Q pub priv hp hv (bind p k).
  Proof.
    intros pub priv hp hv H.
    remember (fun pub priv hp hv x => safe Q pub priv hp hv (k x)) as Q1 eqn:EQ.
    induction H; subst Q1; cbn [bind];
      [assumption|eapply s_lock_pub; eauto|apply s_relock; assumption|eapply s_lock_priv; eauto
      |eapply s_unlock_pub; eauto|eapply s_unlock_priv; eauto|eapply s_get_pub; eauto|eapply s_get_priv; eauto
      |eapply s_put_pub; eauto|eapply s_put_priv; eauto|eapply s_new; eauto|eapply s_upgrade_pub; eauto
      |eapply s_upgrade_priv; eauto|eapply s_upgrade_dead; eauto|apply s_panic|eapply s_nofuel; eauto
      |eapply s_publish; eauto].
  Qed.

  Lemma shared_mono pub pub' a : pub ⊆ pub' -> shared pub a -> shared pub' a.
  Proof. intros Hs [b Hb]. exists b. eapply lookup_weaken; eauto. Qed.
  Lemma ref_ok_mono pub pub' o : pub ⊆ pub' -> ref_ok pub o -> ref_ok pub' o.
  Proof. intros Hs. destruct o as [w|]; [|auto]. intros [H|H]; [left; eapply shared_mono; eauto|right; assumption]. Qed.
  (** [node_ok] survives growth of [pub] (for a node whose flag is already fixed) *)
  Lemma node_ok_mono pub pub' a n : pub ⊆ pub' -> shared pub a -> node_ok pub a n -> node_ok pub' a n.
  Proof.
    intros Hs [b Hb] [H1 H2 H3 H4 H5 H6]. split.
    - intros c Hc. eapply shared_mono; eauto.
    - intros c Hc. destruct (H2 c Hc) as [Hc1 Hc2]. split; [eapply shared_mono; eauto|].
      intros E. eapply lookup_weaken; eauto.
    - eapply ref_ok_mono; eauto.
    - eapply ref_ok_mono; eauto.
    - intros E Ht. apply H5; [assumption|]. rewrite (lookup_weaken _ _ _ _ Hb Hs) in Ht. congruence.
    - assumption.
  Qed.

  (** ** triples between calls: no lock held, nothing owned *)
  Definition tri {A} pub (p : prog T A) (R : gmap nat bool -> A -> Prop) : Prop :=
    safe (fun pub' priv hp hv x => pub ⊆ pub' /\ priv = ∅ /\ hp = ∅ /\ hv = ∅ /\ R pub' x) pub ∅ ∅ ∅ p.

  Lemma tri_ret {A} pub (x : A) (R : _ -> _ -> Prop) : R pub x -> tri pub (Ret x) R.
  Proof. intros H. apply s_ret. auto. Qed.
  Lemma tri_panic {A} pub msg (R : _ -> A -> Prop) : tri pub (Panic msg) R.
  Proof. apply s_panic. Qed.
  Lemma tri_nofuel {A} pub (R : _ -> A -> Prop) : tri pub NoFuel R.
  Proof. apply s_nofuel. auto. Qed.
  Lemma tri_mono {A} pub (p : prog T A) (R R' : _ -> _ -> Prop) :
    (forall pub' x, pub ⊆ pub' -> R pub' x -> R' pub' x) -> tri pub p R -> tri pub p R'.
  Proof. intros HR. apply safe_mono. intros ? ? ? ? ? (? & ? & ? & ? & ?). auto 10. Qed.
  Lemma tri_bind {A B} pub (p : prog T A) (k : A -> prog T B) (R R' : _ -> _ -> Prop) :
    tri pub p R -> (forall pub' x, pub ⊆ pub' -> R pub' x -> tri pub' (k x) R') -> tri pub (bind p k) R'.
  Proof.
    intros Hp Hk. apply safe_bind. eapply safe_mono; [|exact Hp]. cbn.
    intros pub' priv hp hv x (Hs & -> & -> & -> & Hx).
    eapply safe_mono; [|exact (Hk _ _ Hs Hx)]. cbn.
    intros pub'' priv hp hv y (Hs' & H). split; [etrans; eauto|assumption].
  Qed.
  Lemma tri_expect {A} pub (o : option A) msg (R : _ -> _ -> Prop) :
    (forall x, o = Some x -> R pub x) -> tri pub (expect o msg) R.
  Proof. intros H. destruct o; [apply tri_ret; auto|apply tri_panic]. Qed.
  Lemma tri_assert pub b msg : tri pub (assert_ b msg) (fun _ _ => b = true).
  Proof. destruct b; [apply tri_ret; auto|apply tri_panic]. Qed.

  Lemma may_lock_empty pub a : may_lock pub ∅ a.
  Proof. left. reflexivity. Qed.
  (** one critical section *)
  Lemma safe_section {A} pub priv hp hv a (k : node T -> prog T A) Q :
    shared pub a -> (strict m = true -> may_lock pub hp a) ->
    (forall pub' n, pub ⊆ pub' -> node_ok pub' a n ->
       (forall b, is_Some (priv !! b) -> pub' !! b = None) ->
       safe Q pub' priv (<[a := Some n]> hp) hv (k n)) ->
    safe Q pub priv hp hv (Lock a (Get a k)).
  Proof.
    intros Ha Hm Hk. apply s_lock_pub; [assumption|assumption|].
    apply s_get_pub; [rewrite lookup_insert; eauto|]. intros pub' n Hs Hn Hd _.
    rewrite insert_insert. auto.
  Qed.
  Lemma safe_read {A} pub priv hp hv a (f : node T -> A) (Q : _ -> _ -> _ -> _ -> _ -> Prop) :
    shared pub a -> (strict m = true -> may_lock pub hp a) -> hp !! a = None ->
    (forall pub' n, pub ⊆ pub' -> node_ok pub' a n -> Q pub' priv hp hv (f n)) ->
    safe Q pub priv hp hv (read a f).
  Proof.
    intros Ha Hm Hn HQ. apply safe_section; [assumption|assumption|]. intros pub' n Hs Hok _.
    apply s_unlock_pub; [rewrite lookup_insert; eauto|]. rewrite delete_insert by assumption.
    apply s_ret. auto.
  Qed.
  Lemma safe_modify pub priv hp hv a (F : node T -> node T) (Q : _ -> _ -> _ -> _ -> _ -> Prop) :
    shared pub a -> (strict m = true -> may_lock pub hp a) -> hp !! a = None ->
    (forall pub' n, pub ⊆ pub' -> node_ok pub' a n ->
       node_ok pub' a (F n) /\ gua m a n (F n) /\ Q pub' priv hp hv tt) ->
    safe Q pub priv hp hv (modify a F).
  Proof.
    intros Ha Hm Hn HQ. apply safe_section; [assumption|assumption|]. intros pub' n Hs Hok _.
    destruct (HQ pub' n Hs Hok) as (H1 & H2 & H3).
    eapply s_put_pub; [apply lookup_insert|assumption|assumption|]. rewrite insert_insert.
    apply s_unlock_pub; [rewrite lookup_insert; eauto|]. rewrite delete_insert by assumption.
    apply s_ret. assumption.
  Qed.
  Lemma tri_read {A} pub a (f : node T -> A) (R : _ -> _ -> Prop) :
    shared pub a -> (forall pub' n, pub ⊆ pub' -> node_ok pub' a n -> R pub' (f n)) ->
    tri pub (read a f) R.
  Proof.
    intros Ha HR. apply safe_read; [assumption|intros; apply may_lock_empty|apply lookup_empty|].
    intros pub' n Hs Hn. auto 10.
  Qed.
  Lemma tri_modify pub a (F : node T -> node T) :
    shared pub a ->
    (forall pub' n, pub ⊆ pub' -> node_ok pub' a n -> node_ok pub' a (F n) /\ gua m a n (F n)) ->
    tri pub (modify a F) (fun _ _ => True).
  Proof.
    intros Ha HR. apply safe_modify; [assumption|intros; apply may_lock_empty|apply lookup_empty|].
    intros pub' n Hs Hn. destruct (HR pub' n Hs Hn). auto 10.
  Qed.
  (** a created node, published at once *)
  Lemma tri_new pub n :
    (forall a pub', pub ⊆ pub' -> pub' !! a = Some false -> node_ok pub' a n) -> fresh_ok m n -> strong_refs n ++ weak_refs n = [] ->
    tri pub (new n) (fun pub' a => shared pub' a).
  Proof.
    intros Hok Hf Hr. apply s_new; [exact Hr|]. intros a Hp _ _. cbn.
    assert (Hsub : pub ⊆ pub ∪ {[a := false]}) by apply map_union_subseteq_l.
    assert (Hat : (pub ∪ {[a := false]}) !! a = Some false).
    { rewrite lookup_union_r by assumption. apply lookup_singleton. }
    apply (s_publish _ _ _ _ _ {[a := false]}).
    - reflexivity.
    - rewrite insert_empty, !dom_singleton_L. reflexivity.
    - intros b nb Hb. rewrite insert_empty in Hb. apply lookup_singleton_Some in Hb as [<- <-]. split; [|assumption].
      apply Hok; assumption.
    - apply s_ret. split; [assumption|]. repeat (split; [reflexivity|]). exists false. assumption.
  Qed.

  (** loops *)
  Lemma tri_mapM {A B} (f : A -> prog T B) (S : _ -> A -> Prop) (R : _ -> B -> Prop) :
    (forall pub pub' x, pub ⊆ pub' -> S pub x -> S pub' x) ->
    (forall pub pub' x, pub ⊆ pub' -> R pub x -> R pub' x) ->
    (forall pub x, S pub x -> tri pub (f x) R) ->
    forall l pub, Forall (S pub) l -> tri pub (mapM f l) (fun pub' ys => Forall (R pub') ys).
  Proof.
    intros HS HR Hf. induction l as [|x l IH]; intros pub Hl; cbn [mapM]; [apply tri_ret; constructor|].
    apply Forall_cons in Hl as [Hx Hl].
    eapply tri_bind; [apply Hf; exact Hx|]. intros pub' y Hs Hy.
    eapply tri_bind; [apply IH; eapply Forall_impl; [exact Hl|]; eauto|].
    intros pub'' ys Hs' Hys. apply tri_ret. constructor; eauto.
  Qed.
  Lemma tri_forM_ {A} (f : A -> prog T unit) (S : _ -> A -> Prop) :
    (forall pub pub' x, pub ⊆ pub' -> S pub x -> S pub' x) ->
    (forall pub x, S pub x -> tri pub (f x) (fun _ _ => True)) ->
    forall l pub, Forall (S pub) l -> tri pub (forM_ f l) (fun _ _ => True).
  Proof.
    intros HS Hf. induction l as [|x l IH]; intros pub Hl; cbn [forM_]; [apply tri_ret; exact I|].
    apply Forall_cons in Hl as [Hx Hl].
    eapply tri_bind; [apply Hf; exact Hx|]. intros pub' y Hs Hy. apply IH. eapply Forall_impl; [exact Hl|]. eauto.
  Qed.
  Lemma tri_forM_try {A} (f : A -> prog T (result T unit)) (S : _ -> A -> Prop) :
    (forall pub pub' x, pub ⊆ pub' -> S pub x -> S pub' x) ->
    (forall pub x, S pub x -> tri pub (f x) (fun _ _ => True)) ->
    forall l pub, Forall (S pub) l -> tri pub (forM_try f l) (fun _ _ => True).
  Proof.
    intros HS Hf. induction l as [|x l IH]; intros pub Hl; cbn [forM_try]; [apply tri_ret; exact I|].
    apply Forall_cons in Hl as [Hx Hl].
    eapply tri_bind; [apply Hf; exact Hx|]. intros pub' [y|e] Hs Hy; [|apply tri_ret; exact I].
    apply IH. eapply Forall_impl; [exact Hl|]. eauto.
  Qed.
  Lemma tri_filterM {A} (f : A -> prog T bool) (S : _ -> A -> Prop) :
    (forall pub pub' x, pub ⊆ pub' -> S pub x -> S pub' x) ->
    (forall pub x, S pub x -> tri pub (f x) (fun _ _ => True)) ->
    forall l pub, Forall (S pub) l -> tri pub (filterM f l) (fun pub' ys => Forall (S pub') ys).
  Proof.
    intros HS Hf. induction l as [|x l IH]; intros pub Hl; cbn [filterM]; [apply tri_ret; constructor|].
    apply Forall_cons in Hl as [Hx Hl].
    eapply tri_bind; [apply Hf; exact Hx|]. intros pub' y Hs Hy.
    eapply tri_bind; [apply IH; eapply Forall_impl; [exact Hl|]; eauto|].
    intros pub'' ys Hs' Hys. apply tri_ret. destruct y; [constructor; eauto|assumption].
  Qed.
  Lemma tri_findM {A} (f : A -> prog T bool) (S : _ -> A -> Prop) :
    (forall pub pub' x, pub ⊆ pub' -> S pub x -> S pub' x) ->
    (forall pub x, S pub x -> tri pub (f x) (fun _ _ => True)) ->
    forall l pub, Forall (S pub) l ->
      tri pub (findM f l) (fun pub' o => match o with Some x => S pub' x | None => True end).
  Proof.
    intros HS Hf. induction l as [|x l IH]; intros pub Hl; cbn [findM]; [apply tri_ret; exact I|].
    apply Forall_cons in Hl as [Hx Hl].
    eapply tri_bind; [apply Hf; exact Hx|]. intros pub' y Hs Hy. destruct y; [apply tri_ret; eauto|].
    apply IH. eapply Forall_impl; [exact Hl|]. eauto.
  Qed.
  Lemma tri_positionM {A} (f : A -> prog T bool) (S : _ -> A -> Prop) :
    (forall pub pub' x, pub ⊆ pub' -> S pub x -> S pub' x) ->
    (forall pub x, S pub x -> tri pub (f x) (fun _ _ => True)) ->
    forall l pub, Forall (S pub) l -> tri pub (positionM f l) (fun _ _ => True).
  Proof.
    intros HS Hf. induction l as [|x l IH]; intros pub Hl; cbn [positionM]; [apply tri_ret; exact I|].
    apply Forall_cons in Hl as [Hx Hl].
    eapply tri_bind; [apply Hf; exact Hx|]. intros pub' y Hs Hy. destruct y; [apply tri_ret; exact I|].
    eapply tri_bind; [apply IH; eapply Forall_impl; [exact Hl|]; eauto|]. intros. apply tri_ret. exact I.
  Qed.
End Safe.
