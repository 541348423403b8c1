(** * Proofs for panics and poisoned nodes *)
From Coq Require Import String NArith.
From stdpp Require Import gmap.
From Verif Require Import Scalar Geometry Joint Link Prog NodeM ChainM FuncsM IkM RunLemmas SpecChain Api SpecHist SpecPoison.

Section Clean.
  Context {T : Type} `{Sc : Scalar T} (t : nat).
  Implicit Types (s : sh T).

  (** if the call panics, nothing gets poisoned; if it returns, [Q] *)
  Definition ok {A} (p : prog T A) s (Q : A -> sh T -> Prop) : Prop :=
    match run t p s with
    | Done x s' => Q x s'
    | Panicked _ s' => locks s' = ∅ /\ poison s' = ∅
    | _ => True
    end.
  Arguments ok : simpl never.

  Lemma ok_ret {A} (x : A) s (Q : _ -> _ -> Prop) : Q x s -> ok (Ret x) s Q.
  Proof. intros H. exact H. Qed.
  Lemma ok_bind {A B} (p : prog T A) (f : A -> prog T B) s Q :
    ok p s (fun x s' => ok (f x) s' Q) -> ok (bind p f) s Q.
  Proof. unfold ok. rewrite run_bind. destruct (run t p s); cbn; auto. Qed.
  Lemma ok_mono {A} (p : prog T A) s (Q Q' : A -> sh T -> Prop) :
    ok p s Q -> (forall x s', Q x s' -> Q' x s') -> ok p s Q'.
  Proof. unfold ok. destruct (run t p s); auto. Qed.
  Lemma ok_panic {A} m s (Q : A -> sh T -> Prop) : locks s = ∅ -> poison s = ∅ -> ok (Panic m) s Q.
  Proof.
    intros Hl Hp. unfold ok. cbn. rewrite Hl, Hp, !map_filter_empty, dom_empty_L. split; [reflexivity|set_solver].
  Qed.
  Lemma ok_nofuel {A} s (Q : A -> sh T -> Prop) : ok NoFuel s Q.
  Proof. exact I. Qed.
  Lemma ok_lock a s (Q : unit -> sh T -> Prop) : poison s = ∅ ->
    (locks s !! a = None -> is_Some (heap s !! a) -> Q tt (set_locks s (<[a := t]> (locks s)))) ->
    ok (lock a) s Q.
  Proof.
    intros Hp H. unfold ok. cbn. destruct (heap s !! a) eqn:E1; [|exact I]. destruct (locks s !! a) eqn:E2; [exact I|].
    rewrite Hp. destruct (decide _) as [F|]; [set_solver|]. apply H; eauto.
  Qed.
  Lemma ok_unlock a s (Q : unit -> sh T -> Prop) :
    Q tt (set_locks s (delete a (locks s))) -> ok (unlock a) s Q.
  Proof. intros H. unfold ok. cbn. destruct (decide _); [exact H|exact I]. Qed.
  Lemma ok_get a s (Q : node T -> sh T -> Prop) :
    (forall n, heap s !! a = Some n -> Q n s) -> ok (get a) s Q.
  Proof. intros H. unfold ok. cbn. destruct (decide _); [|exact I]. destruct (heap s !! a); [auto|exact I]. Qed.
  Lemma ok_put a n s (Q : unit -> sh T -> Prop) :
    Q tt (set_heap s (<[a := n]> (heap s))) -> ok (put a n) s Q.
  Proof. intros H. unfold ok. cbn. destruct (decide _); [exact H|exact I]. Qed.
  Lemma ok_new n s (Q : nat -> sh T -> Prop) : Q (nxt s) (alloc s n) -> ok (new n) s Q.
  Proof. intros H. exact H. Qed.
  Lemma ok_upgrade a s (Q : bool -> sh T -> Prop) :
    Q (bool_decide (is_Some (heap s !! a))) s -> ok (upgrade a) s Q.
  Proof. intros H. exact H. Qed.
  Lemma ok_read {A} a (f : node T -> A) s (Q : A -> sh T -> Prop) : poison s = ∅ ->
    (forall n, heap s !! a = Some n -> Q (f n) s) -> ok (read a f) s Q.
  Proof.
    intros Hp H. change (read a f) with (lock a ;;; (n <- get a ;; (unlock a ;;; Ret (f n)))).
    apply ok_bind. apply ok_lock; [assumption|]. intros Hl _. apply ok_bind. apply ok_get. intros n Hn. apply ok_bind.
    apply ok_unlock. apply ok_ret. unfold set_locks. cbn. rewrite delete_insert by assumption.
    specialize (H n Hn). destruct s. exact H.
  Qed.
  Lemma ok_modify a (f : node T -> node T) s (Q : unit -> sh T -> Prop) : poison s = ∅ ->
    (forall n, heap s !! a = Some n -> Q tt (set_heap s (<[a := f n]> (heap s)))) -> ok (modify a f) s Q.
  Proof.
    intros Hp H. change (modify a f) with (lock a ;;; (n <- get a ;; (put a (f n) ;;; (unlock a ;;; Ret tt)))).
    apply ok_bind. apply ok_lock; [assumption|]. intros Hl _. apply ok_bind. apply ok_get. intros n Hn. apply ok_bind.
    apply ok_put. apply ok_bind. apply ok_unlock. apply ok_ret. unfold set_locks, set_heap. cbn.
    rewrite delete_insert by assumption. apply H. exact Hn.
  Qed.
  Lemma ok_expect {A} (o : option A) m s (Q : A -> sh T -> Prop) : locks s = ∅ -> poison s = ∅ ->
    (forall x, o = Some x -> Q x s) -> ok (expect o m) s Q.
  Proof. intros Hl Hp H. destruct o; cbn [expect]; [apply ok_ret; auto|apply ok_panic; assumption]. Qed.
  Lemma ok_assert b m s (Q : unit -> sh T -> Prop) : locks s = ∅ -> poison s = ∅ ->
    Q tt s -> ok (assert_ b m) s Q.
  Proof. intros Hl Hp H. destruct b; cbn [assert_]; [apply ok_ret; auto|apply ok_panic; assumption]. Qed.

  (** ** the invariant *)
  Definition mov (n : node T) : Prop := is_movable (n_joint n) = true.
  Definition both (n : node T) : Prop := is_Some (n_mimic_parent n) -> is_Some (n_mimic n).
  (** [M]: nodes known to be movable, [W]: nodes known to have a cached transform *)
  Record inv (M W : nat -> Prop) (L : gmap nat nat) s : Prop := {
    i_locks : locks s = L;
    i_poison : poison s = ∅;
    i_mov : forall a, M a -> exists n, heap s !! a = Some n /\ mov n;
    i_wt : forall a, W a -> exists n, heap s !! a = Some n /\ is_Some (j_wt_cache (n_joint n));
    i_node : forall a n, heap s !! a = Some n -> a < nxt s /\ both n;
  }.
  Definition nil_ : nat -> Prop := fun _ => False.

  Lemma inv_lock M W L s a : inv M W L s -> inv M W (<[a := t]> L) (set_locks s (<[a := t]> (locks s))).
  Proof. intros [H1 H2 H3 H4 H5]. split; cbn; auto. rewrite H1. reflexivity. Qed.
  Lemma inv_unlock M W L s a : L !! a = None -> inv M W (<[a := t]> L) s -> inv M W L (set_locks s (delete a (locks s))).
  Proof. intros HL [H1 H2 H3 H4 H5]. split; cbn; auto. rewrite H1. apply delete_insert. assumption. Qed.
  Lemma inv_alloc M W L s n : inv M W L s -> both n -> inv M W L (alloc s n).
  Proof.
    intros [H1 H2 H3 H4 H5] Hn. split; cbn; auto.
    - intros a Ha. destruct (H3 a Ha) as (m & Hm & Hx). destruct (H5 _ _ Hm). exists m.
      rewrite lookup_insert_ne by lia. auto.
    - intros a Ha. destruct (H4 a Ha) as (m & Hm & Hx). destruct (H5 _ _ Hm). exists m.
      rewrite lookup_insert_ne by lia. auto.
    - intros a m. destruct (decide (a = nxt s)) as [->|Hne].
      + rewrite lookup_insert. intros [= <-]. split; [lia|assumption].
      + rewrite lookup_insert_ne by congruence. intros Hm. destruct (H5 _ _ Hm). split; [lia|assumption].
  Qed.
  (** a node is replaced by one of the same type *)
  Lemma inv_put M W L s a n n' : inv M W L s -> heap s !! a = Some n ->
    (mov n -> mov n') -> (both n -> both n') -> (W a -> is_Some (j_wt_cache (n_joint n'))) ->
    inv M W L (set_heap s (<[a := n']> (heap s))).
  Proof.
    intros [H1 H2 H3 H4 H5] Hn Hm Hb Hw. split; cbn; auto.
    - intros b Hb'. destruct (decide (b = a)) as [->|Hne].
      + exists n'. rewrite lookup_insert. split; [reflexivity|]. destruct (H3 a Hb') as (m & Em & Hx). apply Hm. congruence.
      + rewrite lookup_insert_ne by congruence. auto.
    - intros b Hb'. destruct (decide (b = a)) as [->|Hne].
      + exists n'. rewrite lookup_insert. auto.
      + rewrite lookup_insert_ne by congruence. auto.
    - intros b m. destruct (decide (b = a)) as [->|Hne].
      + rewrite lookup_insert. intros [= <-]. destruct (H5 _ _ Hn). auto.
      + rewrite lookup_insert_ne by congruence. auto.
  Qed.
  Lemma inv_drop_wt M W (W' : nat -> Prop) L s : inv M W L s -> (forall a, W' a -> W a) -> inv M W' L s.
  Proof. intros [H1 H2 H3 H4 H5] HW. split; auto. Qed.
  Lemma inv_wt_insert M W L s a n n' : inv M W L s -> heap s !! a = Some n ->
    (mov n -> mov n') -> (both n -> both n') -> is_Some (j_wt_cache (n_joint n')) ->
    inv M (fun b => W b \/ b = a) L (set_heap s (<[a := n']> (heap s))).
  Proof.
    intros HI Hn Hm Hb Hw. pose proof (inv_put M W L s a n n' HI Hn Hm Hb (fun _ => Hw)) as [H1 H2 H3 H4 H5].
    split; auto. intros b [Hb'| ->]; [auto|]. exists n'. cbn. rewrite lookup_insert. auto.
  Qed.

  Lemma ok_mimic_parent a s : poison s = ∅ ->
    ok (node_mimic_parent a) s (fun om s' => s' = s /\
      (is_Some om -> exists n, heap s !! a = Some n /\ is_Some (n_mimic_parent n))).
  Proof.
    intros Hp. unfold node_mimic_parent. apply ok_bind. apply ok_lock; [assumption|]. intros Hl _.
    apply ok_bind. apply ok_get. intros n Hn.
    assert (E : set_locks (set_locks s (<[a := t]> (locks s))) (delete a (locks (set_locks s (<[a := t]> (locks s))))) = s).
    { unfold set_locks. cbn. rewrite delete_insert by assumption. destruct s; reflexivity. }
    destruct (n_mimic_parent n) as [w|] eqn:Em; [apply ok_bind, ok_upgrade|]; apply ok_bind, ok_unlock, ok_ret; rewrite E.
    - split; [reflexivity|]. intros _. exists n. cbn in Hn. rewrite Em. eauto.
    - split; [reflexivity|]. intros [? ?]. discriminate.
  Qed.

  Section Inv.
    Variables (M W : nat -> Prop).
    Definition keeps {A} L (p : prog T A) : Prop := forall s, inv M W L s -> ok p s (fun _ s' => inv M W L s').
    Lemma keeps_bind {A B} L (p : prog T A) (f : A -> prog T B) :
      keeps L p -> (forall x, keeps L (f x)) -> keeps L (bind p f).
    Proof. intros Hp Hf s Hs. apply ok_bind. eapply ok_mono; [apply Hp; exact Hs|]. cbv beta. intros. apply Hf. assumption. Qed.
    Lemma keeps_ret {A} L (x : A) : keeps L (Ret x).
    Proof. intros s Hs. apply ok_ret. exact Hs. Qed.
    Lemma keeps_panic {A} m : keeps (A := A) ∅ (Panic m).
    Proof. intros s Hs. apply ok_panic; apply Hs. Qed.
    Lemma keeps_nofuel {A} L : keeps (A := A) L NoFuel.
    Proof. intros s Hs. exact I. Qed.
    Lemma keeps_read {A} L a (f : node T -> A) : keeps L (read a f).
    Proof. intros s Hs. apply ok_read; [apply Hs|]. intros. exact Hs. Qed.
    Lemma keeps_expect {A} (o : option A) m : keeps ∅ (expect o m).
    Proof. intros s Hs. apply ok_expect; [apply Hs|apply Hs|]. intros. exact Hs. Qed.
    Lemma keeps_assert b m : keeps ∅ (assert_ b m).
    Proof. intros s Hs. apply ok_assert; [apply Hs|apply Hs|]. exact Hs. Qed.
    Lemma keeps_modify L a (f : node T -> node T) :
      (forall n, mov n -> mov (f n)) -> (forall n, both n -> both (f n)) ->
      (forall n, W a -> is_Some (j_wt_cache (n_joint n)) -> is_Some (j_wt_cache (n_joint (f n)))) ->
      keeps L (modify a f).
    Proof.
      intros H1 H2 H3 s Hs. apply ok_modify; [apply Hs|]. intros n Hn. eapply inv_put; eauto.
      intros Hw. apply H3; [assumption|]. destruct (i_wt _ _ _ _ Hs a Hw) as (m & Hm & Hx). congruence.
    Qed.
    Lemma keeps_new L n : both n -> keeps L (new n).
    Proof. intros Hn s Hs. apply ok_new. apply inv_alloc; assumption. Qed.
    Lemma keeps_upgrade L a : keeps L (upgrade a).
    Proof. intros s Hs. exact Hs. Qed.
    (** a critical section *)
    Lemma keeps_section {A} L a (k : node T -> prog T A) :
      (L !! a = None -> forall n, both n -> (M a -> mov n) -> (W a -> is_Some (j_wt_cache (n_joint n))) ->
         keeps (<[a := t]> L) (k n)) ->
      forall (f : A -> prog T A), (forall x, f x = Ret x) ->
      keeps L (lock a ;;; n <- get a ;; x <- k n ;; unlock a ;;; f x).
    Proof.
      intros Hk f Hf s Hs. apply ok_bind. apply ok_lock; [apply Hs|]. intros Hl _.
      assert (HL : L !! a = None) by (rewrite <- (i_locks _ _ _ _ Hs); exact Hl).
      pose proof (inv_lock M W L s a Hs) as Hs1.
      apply ok_bind. apply ok_get. intros n Hn. apply ok_bind. eapply ok_mono.
      - apply (Hk HL n); [| | |exact Hs1].
        + apply (i_node _ _ _ _ Hs1 _ _ Hn).
        + intros Ha. destruct (i_mov _ _ _ _ Hs1 a Ha) as (m & Em & Hx). cbn in *. congruence.
        + intros Ha. destruct (i_wt _ _ _ _ Hs1 a Ha) as (m & Em & Hx). cbn in *. congruence.
      - cbv beta. intros x s' Hs'. apply ok_bind. apply ok_unlock. rewrite Hf. apply ok_ret. apply inv_unlock; assumption.
    Qed.
    Lemma keeps_mapM {A B} L (f : A -> prog T B) l : (forall x, x ∈ l -> keeps L (f x)) -> keeps L (mapM f l).
    Proof.
      induction l as [|x l IH]; intros H; cbn [mapM]; [apply keeps_ret|].
      apply keeps_bind; [apply H; set_solver|]. intros y. apply keeps_bind; [apply IH; set_solver|]. intros. apply keeps_ret.
    Qed.
    Lemma keeps_forM {A} L (f : A -> prog T unit) l : (forall x, x ∈ l -> keeps L (f x)) -> keeps L (forM_ f l).
    Proof.
      induction l as [|x l IH]; intros H; cbn [forM_]; [apply keeps_ret|].
      apply keeps_bind; [apply H; set_solver|]. intros _. apply IH; set_solver.
    Qed.
    Lemma keeps_filterM {A} L (f : A -> prog T bool) l : (forall x, keeps L (f x)) -> keeps L (filterM f l).
    Proof.
      intros H. induction l as [|x l IH]; cbn [filterM]; [apply keeps_ret|].
      apply keeps_bind; [apply H|]. intros y. apply keeps_bind; [exact IH|]. intros. apply keeps_ret.
    Qed.
    Lemma keeps_findM {A} L (f : A -> prog T bool) l : (forall x, keeps L (f x)) -> keeps L (findM f l).
    Proof.
      intros H. induction l as [|x l IH]; cbn [findM]; [apply keeps_ret|].
      apply keeps_bind; [apply H|]. intros []; [apply keeps_ret|exact IH].
    Qed.
    Lemma keeps_positionM {A} L (f : A -> prog T bool) l : (forall x, keeps L (f x)) -> keeps L (positionM f l).
    Proof.
      intros H. induction l as [|x l IH]; cbn [positionM]; [apply keeps_ret|].
      apply keeps_bind; [apply H|]. intros []; [apply keeps_ret|]. apply keeps_bind; [exact IH|]. intros. apply keeps_ret.
    Qed.
    Lemma keeps_forM_try {A} L (f : A -> prog T (result T unit)) l : (forall x, keeps L (f x)) -> keeps L (forM_try f l).
    Proof.
      intros H. induction l as [|x l IH]; cbn [forM_try]; [apply keeps_ret|].
      apply keeps_bind; [apply H|]. intros []; [exact IH|apply keeps_ret].
    Qed.

    (** ** nodes *)
    Lemma keeps_parent L a : keeps L (node_parent a).
    Proof.
      intros s Hs. unfold node_parent. apply ok_bind. apply ok_lock; [apply Hs|]. intros Hl _.
      assert (HL : L !! a = None) by (rewrite <- (i_locks _ _ _ _ Hs); exact Hl).
      pose proof (inv_lock M W L s a Hs) as Hs1. apply ok_bind. apply ok_get. intros n Hn.
      destruct (n_parent n); [apply ok_bind, ok_upgrade|]; apply ok_bind, ok_unlock, ok_ret; apply inv_unlock; assumption.
    Qed.
    Lemma keeps_mimic_parent L a : keeps L (node_mimic_parent a).
    Proof.
      intros s Hs. unfold node_mimic_parent. apply ok_bind. apply ok_lock; [apply Hs|]. intros Hl _.
      assert (HL : L !! a = None) by (rewrite <- (i_locks _ _ _ _ Hs); exact Hl).
      pose proof (inv_lock M W L s a Hs) as Hs1. apply ok_bind. apply ok_get. intros n Hn.
      destruct (n_mimic_parent n); [apply ok_bind, ok_upgrade|]; apply ok_bind, ok_unlock, ok_ret; apply inv_unlock; assumption.
    Qed.
    Lemma keeps_set_parent L a b : keeps L (node_set_parent a b).
    Proof. apply keeps_bind; [|intros _]; apply keeps_modify; auto. Qed.
    Lemma keeps_remove_parent L a b : keeps L (node_remove_parent a b).
    Proof. apply keeps_bind; [|intros _]; apply keeps_modify; auto. Qed.
    Lemma keeps_set_mimic_parent L a b m : keeps L (node_set_mimic_parent a b m).
    Proof.
      intros s Hs. unfold node_set_mimic_parent. apply ok_bind, ok_modify; [apply Hs|]. intros n Hn.
      apply ok_bind, ok_modify; [apply Hs|]. intros n1 Hn1. apply ok_modify; [apply Hs|]. intros n2 Hn2. cbn in *.
      (* the intermediate states break [both]; compare the last one with the first *)
      assert (Hb : inv M W L (set_heap s (<[a := set_n_mimic (set_n_mimic_parent n (Some b)) (Some m)]> (heap s)))).
      { eapply inv_put; eauto.
        - intros Hb _. cbn. eauto.
        - intros Hw. destruct (i_wt _ _ _ _ Hs a Hw) as (m' & Hm' & Hx). cbn. congruence. }
      destruct (decide (b = a)) as [->|Hne].
      - rewrite lookup_insert in Hn1. injection Hn1 as <-. rewrite lookup_insert in Hn2. injection Hn2 as <-.
        unfold set_heap in *. cbn in *. rewrite !insert_insert.
        apply (inv_put M W L s a n); [assumption|assumption|auto| |].
        + intros H _. cbn. eauto.
        + intros Hw. destruct (i_wt _ _ _ _ Hs a Hw) as (m' & Hm' & Hx). cbn. congruence.
      - rewrite lookup_insert_ne in Hn1 by congruence. rewrite lookup_insert_ne in Hn2 by congruence.
        rewrite lookup_insert in Hn2. injection Hn2 as <-. unfold set_heap in *. cbn in *.
        rewrite (insert_commute _ a b) by congruence. rewrite insert_insert.
        apply (inv_put M W L _ b n1) with (n' := set_n_mimic_children n1 (n_mimic_children n1 ++ [a])) in Hb;
          [exact Hb|cbn; rewrite lookup_insert_ne by congruence; exact Hn1|auto|auto|].
        intros Hw. destruct (i_wt _ _ _ _ Hs b Hw) as (m' & Hm' & Hx). cbn. congruence.
    Qed.
    Lemma keeps_set_link L a l : keeps L (node_set_link a l).
    Proof. apply keeps_modify; auto. Qed.
    Lemma keeps_ancestors L fuel : forall it, keeps L (ancestors_collect fuel it).
    Proof.
      induction fuel as [|fuel IH]; intros it; cbn [ancestors_collect]; [apply keeps_nofuel|].
      apply keeps_bind.
      - destruct it; cbn [ancestors_next]; [apply keeps_bind; [apply keeps_parent|intros; apply keeps_ret]|apply keeps_ret].
      - intros [[x it']|]; [|apply keeps_ret]. apply keeps_bind; [apply IH|]. intros. apply keeps_ret.
    Qed.
    Lemma keeps_ancestors_until L fuel r : forall it, keeps L (ancestors_until fuel it r).
    Proof.
      induction fuel as [|fuel IH]; intros it; cbn [ancestors_until]; [apply keeps_nofuel|].
      apply keeps_bind.
      - destruct it; cbn [ancestors_next]; [apply keeps_bind; [apply keeps_parent|intros; apply keeps_ret]|apply keeps_ret].
      - intros [[x it']|]; [|apply keeps_ret]. destruct (decide _); [apply keeps_ret|].
        apply keeps_bind; [apply IH|]. intros. apply keeps_ret.
    Qed.
    Lemma keeps_descendants L fuel : forall st, keeps L (descendants_collect fuel st).
    Proof.
      induction fuel as [|fuel IH]; intros st; cbn [descendants_collect]; [apply keeps_nofuel|].
      apply keeps_bind.
      - destruct st; cbn [descendants_next]; [apply keeps_ret|apply keeps_bind; [apply keeps_read|intros; apply keeps_ret]].
      - intros [[x st']|]; [|apply keeps_ret]. apply keeps_bind; [apply IH|]. intros. apply keeps_ret.
    Qed.

    (** ** chains *)
    Lemma keeps_links L l : keeps L (links_loop l).
    Proof.
      induction l as [|a l IH]; cbn [links_loop]; [apply keeps_ret|].
      intros s Hs. apply ok_bind. apply ok_read; [apply Hs|]. intros n Hn.
      destruct (n_link n) as [x|] eqn:E; [|apply IH; exact Hs].
      apply ok_bind. apply ok_lock; [apply Hs|]. intros Hl _.
      assert (HL : L !! a = None) by (rewrite <- (i_locks _ _ _ _ Hs); exact Hl).
      pose proof (inv_lock M W L s a Hs) as Hs1. apply ok_bind. apply ok_get. intros n' Hn'.
      assert (n' = n) as -> by (cbn in Hn'; congruence). rewrite E. cbn [expect]. apply ok_bind. apply ok_ret.
      apply ok_bind. apply ok_unlock. apply ok_bind. eapply ok_mono; [apply IH; apply inv_unlock; assumption|].
      cbv beta. intros. apply ok_ret. assumption.
    Qed.
    Lemma keeps_iter_joints {A} L c (f : joint T -> prog T A) :
      (forall a n, a ∈ c_movable c -> L !! a = None -> (M a -> mov n) ->
         (W a -> is_Some (j_wt_cache (n_joint n))) -> keeps (<[a := t]> L) (f (n_joint n))) ->
      keeps L (iter_joints c f).
    Proof.
      intros Hf. apply keeps_mapM. intros a Ha.
      apply (keeps_section L a (fun n => f (n_joint n))) with (f := Ret); [|reflexivity]. intros HL n _ Hm Hw. eapply Hf; eauto.
    Qed.
    Lemma keeps_joint_positions L c : (forall a, a ∈ c_movable c -> M a) -> keeps L (joint_positions c).
    Proof.
      intros HM. apply keeps_iter_joints. intros a n Ha _ Hm _. specialize (Hm (HM a Ha)). unfold mov, is_movable in Hm.
      unfold joint_position. destruct (j_type (n_joint n)); [discriminate|apply keeps_ret|apply keeps_ret].
    Qed.
    Lemma keeps_end_fold L l : forall acc, keeps L (end_fold acc l).
    Proof.
      induction l as [|a l IH]; intros acc; cbn [end_fold]; [apply keeps_ret|].
      apply keeps_bind; [apply keeps_read|]. intros. apply IH.
    Qed.
    Lemma keeps_world_transform L a : keeps L (node_world_transform a).
    Proof. apply keeps_read. Qed.
    Lemma keeps_pwt L a : keeps L (parent_world_transform a).
    Proof. apply keeps_bind; [apply keeps_parent|]. intros [p|]; [apply keeps_read|apply keeps_ret]. Qed.
    Lemma keeps_pwv L a : keeps L (parent_world_velocity a).
    Proof. apply keeps_bind; [apply keeps_parent|]. intros [p|]; [apply keeps_read|apply keeps_ret]. Qed.
    Lemma keeps_update_link a : keeps ∅ (update_link_transform a).
    Proof.
      apply keeps_bind; [apply keeps_pwt|]. intros o. apply keeps_bind; [apply keeps_expect|]. intros pt.
      apply keeps_modify; auto.
    Qed.
    Lemma keeps_all_one_child L l : keeps L (all_one_child l).
    Proof.
      induction l as [|a l IH]; cbn [all_one_child]; [apply keeps_ret|].
      apply keeps_bind; [apply keeps_read|]. intros ch. destruct (decide _); [exact IH|apply keeps_ret].
    Qed.
    Lemma keeps_usize_sub ovf a b : keeps ∅ (usize_sub (T := T) ovf a b).
    Proof. unfold usize_sub. destruct (decide _); [apply keeps_ret|]. destruct ovf; [apply keeps_panic|apply keeps_ret]. Qed.
    Lemma keeps_fmt L fuel nodes : forall a level, keeps L (fmt_with_indent_level fuel nodes a level).
    Proof.
      revert L. induction fuel as [|fuel IH]; intros L a level; cbn [fmt_with_indent_level]; [apply keeps_nofuel|].
      apply keeps_bind.
      - destruct (decide _); [apply keeps_bind; [apply keeps_read|intros; apply keeps_ret]|apply keeps_ret].
      - intros line. intros s Hs. apply ok_bind. apply ok_lock; [apply Hs|]. intros Hl _.
        assert (HL : L !! a = None) by (rewrite <- (i_locks _ _ _ _ Hs); exact Hl).
        pose proof (inv_lock M W L s a Hs) as Hs1. apply ok_bind. apply ok_get. intros n Hn. apply ok_bind.
        eapply ok_mono; [apply (keeps_mapM (<[a := t]> L)); [intros; apply IH|exact Hs1]|]. cbv beta. intros x s' Hs'.
        apply ok_bind, ok_unlock, ok_ret. apply inv_unlock; assumption.
    Qed.
    (** the steps of cloning *)
    Lemma keeps_clone_node L a : keeps L (clone_node a).
    Proof.
      intros s Hs. unfold clone_node. apply ok_bind. apply ok_lock; [apply Hs|]. intros Hl _.
      assert (HL : L !! a = None) by (rewrite <- (i_locks _ _ _ _ Hs); exact Hl).
      pose proof (inv_lock M W L s a Hs) as Hs1. apply ok_bind. apply ok_get. intros n Hn.
      apply ok_bind. eapply ok_mono; [apply (keeps_new (<[a := t]> L) (fresh_node (n_joint n))); [intros [? ?]; discriminate|exact Hs1]|].
      cbv beta. intros nn s2 Hs2. apply ok_bind, ok_unlock. apply (inv_unlock M W L) in Hs2; [|assumption].
      apply ok_bind. apply ok_lock; [apply Hs2|]. intros _ _.
      pose proof (inv_lock M W L _ a Hs2) as Hs3. apply ok_bind. apply ok_get. intros n' Hn'. apply ok_bind.
      eapply ok_mono; [apply (keeps_set_link (<[a := t]> L)); exact Hs3|].
      cbv beta. intros _ s4 Hs4. apply ok_bind, ok_unlock, ok_ret. apply inv_unlock; assumption.
    Qed.
    Lemma keeps_clone_connect nodes news ana : keeps ∅ (clone_connect nodes news ana).
    Proof.
      unfold clone_connect. cbv zeta. apply keeps_bind; [apply keeps_parent|]. intros op. apply keeps_bind.
      - destruct op as [p|]; [|apply keeps_ret]. apply keeps_bind; [apply keeps_expect|]. intros i.
        apply keeps_bind; [apply keeps_expect|]. intros np. apply keeps_set_parent.
      - intros _ s Hs. apply ok_bind. eapply ok_mono; [apply (ok_mimic_parent _ _ (i_poison _ _ _ _ Hs))|].
        cbv beta. intros om s' [-> Hom]. destruct om as [m|]; [|apply ok_ret; exact Hs].
        destruct (Hom ltac:(eauto)) as (n & Hn & Hmp). clear Hom.
        apply ok_bind. apply ok_expect; [apply Hs|apply Hs|]. intros i _. apply ok_bind. apply ok_expect; [apply Hs|apply Hs|].
        intros nm _. apply ok_bind. apply ok_lock; [apply Hs|]. intros Hl _.
        pose proof (inv_lock M W ∅ s (fst ana) Hs) as Hs1. apply ok_bind. apply ok_get. intros n' Hn'.
        assert (n' = n) as -> by (cbn in Hn'; congruence).
        destruct (i_node _ _ _ _ Hs _ _ Hn) as [_ Hb]. destruct (Hb Hmp) as [mi ->]. cbn [expect]. apply ok_bind, ok_ret.
        apply ok_bind. eapply ok_mono; [apply (keeps_set_mimic_parent _ _ _ mi _ Hs1)|]. cbv beta. intros _ s2 Hs2.
        apply ok_unlock. apply inv_unlock; [apply lookup_empty|assumption].
    Qed.
    (** ** linear algebra of the solver: no node is touched *)
    Lemma keeps_remove_nth {A} i (l : list A) : keeps ∅ (remove_nth i l).
    Proof. unfold remove_nth. destruct (decide _); [apply keeps_ret|apply keeps_panic]. Qed.
    Lemma keeps_insert_nth {A} i (x : A) l : keeps ∅ (insert_nth i x l).
    Proof. unfold insert_nth. destruct (decide _); [apply keeps_ret|apply keeps_panic]. Qed.
    Lemma keeps_remove_rows ovf ops : forall i r (m : mat T), keeps ∅ (remove_rows ovf i r ops m).
    Proof.
      induction ops as [|[] ops IH]; intros i r m; cbn [remove_rows]; [apply keeps_ret|apply IH|].
      apply keeps_bind; [apply keeps_usize_sub|]. intros k. destruct (decide _); [apply IH|apply keeps_panic].
    Qed.
    Lemma keeps_remove_columns {A} ovf idx : forall i (l : list A), keeps ∅ (remove_columns ovf i idx l).
    Proof.
      induction idx as [|j idx IH]; intros i l; cbn [remove_columns]; [apply keeps_ret|].
      apply keeps_bind; [apply keeps_usize_sub|]. intros k. apply keeps_bind; [apply keeps_remove_nth|]. intros. apply IH.
    Qed.
    Lemma keeps_insert_rows idx : forall l, keeps ∅ (insert_rows idx l).
    Proof.
      induction idx as [|j idx IH]; intros l; cbn [insert_rows]; [apply keeps_ret|].
      apply keeps_bind; [apply keeps_insert_nth|]. intros. apply IH.
    Qed.
    Lemma keeps_new_positions ovf la sv orig err jac av rq idx : keeps ∅ (new_positions ovf la sv orig err jac av rq idx).
    Proof.
      unfold new_positions. destruct (decide _).
      - destruct (nullspace_function sv).
        + apply keeps_bind; [apply keeps_expect|]. intros. apply keeps_bind; [apply keeps_expect|]. intros.
          apply keeps_bind; [apply keeps_remove_columns|]. intros. destruct (decide _); [|apply keeps_panic].
          cbv zeta. apply keeps_bind; [apply keeps_insert_rows|]. intros. apply keeps_ret.
        + apply keeps_bind; [apply keeps_expect|]. intros. apply keeps_bind; [apply keeps_insert_rows|]. intros. apply keeps_ret.
      - destruct (lu_solve la jac err); apply keeps_ret.
    Qed.
    Lemma keeps_ignored arm names : keeps ∅ (ignored_indices arm names).
    Proof.
      induction names as [|nm names IH]; cbn [ignored_indices]; [apply keeps_ret|].
      apply keeps_bind; [apply keeps_positionM; intros; apply keeps_read|]. intros [i|]; [|apply keeps_ret].
      apply keeps_bind; [exact IH|]. intros. apply keeps_ret.
    Qed.
  End Inv.

  (** ** calls that change the cached transforms *)
  Section Caches.
    Variable M : nat -> Prop.
    Lemma ok_update_transform W a s : inv M W ∅ s -> ok (update_transform a) s (fun _ s' => inv M (fun b => W b \/ b = a) ∅ s').
    Proof.
      intros Hs. unfold update_transform. apply ok_bind. eapply ok_mono; [apply keeps_pwt; exact Hs|]. cbv beta. intros o s1 Hs1.
      apply ok_bind. apply ok_expect; [apply Hs1|apply Hs1|]. intros pt _. apply ok_bind. apply ok_read; [apply Hs1|].
      intros n Hn. apply ok_bind. apply ok_modify; [apply Hs1|]. intros n' Hn'. apply ok_ret.
      eapply inv_wt_insert; eauto.
    Qed.
    Lemma ok_update_transforms W l : forall s, inv M W ∅ s ->
      ok (mapM update_transform l) s (fun _ s' => inv M (fun b => W b \/ b ∈ l) ∅ s').
    Proof.
      revert W. induction l as [|a l IH]; intros W s Hs; cbn [mapM].
      - apply ok_ret. eapply inv_drop_wt; [exact Hs|]. intros b [?|?]; [assumption|set_solver].
      - apply ok_bind. eapply ok_mono; [apply ok_update_transform; exact Hs|]. cbv beta. intros x s1 Hs1.
        apply ok_bind. eapply ok_mono; [apply IH; exact Hs1|]. cbv beta. intros y s2 Hs2. apply ok_ret.
        eapply inv_drop_wt; [exact Hs2|]. cbv beta. intros b [?|Hb]; [auto|]. apply elem_of_cons in Hb as [?|?]; auto.
    Qed.
    Notation K := (keeps M nil_).
    Lemma weak W L s : inv M W L s -> inv M nil_ L s.
    Proof. intros H. eapply inv_drop_wt; [exact H|]. intros a []. Qed.
    Lemma keeps_update_transforms c : K ∅ (update_transforms c).
    Proof. intros s Hs. eapply ok_mono; [apply ok_update_transforms; exact Hs|]. cbv beta. intros. eapply weak; eauto. Qed.
    Lemma keeps_jacobian c : (forall a, a ∈ c_movable c -> M a /\ a ∈ c_nodes c) -> K ∅ (jacobian c).
    Proof.
      intros HM s Hs. unfold jacobian. apply ok_bind. eapply ok_mono; [apply keeps_end_fold; exact Hs|]. cbv beta. intros tn s1 Hs1.
      apply ok_bind. eapply ok_mono; [apply (ok_update_transforms nil_ (c_nodes c)); exact Hs1|]. cbv beta zeta. intros _ s2 Hs2.
      apply ok_bind. eapply ok_mono; [apply (keeps_iter_joints M); [|exact Hs2]|].
      - intros a n Ha _ Hm Hw. destruct (HM a Ha) as [Ha1 Ha2]. destruct (Hw (or_intror Ha2)) as [ti ->]. cbn [expect].
        apply keeps_bind; [apply keeps_ret|]. intros x. specialize (Hm Ha1). unfold mov, is_movable in Hm. unfold jacobian_column.
        destruct (j_type (n_joint n)); [discriminate|apply keeps_ret|apply keeps_ret].
      - cbv beta. intros cols s3 Hs3. apply weak in Hs3. destruct (decide _); [apply ok_ret; exact Hs3|apply ok_panic; apply Hs3].
    Qed.
    Lemma mov_joint (n : node T) j : j_type j = j_type (n_joint n) -> mov n -> mov (set_n_joint n j).
    Proof. unfold mov, is_movable. cbn. intros ->. auto. Qed.
    Lemma type_joint_set j (p : T) : j_type (fst (joint_set j p)) = j_type j.
    Proof. unfold joint_set. destruct (negb _); [reflexivity|]. destruct (j_limits j); [destruct (negb _)|]; reflexivity. Qed.
    Lemma keeps_mimic_loop self p cs : forall L, K L (mimic_loop self p cs).
    Proof.
      induction cs as [|c cs IH]; intros L; cbn [mimic_loop]; [apply keeps_ret|].
      intros s Hs. apply ok_bind. apply ok_lock; [apply Hs|]. intros Hl _.
      assert (HL : L !! c = None) by (rewrite <- (i_locks _ _ _ _ Hs); exact Hl).
      pose proof (inv_lock M nil_ L s c Hs) as Hs1. apply ok_bind. apply ok_get. intros n Hn.
      destruct (n_mimic n) as [m|].
      - cbv zeta. apply ok_bind. apply ok_put.
        assert (Hs2 : inv M nil_ (<[c := t]> L) (set_heap (set_locks s (<[c := t]> (locks s)))
          (<[c := set_n_joint n (fst (joint_set (n_joint n) (mimic_position m p)))]> (heap (set_locks s (<[c := t]> (locks s))))))).
        { eapply inv_put; [exact Hs1|exact Hn| |auto|intros []]. apply mov_joint. apply type_joint_set. }
        destruct (snd _).
        + apply ok_bind, ok_unlock. apply IH. apply inv_unlock; assumption.
        + apply ok_bind, ok_unlock, ok_ret. apply inv_unlock; assumption.
      - apply ok_bind. eapply ok_mono; [apply keeps_read; exact Hs1|]. cbv beta. intros x s2 Hs2.
        apply ok_bind. eapply ok_mono; [apply keeps_read; exact Hs2|]. cbv beta. intros y s3 Hs3.
        apply ok_bind, ok_unlock, ok_ret. apply inv_unlock; assumption.
    Qed.
    Lemma keeps_set_position L a p : K L (node_set_joint_position a p).
    Proof.
      intros s Hs. unfold node_set_joint_position. apply ok_bind. apply ok_lock; [apply Hs|]. intros Hl _.
      assert (HL : L !! a = None) by (rewrite <- (i_locks _ _ _ _ Hs); exact Hl).
      pose proof (inv_lock M nil_ L s a Hs) as Hs1. apply ok_bind. apply ok_get. intros n Hn.
      destruct (n_mimic_parent n); [apply ok_bind, ok_unlock, ok_ret; apply inv_unlock; assumption|].
      cbv zeta. apply ok_bind. apply ok_put.
      assert (Hs2 : inv M nil_ (<[a := t]> L) (set_heap (set_locks s (<[a := t]> (locks s)))
        (<[a := set_n_joint n (fst (joint_set (n_joint n) p))]> (heap (set_locks s (<[a := t]> (locks s))))))).
      { eapply inv_put; [exact Hs1|exact Hn| |auto|intros []]. apply mov_joint. apply type_joint_set. }
      destruct (snd _).
      - apply ok_bind. eapply ok_mono; [apply keeps_mimic_loop; exact Hs2|]. cbv beta. intros r s3 Hs3.
        apply ok_bind, ok_unlock, ok_ret. apply inv_unlock; assumption.
      - apply ok_bind, ok_unlock, ok_ret. apply inv_unlock; assumption.
    Qed.
    Lemma keeps_set_clamped L a p : K L (node_set_joint_position_clamped a p).
    Proof.
      apply keeps_modify; [|auto|intros n []]. intros n. apply mov_joint. unfold joint_set_clamped.
      destruct (negb _); reflexivity.
    Qed.
    Lemma keeps_set_unchecked L a p : K L (node_set_joint_position_unchecked a p).
    Proof. apply keeps_modify; [|auto|intros n []]. intros n. apply mov_joint. reflexivity. Qed.
    Lemma keeps_set_positions c ps : K ∅ (set_joint_positions c ps).
    Proof. unfold set_joint_positions. destruct (decide _); [apply keeps_forM_try; intros; apply keeps_set_position|apply keeps_ret]. Qed.
    Lemma keeps_set_all_clamped c ps : K ∅ (set_joint_positions_clamped c ps).
    Proof. apply keeps_forM. intros. apply keeps_set_clamped. Qed.
    Lemma keeps_set_origin L a o : K L (node_set_origin a o).
    Proof. apply keeps_modify; [|auto|intros n []]. intros n. apply mov_joint. reflexivity. Qed.
    Lemma keeps_com c : K ∅ (center_of_mass c).
    Proof.
      unfold center_of_mass. apply keeps_bind; [apply keeps_update_transforms|]. intros _. apply keeps_bind; [|intros; apply keeps_ret].
      generalize (v0 : vec3 T, szero : T). induction (c_nodes c) as [|a l IH]; intros acc; cbn [com_loop]; [apply keeps_ret|].
      apply keeps_bind; [|intros; apply IH]. unfold com_step. apply keeps_bind; [apply keeps_read|].
      intros [w|]; [apply keeps_read|apply keeps_ret].
    Qed.
    Lemma keeps_update_velocity a : K ∅ (update_velocity a).
    Proof.
      unfold update_velocity. apply keeps_bind; [apply keeps_pwt|]. intros o. apply keeps_bind; [apply keeps_expect|]. intros ptf.
      apply keeps_bind; [apply keeps_pwv|]. intros o'. apply keeps_bind; [apply keeps_expect|]. intros pv.
      intros s Hs. apply ok_bind. apply ok_lock; [apply Hs|]. intros Hl Hn0.
      pose proof (inv_lock M nil_ ∅ s a Hs) as Hs1. apply ok_bind. apply ok_get. intros n Hn.
      assert (Hdead : forall {B} (k : prog T B) Q, ok (Lock a k) (set_locks s (<[a := t]> (locks s))) Q).
      { intros B k Q. unfold ok. cbn. cbn in Hn. rewrite Hn, lookup_insert. exact I. }
      apply ok_bind. unfold velocity_in_match. destruct (j_type (n_joint n)).
      - apply ok_ret. apply ok_bind, ok_unlock. apply inv_unlock in Hs1; [|apply lookup_empty].
        apply ok_bind. eapply ok_mono; [apply (keeps_modify M nil_ ∅); [|auto|intros ? []|exact Hs1]|].
        + intros n1. apply mov_joint. reflexivity.
        + cbv beta. intros. apply ok_ret. assumption.
      - unfold node_parent, lock. cbn [bind]. apply Hdead.
      - unfold node_world_transform, read. cbn [bind]. apply Hdead.
    Qed.

    (** ** calls that give chains *)
    Definition honest s (c : chain) : Prop :=
      forall a, a ∈ c_movable c -> a ∈ c_nodes c /\ exists n, heap s !! a = Some n /\ mov n.
    Definition gives (p : prog T chain) : Prop :=
      forall s, inv M nil_ ∅ s -> ok p s (fun c s' => inv M nil_ ∅ s' /\ honest s' c).
    Lemma gives_bind {A} (p : prog T A) f : K ∅ p -> (forall x, gives (f x)) -> gives (bind p f).
    Proof. intros Hp Hf s Hs. apply ok_bind. eapply ok_mono; [apply Hp; exact Hs|]. cbv beta. intros. apply Hf. assumption. Qed.
    Lemma gives_from_nodes l : gives (from_nodes l).
    Proof.
      intros s Hs. unfold from_nodes. apply ok_bind.
      assert (H : ok (filterM (fun a => read a (fun n : node T => is_movable (n_joint n))) l) s
        (fun ys s' => s' = s /\ forall a, a ∈ ys -> a ∈ l /\ exists n, heap s !! a = Some n /\ mov n)).
      { induction l as [|x l IH]; cbn [filterM].
        - apply ok_ret. split; [reflexivity|]. intros a Ha. set_solver.
        - apply ok_bind. apply ok_read; [apply Hs|]. intros n Hn. apply ok_bind. eapply ok_mono; [exact IH|].
          cbv beta. intros ys s' [-> Hys]. apply ok_ret. split; [reflexivity|]. intros a Ha.
          destruct (is_movable (n_joint n)) eqn:E.
          + apply elem_of_cons in Ha as [->|Ha]; [split; [left|]; exists n; split; [assumption|exact E]|].
            destruct (Hys a Ha) as [H1 H2]. split; [right; assumption|assumption].
          + destruct (Hys a Ha) as [H1 H2]. split; [right; assumption|assumption]. }
      eapply ok_mono; [exact H|]. cbv beta. intros ys s' [-> Hys]. apply ok_ret. split; [exact Hs|]. intros a Ha. cbn in Ha. apply Hys. exact Ha.
    Qed.
    Lemma gives_from_root fuel a : gives (from_root fuel a).
    Proof. apply gives_bind; [apply keeps_descendants|intros; apply gives_from_nodes]. Qed.
    Lemma gives_clone fuel c : gives (chain_clone fuel c).
    Proof.
      unfold chain_clone. destruct (c_nodes c) as [|a0 l].
      { intros s Hs. apply ok_ret. split; [exact Hs|]. intros a Ha. cbn in Ha. set_solver. }
      apply gives_bind; [apply keeps_read|]. intros b. apply gives_bind; [apply keeps_assert|]. intros _.
      apply gives_bind; [apply keeps_mapM; intros; apply keeps_clone_node|]. intros news.
      apply gives_bind; [apply keeps_forM; intros; apply keeps_clone_connect|]. intros _.
      apply gives_bind; [apply keeps_expect|]. intros na0.
      apply gives_bind; [apply keeps_read|]. intros b'. apply gives_bind; [apply keeps_assert|]. intros _.
      apply gives_from_root.
    Qed.

    (** ** the solver *)
    Section Solver.
      Variables (ovf : bool) (la : linalg T) (sv : solver T) (arm : chain) (target : iso T).
      Hypothesis HM : forall a, a ∈ c_movable arm -> M a /\ a ∈ c_nodes arm.
      Lemma keeps_one_loop ops idx : K ∅ (solve_one_loop_with_constraints ovf la sv arm target ops idx).
      Proof.
        unfold solve_one_loop_with_constraints. cbv zeta.
        apply keeps_bind; [apply keeps_joint_positions; intros; apply HM; assumption|]. intros orig.
        apply keeps_bind; [apply keeps_usize_sub|]. intros av. apply keeps_bind; [apply keeps_end_fold|]. intros tn.
        apply keeps_bind; [apply keeps_jacobian; exact HM|]. intros jac. apply keeps_bind; [apply keeps_remove_rows|]. intros jac'.
        apply keeps_bind; [apply keeps_remove_columns|]. intros cols. apply keeps_bind; [apply keeps_new_positions|].
        intros [ps|e]; [|apply keeps_ret]. apply keeps_bind; [apply keeps_set_all_clamped|]. intros _.
        apply keeps_bind; [apply keeps_end_fold|]. intros. apply keeps_ret.
      Qed.
      Lemma keeps_ik_loop ops idx orig n : forall last, K ∅ (ik_loop ovf la sv arm target ops idx orig n last).
      Proof.
        induction n as [|n IH]; intros last; cbn [ik_loop].
        - apply keeps_bind; [apply keeps_set_positions|]. intros [u|e]; [|apply keeps_ret].
          apply keeps_bind; [apply keeps_expect|]. intros. apply keeps_ret.
        - apply keeps_bind; [apply keeps_one_loop|]. intros [d|e]; [|apply keeps_ret]. cbv zeta.
          destruct (reached _ _); [|apply IH]. apply keeps_bind; [apply keeps_joint_positions; intros; apply HM; assumption|].
          intros ps. apply keeps_bind; [apply keeps_set_all_clamped|]. intros. apply keeps_ret.
      Qed.
      Lemma keeps_solve cs : K ∅ (solve_with_constraints ovf la sv arm target cs).
      Proof.
        unfold solve_with_constraints. apply keeps_bind; [apply keeps_joint_positions; intros; apply HM; assumption|]. intros orig.
        apply keeps_bind.
        - unfold solve_with_constraints_internal. cbv zeta.
          apply keeps_bind; [apply keeps_joint_positions; intros; apply HM; assumption|]. intros orig'.
          apply keeps_bind; [apply keeps_usize_sub|]. intros av. destruct (decide _); [apply keeps_ret|].
          apply keeps_bind; [apply keeps_ignored|]. intros [idx|e]; [apply keeps_ik_loop|apply keeps_ret].
        - intros re. destruct (is_err re); [|apply keeps_ret]. apply keeps_bind; [apply keeps_set_positions|].
          intros [u|e]; apply keeps_ret.
      Qed.
    End Solver.
  End Caches.

  (** ** one call *)
  Definition movable_of (C : chain -> Prop) (a : nat) : Prop := exists c, C c /\ a ∈ c_movable c.
  Definition good (C : chain -> Prop) s : Prop :=
    inv (movable_of C) nil_ ∅ s /\ forall c, C c -> forall a, a ∈ c_movable c -> a ∈ c_nodes c.
  Lemma good_weaken (C C' : chain -> Prop) s : (forall c, C' c -> C c) -> good C s -> good C' s.
  Proof.
    intros HC [[H1 H2 H3 H4 H5] H6]. split; [split|]; auto.
    intros a (c & Hc & Ha). apply H3. exists c. auto.
  Qed.
  Lemma ok_keeps {A} C (p : prog T A) s (C' : A -> chain -> Prop) :
    keeps (movable_of C) nil_ ∅ p -> (forall x c, C' x c -> C c) -> good C s -> ok p s (fun x s' => good (C' x) s').
  Proof.
    intros Hp HC [Hs Hn]. eapply ok_mono; [apply Hp; exact Hs|]. cbv beta. intros x s' Hs'.
    apply (good_weaken C); [apply HC|]. split; assumption.
  Qed.
  Lemma ok_gives C (p : prog T chain) s :
    gives (movable_of C) p -> good C s -> ok p s (fun x s' => good (fun c => C c \/ c ∈ [x]) s').
  Proof.
    intros Hp [Hs Hn]. eapply ok_mono; [apply Hp; exact Hs|]. cbv beta. intros x s' [[H1 H2 H3 H4 H5] Hx]. split; [split|]; auto.
    - intros a (c & [Hc|Hc] & Ha); [apply H3; exists c; auto|]. apply elem_of_list_singleton in Hc as ->. apply Hx. assumption.
    - intros c [Hc|Hc]; [auto|]. apply elem_of_list_singleton in Hc as ->. intros a Ha. apply Hx. assumption.
  Qed.
  Lemma ok_call {R} (k : api T R) (C : chain -> Prop) s : (forall c, c ∈ chains_in k -> C c) -> good C s ->
    ok (interp k) s (fun r s' => good (fun c => C c \/ c ∈ chains_out k r) s').
  Proof.
    intros HC Hs.
    assert (HM : forall c, C c -> forall a, a ∈ c_movable c -> movable_of C a /\ a ∈ c_nodes c).
    { intros c Hc a Ha. split; [exists c; auto|]. eapply Hs; eauto. }
    assert (Hone : forall c, (forall c', c' ∈ [c] -> C c') -> C c) by (intros c H; apply H; set_solver).
    destruct k; cbn [interp chains_in chains_out] in *; try (specialize (Hone _ HC));
      first
      [ apply (ok_keeps C); [|intros ? ? [?|?]; [assumption|set_solver]|exact Hs];
        first [ apply keeps_read | apply keeps_parent | apply keeps_mimic_parent | apply keeps_ancestors
              | apply keeps_descendants | apply keeps_set_parent | apply keeps_remove_parent | apply keeps_set_origin
              | apply keeps_set_position | apply keeps_set_clamped | apply keeps_set_unchecked | apply keeps_set_mimic_parent
              | apply keeps_set_link | apply keeps_set_positions | apply keeps_set_all_clamped | apply keeps_update_transforms
              | apply keeps_links | apply keeps_end_fold | apply keeps_com ]
      | apply ok_gives; [|exact Hs]; first [apply gives_from_nodes | apply gives_from_root | apply gives_clone]
      | idtac ].
    - apply (ok_keeps C); [|intros ? ? [?|?]; [assumption|set_solver]|exact Hs]. apply keeps_new. intros [? ?]. discriminate.
    - apply ok_gives; [|exact Hs]. apply gives_bind; [apply keeps_ancestors|intros; apply gives_from_nodes].
    - apply ok_gives; [|exact Hs]. apply gives_bind; [apply keeps_ancestors_until|intros; apply gives_from_nodes].
    - apply (ok_keeps C); [|intros ? ? [?|?]; [assumption|set_solver]|exact Hs]. apply keeps_bind; [apply keeps_expect|intros; apply keeps_set_origin].
    - apply (ok_keeps C); [|intros ? ? [?|?]; [assumption|set_solver]|exact Hs]. apply keeps_bind; [apply keeps_expect|intros; apply keeps_read].
    - apply (ok_keeps C); [|intros ? ? [?|?]; [assumption|set_solver]|exact Hs]. apply keeps_iter_joints. intros. apply keeps_ret.
    - apply (ok_keeps C); [|intros ? ? [?|?]; [assumption|set_solver]|exact Hs]. apply keeps_findM. intros. apply keeps_read.
    - apply (ok_keeps C); [|intros ? ? [?|?]; [assumption|set_solver]|exact Hs]. apply keeps_joint_positions. intros. eapply HM; eauto.
    - apply (ok_keeps C); [|intros ? ? [?|?]; [assumption|set_solver]|exact Hs]. apply keeps_forM. intros. apply keeps_set_unchecked.
    - apply (ok_keeps C); [|intros ? ? [?|?]; [assumption|set_solver]|exact Hs].
      apply keeps_bind; [apply keeps_update_transforms|]. intros _. apply keeps_mapM. intros. apply keeps_update_velocity.
    - apply (ok_keeps C); [|intros ? ? [?|?]; [assumption|set_solver]|exact Hs].
      apply keeps_bind; [apply keeps_update_transforms|]. intros _. apply keeps_forM. intros. apply keeps_update_link.
    - apply (ok_keeps C); [|intros ? ? [?|?]; [assumption|set_solver]|exact Hs].
      apply keeps_bind; [apply keeps_expect|]. intros. apply keeps_fmt.
    - unfold try_new. apply ok_bind. eapply ok_mono; [apply (ok_keeps C _ _ (fun _ => C)); [apply keeps_usize_sub|auto|exact Hs]|].
      cbv beta. intros k s1 Hs1. apply ok_bind. eapply ok_mono; [apply (ok_keeps C _ _ (fun _ => C)); [apply keeps_all_one_child|auto|exact Hs1]|].
      cbv beta. intros b s2 Hs2. apply ok_ret. apply (good_weaken C); [|exact Hs2]. intros c' [Hc'|Hc']; [assumption|].
      destruct b; [apply elem_of_list_singleton in Hc' as ->; assumption|set_solver].
    - apply (ok_keeps C); [|intros ? ? [?|?]; [assumption|set_solver]|exact Hs]. apply keeps_jacobian. apply HM. assumption.
    - apply (ok_keeps C); [|intros ? ? [?|?]; [assumption|set_solver]|exact Hs]. apply keeps_solve. apply HM. assumption.
    - apply (ok_keeps C); [|intros ? ? [?|?]; [assumption|set_solver]|exact Hs]. apply keeps_solve. apply HM. assumption.
  Qed.
  Lemma ok_client {A} (cl : client T A) : forall C s, real_chains C cl -> good C s ->
    ok (denote cl) s (fun _ s' => locks s' = ∅ /\ poison s' = ∅).
  Proof.
    induction cl as [x|R k next IH]; intros C s Hc Hs; cbn [denote real_chains] in *.
    - apply ok_ret. split; apply Hs.
    - destruct Hc as [H1 H2]. apply ok_bind. eapply ok_mono; [apply ok_call; [exact H1|exact Hs]|]. cbv beta.
      intros r s' Hs'. eapply IH; [apply H2|exact Hs'].
  Qed.
End Clean.

Section Start.
  Context {T : Type} `{Sc : Scalar T}.
  Implicit Types (h : gmap nat (node T)).

  Lemma good_start h nx (C : chain -> Prop) : heap_ok h nx -> mimic_both h ->
    (forall c, C c -> exists l, chain_of h l c) -> good C (quiet h nx).
  Proof.
    intros Hok Hm HC.
    assert (Hf : forall c a, C c -> a ∈ c_movable c -> a ∈ c_nodes c /\ node_movable h a = true).
    { intros c a Hc Ha. destruct (HC c Hc) as (l & E1 & E2 & _). rewrite E2 in Ha. rewrite E1.
      rewrite elem_of_list_In in Ha. apply filter_In in Ha. rewrite elem_of_list_In. exact Ha. }
    split.
    - split; cbn; try reflexivity.
      + intros a (c & Hc & Ha). destruct (Hf c a Hc Ha) as [_ E]. unfold node_movable in E.
        destruct (h !! a) as [n|]; [|discriminate]. exists n. split; [reflexivity|]. unfold mov, is_movable. exact E.
      + intros a [].
      + intros a n Hn. split; [eapply hk_bound; eauto|]. intros Hp. eapply Hm; eauto.
    - intros c Hc a Ha. apply (Hf c a Hc Ha).
  Qed.

  Theorem client_panics_clean {A} t h nx (C : chain -> Prop) (cl : client T A) :
    heap_ok h nx -> mimic_both h -> (forall c, C c -> exists l, chain_of h l c) -> real_chains C cl ->
    match run t (denote cl) (quiet h nx) with
    | Done _ s | Panicked _ s => locks s = ∅ /\ poison s = ∅
    | _ => True
    end.
  Proof. intros H1 H2 H3 H4. exact (ok_client t cl C _ H4 (good_start h nx C H1 H2 H3)). Qed.

  (** ** set_joint_position and poisoned mimic children *)
  Lemma mimic_loop_poison t a p po cs : forall h nx,
    match run t (mimic_loop a p cs) (Sh h nx {[a := t]} po) with
    | Panicked m s' => m = poison_msg /\ poison s' = po ∪ {[a]} /\ locks s' = ∅ /\ heap s' !! a = h !! a /\ (exists c, c ∈ cs /\ c ∈ po)
    | Done (Ok _) s' => forall c, c ∈ cs -> c ∉ po
    | _ => True
    end.
  Proof.
    induction cs as [|c cs IH]; intros h nx; cbn [mimic_loop].
    { cbn. intros c Hc. set_solver. }
    unfold lock, get, put, unlock. cbn [bind run heap locks poison]. destruct (h !! c) as [n|] eqn:Hn; [|exact I].
    destruct (decide (c = a)) as [->|Hne]; [rewrite lookup_singleton; exact I|]. rewrite lookup_singleton_ne by congruence.
    destruct (decide (c ∈ po)) as [Hc|Hc].
    { unfold unwind. cbn. split; [reflexivity|]. split; [|split; [|split; [reflexivity|]]].
      - f_equal. apply set_eq. intros b. rewrite elem_of_dom. split.
        + intros [u Hu]. apply map_filter_lookup_Some in Hu as [Hu _]. apply lookup_singleton_Some in Hu as [-> _]. set_solver.
        + intros Hb. apply elem_of_singleton in Hb as ->. exists t. apply map_filter_lookup_Some. rewrite lookup_singleton. auto.
      - apply map_empty. intros b. apply map_filter_lookup_None. right. intros u Hu. apply lookup_singleton_Some in Hu as [_ <-]. cbn. congruence.
      - exists c. split; [left|assumption]. }
    unfold set_locks. cbn [heap locks poison nxt bind run]. rewrite lookup_insert. destruct (decide _) as [_|F]; [|congruence].
    rewrite Hn. destruct (n_mimic n) as [m|].
    - cbn [bind run heap locks poison nxt]. rewrite lookup_insert. destruct (decide _) as [_|F]; [|congruence].
      unfold set_heap. cbn [heap locks poison nxt].
      destruct (snd _).
      + cbn [bind run heap locks poison nxt]. rewrite lookup_insert. destruct (decide _) as [_|F]; [|congruence].
        unfold set_locks. cbn [heap locks poison nxt].
        rewrite delete_insert by (rewrite lookup_singleton_ne by congruence; reflexivity).
        specialize (IH (<[c := set_n_joint n (fst (joint_set (n_joint n) (mimic_position m p)))]> h) nx).
        destruct (run t _ _) as [[u|e] s'|msg s'|b s'|s'|]; try exact I.
        * intros d Hd. apply elem_of_cons in Hd as [->|Hd]; [assumption|]. apply IH. assumption.
        * destruct IH as (H1 & H2 & H3 & H4 & d & Hd & Hp). rewrite lookup_insert_ne in H4 by congruence.
          repeat split; try assumption. exists d. split; [right; assumption|assumption].
      + cbn [bind run heap locks poison nxt]. rewrite lookup_insert. destruct (decide _) as [_|F]; [|congruence]. exact I.
    - unfold read. cbn [bind run heap locks poison nxt]. destruct (h !! a); [|exact I].
      rewrite lookup_insert_ne by congruence. rewrite lookup_singleton. exact I.
  Qed.
  Theorem set_position_poison t h nx po a n p :
    h !! a = Some n -> a ∉ po ->
    match run t (node_set_joint_position a p) (Sh h nx ∅ po) with
    | Panicked m s => m = poison_msg /\ poison s = po ∪ {[a]} /\ locks s = ∅ /\
        (exists c, c ∈ n_mimic_children n /\ c ∈ po) /\
        exists n', heap s !! a = Some n' /\ n_joint n' = fst (joint_set (n_joint n) p) /\ snd (joint_set (n_joint n) p) = Ok tt
    | Done (Ok _) s => n_mimic_parent n = None -> forall c, c ∈ n_mimic_children n -> c ∉ po
    | _ => True
    end.
  Proof.
    intros Hn Ha. unfold node_set_joint_position, lock, get, put, unlock. cbn [bind run heap locks poison]. rewrite Hn, lookup_empty.
    destruct (decide _) as [F|_]; [contradiction|]. unfold set_locks. cbn [heap locks poison nxt bind run].
    rewrite lookup_insert. destruct (decide _) as [_|F]; [|congruence]. rewrite Hn. destruct (n_mimic_parent n).
    { cbn [bind run heap locks poison nxt]. rewrite lookup_insert. destruct (decide _); [|exact I]. congruence. }
    cbv zeta. cbn [bind run heap locks poison nxt]. rewrite lookup_insert. destruct (decide _) as [_|F]; [|congruence].
    destruct (snd (joint_set (n_joint n) p)) as [[]|e] eqn:E.
    2: { cbn [bind run heap locks poison nxt set_heap]. rewrite lookup_insert. destruct (decide _); [|congruence]. exact I. }
    unfold set_heap. cbn [heap locks poison nxt]. rewrite RunLemmas.run_bind.
    pose proof (mimic_loop_poison t a p po (n_mimic_children n) (<[a := set_n_joint n (fst (joint_set (n_joint n) p))]> h) nx) as H.
    change (<[a := t]> ∅) with ({[a := t]} : gmap nat nat).
    destruct (run t (mimic_loop a p (n_mimic_children n)) _) as [[u|e] s'|msg s'|b s'|s'|]; cbn [RunLemmas.obind]; try exact I.
    - cbn [bind run]. destruct (decide _); [|exact I]. auto.
    - cbn [bind run]. destruct (decide _); [|exact I]. exact I.
    - destruct H as (H1 & H2 & H3 & H4 & H5). rewrite lookup_insert in H4. repeat split; try assumption.
      eexists. split; [exact H4|]. split; reflexivity.
  Qed.
End Start.
