(** * Basic facts about [run] *)
From Coq Require Import String.
From stdpp Require Import gmap.
From Verif Require Import Scalar Geometry Joint Link Prog NodeM.

Section Run.
  Context {T : Type}.
  Implicit Types (h : gmap nat (node T)) (L : gmap nat nat) (s : sh T).

  Definition obind {A B} (o : outcome T A) (k : A -> sh T -> outcome T B) : outcome T B :=
    match o with
    | Done a s => k a s
    | Panicked m s => Panicked m s
    | Deadlock a s => Deadlock a s
    | OutOfFuel s => OutOfFuel s
    | Stuck => Stuck
    end.

  Lemma run_bind {A B} t (p : prog T A) (f : A -> prog T B) s :
    run t (bind p f) s = obind (run t p s) (fun a s' => run t (f a) s').
  Proof.
    revert s. induction p as [a|a k IH|a k IH|a k IH|a n k IH|n k IH|a k IH|m|]; intros s;
      cbn [bind run obind]; auto.
    - destruct (heap s !! a); [|done]. destruct (locks s !! a); [done|].
      destruct (decide _); [done|]. apply IH.
    - destruct (decide _); [|done]. apply IH.
    - destruct (decide _); [|done]. destruct (heap s !! a); [|done]. apply IH.
    - destruct (decide _); [|done]. apply IH.
  Qed.

  Lemma run_bind_done {A B} t (p : prog T A) (f : A -> prog T B) s a s' :
    run t p s = Done a s' -> run t (bind p f) s = run t (f a) s'.
  Proof. intros H. rewrite run_bind, H. done. Qed.

  Lemma run_bind_inv {A B} t (p : prog T A) (f : A -> prog T B) s b s2 :
    run t (bind p f) s = Done b s2 ->
    exists a s1, run t p s = Done a s1 /\ run t (f a) s1 = Done b s2.
  Proof. rewrite run_bind. destruct (run t p s); cbn; try discriminate. eauto. Qed.

  Lemma bind_assoc_run {A B C} t (p : prog T A) (f : A -> prog T B) (g : B -> prog T C) s :
    run t (bind (bind p f) g) s = run t (bind p (fun a => bind (f a) g)) s.
  Proof.
    rewrite !run_bind. destruct (run t p s); cbn; auto. symmetry. apply run_bind.
  Qed.

  (** states with locks [L] held and nothing poisoned *)
  Lemma run_lock t a h nx L n (Hn : h !! a = Some n) (HL : L !! a = None) :
    run t (lock a) (Sh h nx L ∅) = Done tt (Sh h nx (<[a := t]> L) ∅).
  Proof.
    cbn [lock run heap locks poison]. rewrite Hn, HL.
    destruct (decide _) as [E|]; [set_solver|]. reflexivity.
  Qed.
  Lemma run_unlock t a h nx L (HL : L !! a = Some t) :
    run t (unlock a) (Sh h nx L ∅) = Done tt (Sh h nx (delete a L) ∅).
  Proof. cbn [unlock run heap locks poison]. destruct (decide _); [reflexivity|done]. Qed.
  Lemma run_get t a h nx L n (Hn : h !! a = Some n) (HL : L !! a = Some t) :
    run t (get a) (Sh h nx L ∅) = Done n (Sh h nx L ∅).
  Proof. cbn [get run heap locks poison]. destruct (decide _); [|done]. rewrite Hn. reflexivity. Qed.
  Lemma run_put t a h nx L n (HL : L !! a = Some t) :
    run t (put a n) (Sh h nx L ∅) = Done tt (Sh (<[a := n]> h) nx L ∅).
  Proof. cbn [put run heap locks poison]. destruct (decide _); [reflexivity|done]. Qed.
  Lemma run_read {A} t a (f : node T -> A) h nx L n (Hn : h !! a = Some n) (HL : L !! a = None) :
    run t (read a f) (Sh h nx L ∅) = Done (f n) (Sh h nx L ∅).
  Proof.
    cbn [read run heap locks poison set_locks]. rewrite Hn, HL.
    destruct (decide _) as [E|_]; [set_solver|]. cbn [set_locks heap locks poison nxt].
    rewrite lookup_insert. destruct (decide _); [|done]. rewrite ?Hn.
    rewrite delete_insert by done. reflexivity.
  Qed.
  Lemma run_modify t a (f : node T -> node T) h nx L n (Hn : h !! a = Some n) (HL : L !! a = None) :
    run t (modify a f) (Sh h nx L ∅) = Done tt (Sh (<[a := f n]> h) nx L ∅).
  Proof.
    cbn [modify run heap locks poison set_locks]. rewrite Hn, HL.
    destruct (decide _) as [E|_]; [set_solver|]. cbn [set_locks set_heap heap locks poison nxt].
    rewrite lookup_insert. destruct (decide _); [|done]. rewrite ?Hn.
    cbn [set_locks set_heap heap locks poison nxt]. rewrite delete_insert by done. reflexivity.
  Qed.
  Lemma run_new t n h nx L :
    run t (new n) (Sh h nx L ∅) = Done nx (Sh (<[nx := n]> h) (S nx) L ∅).
  Proof. reflexivity. Qed.
  Lemma run_upgrade t a h nx L :
    run t (upgrade a) (Sh h nx L ∅) = Done (bool_decide (is_Some (h !! a))) (Sh h nx L ∅).
  Proof. reflexivity. Qed.

  (** sections [lock a; ...; unlock a] *)
  Lemma run_lock_bind {A} t a (k : unit -> prog T A) h nx L n :
    h !! a = Some n -> L !! a = None ->
    run t (bind (lock a) k) (Sh h nx L ∅) = run t (k tt) (Sh h nx (<[a := t]> L) ∅).
  Proof. intros. erewrite run_bind_done; [reflexivity|]. eapply run_lock; eauto. Qed.
  Lemma run_get_bind {A} t a (k : node T -> prog T A) h nx L n :
    h !! a = Some n -> L !! a = Some t ->
    run t (bind (get a) k) (Sh h nx L ∅) = run t (k n) (Sh h nx L ∅).
  Proof. intros. erewrite run_bind_done; [reflexivity|]. eapply run_get; eauto. Qed.
  Lemma run_put_bind {A} t a n (k : unit -> prog T A) h nx L :
    L !! a = Some t ->
    run t (bind (put a n) k) (Sh h nx L ∅) = run t (k tt) (Sh (<[a := n]> h) nx L ∅).
  Proof. intros. erewrite run_bind_done; [reflexivity|]. eapply run_put; eauto. Qed.
  Lemma run_unlock_bind {A} t a (k : unit -> prog T A) h nx L :
    L !! a = Some t ->
    run t (bind (unlock a) k) (Sh h nx L ∅) = run t (k tt) (Sh h nx (delete a L) ∅).
  Proof. intros. erewrite run_bind_done; [reflexivity|]. eapply run_unlock; eauto. Qed.
  Lemma run_upgrade_bind {A} t a (k : bool -> prog T A) h nx L :
    run t (bind (upgrade a) k) (Sh h nx L ∅)
    = run t (k (bool_decide (is_Some (h !! a)))) (Sh h nx L ∅).
  Proof. reflexivity. Qed.

  (** lists *)
  Lemma run_mapM_cons {A B} t (f : A -> prog T B) x l s :
    run t (mapM f (x :: l)) s =
    obind (run t (f x) s) (fun y s1 =>
      obind (run t (mapM f l) s1) (fun ys s2 => Done (y :: ys) s2)).
  Proof.
    cbn [mapM]. rewrite run_bind. destruct (run t (f x) s); cbn; auto.
    rewrite run_bind. destruct (run t (mapM f l) s0); cbn; auto.
  Qed.
  (** a [mapM] whose body does not change the state *)
  Lemma run_mapM_pure {A B} t (f : A -> prog T B) (g : A -> B) l s :
    (forall x, x ∈ l -> run t (f x) s = Done (g x) s) ->
    run t (mapM f l) s = Done (map g l) s.
  Proof.
    induction l as [|x l IH]; intros H; [reflexivity|].
    rewrite run_mapM_cons, H by set_solver. cbn. rewrite IH by set_solver. reflexivity.
  Qed.
  Lemma run_filterM_pure {A} t (f : A -> prog T bool) (g : A -> bool) l s :
    (forall x, x ∈ l -> run t (f x) s = Done (g x) s) ->
    run t (filterM f l) s = Done (List.filter g l) s.
  Proof.
    induction l as [|x l IH]; intros H; [reflexivity|].
    cbn [filterM]. rewrite run_bind, H by set_solver. cbn [obind].
    rewrite run_bind, IH by set_solver. cbn [obind run List.filter]. destruct (g x); reflexivity.
  Qed.
  Lemma run_forM__cons {A} t (f : A -> prog T unit) x l s :
    run t (forM_ f (x :: l)) s =
    obind (run t (f x) s) (fun _ s1 => run t (forM_ f l) s1).
  Proof. cbn [forM_]. rewrite run_bind. destruct (run t (f x) s); reflexivity. Qed.
  Lemma run_forM__app {A} t (f : A -> prog T unit) l1 l2 s :
    run t (forM_ f (l1 ++ l2)) s =
    obind (run t (forM_ f l1) s) (fun _ s1 => run t (forM_ f l2) s1).
  Proof.
    revert s. induction l1 as [|x l1 IH]; intros s; [reflexivity|].
    cbn [app]. rewrite !run_forM__cons. destruct (run t (f x) s); cbn; auto.
  Qed.
  Lemma run_findM_pure {A} t (f : A -> prog T bool) (g : A -> bool) l s :
    (forall x, x ∈ l -> run t (f x) s = Done (g x) s) ->
    run t (findM f l) s = Done (List.find g l) s.
  Proof.
    induction l as [|x l IH]; intros H; [reflexivity|].
    cbn [findM List.find]. rewrite run_bind, H by set_solver. cbn [obind].
    destruct (g x); [reflexivity|]. apply IH. set_solver.
  Qed.
End Run.

(** [quiet] unfolds to the general shape *)
Lemma quiet_unfold {T} (h : gmap nat (node T)) nx : quiet h nx = Sh h nx ∅ ∅.
Proof. reflexivity. Qed.
Lemma unwind_quiet {T} t (h : gmap nat (node T)) nx : unwind t (quiet h nx) = quiet h nx.
Proof.
  unfold unwind, quiet. cbn [heap nxt locks poison]. rewrite !map_filter_empty, dom_empty_L.
  rewrite union_empty_l_L. reflexivity.
Qed.
Lemma run_panic_quiet {T A} t m (h : gmap nat (node T)) nx :
  run t (Panic (A := A) m) (quiet h nx) = Panicked m (quiet h nx).
Proof. cbn [run]. rewrite unwind_quiet. reflexivity. Qed.
