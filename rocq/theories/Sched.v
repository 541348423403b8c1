(** * Running one given schedule *)
From Coq Require Import String.
From stdpp Require Import gmap.
From Verif Require Import Scalar Geometry Joint Link Prog Api SpecHist.

Section Sched.
  Context {T A : Type}.
  Notation config := (list (thread T A) * sh T)%type.

  (** thread [t] executes one command *)
  Definition sched1 (t : nat) (c : config) : option config :=
    match c.1 !! t with
    | Some (Running p) =>
        match exec1 t p c.2 with
        | RStep p' s' => Some (<[t := Running p']> c.1, s')
        | RPanic m s' => Some (<[t := Dead m]> c.1, s')
        | _ => None
        end
    | _ => None
    end.
  (** thread [t] executes [k] commands *)
  Fixpoint sched_n (t k : nat) (c : config) : option config :=
    match k with 0 => Some c | S k => c' ← sched1 t c; sched_n t k c' end.
  Fixpoint sched (l : list (nat * nat)) (c : config) : option config :=
    match l with [] => Some c | (t, k) :: l => c' ← sched_n t k c; sched l c' end.

  Lemma sched1_sound t c c' : sched1 t c = Some c' -> tstep c c'.
  Proof.
    destruct c as [ths s]. unfold sched1. cbn [fst snd].
    destruct (ths !! t) as [[p|m]|] eqn:Et; try discriminate.
    destruct (exec1 t p s) eqn:E; try discriminate; intros H; injection H as <-.
    - eapply tstep_step; eauto.
    - eapply tstep_panic; eauto.
  Qed.
  Lemma sched_n_sound t k c c' : sched_n t k c = Some c' -> tsteps c c'.
  Proof.
    revert c. induction k as [|k IH]; intros c; cbn.
    - intros H. injection H as <-. apply rtc_refl.
    - destruct (sched1 t c) as [c1|] eqn:E; [|discriminate]. cbn. intros H.
      eapply rtc_l; [eapply sched1_sound; eauto|]. apply IH. exact H.
  Qed.
  Lemma sched_sound l c c' : sched l c = Some c' -> tsteps c c'.
  Proof.
    revert c. induction l as [|[t k] l IH]; intros c; cbn.
    - intros H. injection H as <-. apply rtc_refl.
    - destruct (sched_n t k c) as [c1|] eqn:E; [|discriminate]. cbn. intros H.
      etransitivity; [eapply sched_n_sound; eauto|]. apply IH. exact H.
  Qed.

  (** thread [t] waits for a mutex held by [u] *)
  Definition waits_b (c : config) (t u : nat) : bool :=
    match c.1 !! t with
    | Some (Running (Lock a _)) => bool_decide (locks c.2 !! a = Some u)
    | _ => false
    end.
  Lemma waits_b_sound c t u : waits_b c t u = true -> waits_for c.1 c.2 t u.
  Proof.
    unfold waits_b, waits_for. destruct (c.1 !! t) as [[p|]|]; try discriminate.
    destruct p; try discriminate. intros H. apply bool_decide_eq_true in H. eauto.
  Qed.
  Definition deadlock_b (c : config) (ws : list (nat * nat)) : bool :=
    match ws with [] => false | _ => forallb (fun tu => waits_b c tu.1 tu.2 && bool_decide (tu.2 ∈ map fst ws)) ws end.
  Lemma deadlock_b_sound c ws : deadlock_b c ws = true -> deadlocked c.1 c.2 (map fst ws).
  Proof.
    unfold deadlock_b. destruct ws as [|w ws]; [discriminate|]. rewrite forallb_forall. intros H.
    split; [discriminate|]. intros t Ht. apply elem_of_list_In, in_map_iff in Ht as (tu & <- & Hin).
    specialize (H tu Hin). apply andb_prop in H as [H1 H2]. exists tu.2. split.
    - apply bool_decide_eq_true in H2. exact H2.
    - apply waits_b_sound. exact H1.
  Qed.
  Lemma deadlock_reached l c ws :
    match sched l c with Some c' => deadlock_b c' ws | None => false end = true ->
    exists c', tsteps c c' /\ deadlocked c'.1 c'.2 (map fst ws).
  Proof.
    destruct (sched l c) as [c'|] eqn:E; [|discriminate]. intros H. exists c'.
    split; [eapply sched_sound; eauto|]. apply deadlock_b_sound. exact H.
  Qed.
  (** a thread died with this message *)
  Definition dead_b (c : config) (t : nat) (m : string) : bool :=
    match c.1 !! t with Some (Dead m') => String.eqb m m' | _ => false end.
  Lemma dead_reached l c t m a :
    match sched l c with Some c' => dead_b c' t m && bool_decide (a ∈ poison c'.2) && bool_decide (locks c'.2 !! a = None) | None => false end = true ->
    exists c', tsteps c c' /\ c'.1 !! t = Some (Dead m) /\ a ∈ poison c'.2 /\ locks c'.2 !! a = None.
  Proof.
    destruct (sched l c) as [c'|] eqn:E; [|discriminate]. rewrite !andb_true_iff. intros [[H1 H2] H3]. exists c'.
    split; [eapply sched_sound; eauto|]. unfold dead_b in H1. destruct (c'.1 !! t) as [[p|m']|]; try discriminate.
    apply String.eqb_eq in H1 as ->. apply bool_decide_eq_true in H2. apply bool_decide_eq_true in H3. auto.
  Qed.
  Lemma dead_reached' l c t m :
    match sched l c with Some c' => dead_b c' t m && bool_decide (poison c'.2 = ∅) | None => false end = true ->
    exists c', tsteps c c' /\ c'.1 !! t = Some (Dead m) /\ poison c'.2 = ∅.
  Proof.
    destruct (sched l c) as [c'|] eqn:E; [|discriminate]. rewrite !andb_true_iff. intros [H1 H2]. exists c'.
    split; [eapply sched_sound; eauto|]. unfold dead_b in H1. destruct (c'.1 !! t) as [[p|m']|]; try discriminate.
    apply String.eqb_eq in H1 as ->. apply bool_decide_eq_true in H2. auto.
  Qed.

  (** poisoning is permanent, and locking a poisoned mutex panics *)
  Lemma unwind_poison t (s : sh T) : poison s ⊆ poison (unwind t s).
  Proof. unfold unwind. cbn. set_solver. Qed.
  Lemma poison_step (c c' : config) : tstep c c' -> poison c.2 ⊆ poison c'.2.
  Proof.
    intros Hst. inversion Hst as [t ths s p p' s' Ht E|t ths s p m s' Ht E]; subst; cbn [snd].
    - destruct p; cbn in E; repeat case_match; try discriminate; injection E as <- <-; cbn; set_solver.
    - destruct p; cbn in E; repeat case_match; try discriminate; injection E as <- <-; apply unwind_poison.
  Qed.
  Lemma poison_steps (c c' : config) : tsteps c c' -> poison c.2 ⊆ poison c'.2.
  Proof. induction 1 as [|x y z H _ IH]; [reflexivity|]. etransitivity; [eapply poison_step; eauto|exact IH]. Qed.
  Lemma lock_poisoned t a (k : prog T A) s : is_Some (heap s !! a) -> locks s !! a = None -> a ∈ poison s ->
    exec1 t (Lock a k) s = RPanic poison_msg (unwind t s).
  Proof. intros [n Hn] Hl Hp. cbn. rewrite Hn, Hl. destruct (decide _); [reflexivity|contradiction]. Qed.
  Lemma run_lock_poisoned t a (k : prog T A) s : is_Some (heap s !! a) -> locks s !! a = None -> a ∈ poison s ->
    run t (Lock a k) s = Panicked poison_msg (unwind t s).
  Proof. intros [n Hn] Hl Hp. cbn. rewrite Hn, Hl. destruct (decide _); [reflexivity|contradiction]. Qed.
End Sched.
